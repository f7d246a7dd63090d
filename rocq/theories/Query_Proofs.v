(** Queries: what holds in every state. *)
From Verif Require Import Base Engine_Spec Engine_Model Engine_Proofs Engine_Props Rest_Proofs Whole_Model Whole_Proofs Query_Spec Query_Model.
From Verif Require Term_Model Term_Proofs Term_All.
Open Scope nat_scope.

Lemma nil_true {A} (l : list A) : nil l = true <-> l = [].
Proof. by destruct l. Qed.
Lemma out_app {E} (l l' : list (nat * (nat * E))) v : out (l ++ l') v = out l v ++ out l' v.
Proof. unfold out. by rewrite List.filter_app, map_app. Qed.
Lemma out_rest {A} (l : list (nat * (nat * edge_t A))) v : out (rest_of A l v) v = [].
Proof. unfold out, rest_of. induction l as [|[u x] l IH]; [done|]. cbn. destruct (Nat.eqb_spec u v) as [->|Hne]; cbn; [done|]. by destruct (Nat.eqb_spec u v). Qed.
Lemma out_rest_ne {A} (l : list (nat * (nat * edge_t A))) v u : u <> v -> out (rest_of A l v) u = out l u.
Proof.
  intros Hne. unfold out, rest_of. induction l as [|[w x] l IH]; [done|]. cbn. destruct (Nat.eqb_spec w v) as [->|Hw]; cbn.
  - destruct (Nat.eqb_spec v u); [congruence|]. done.
  - destruct (w =? u); cbn; by rewrite IH.
Qed.

(** A step of a thread's loop leaves the flag [open_] of the others, and clears its own only by
    three choices. *)
Lemma open_other sw n s t c u : u <> t -> Term_Model.open_ (Term_Model.step sw n s (t, c)) u = Term_Model.open_ s u.
Proof.
  intros Hne. unfold Term_Model.step. cbn [fst snd]. destruct (t <? n); [|done]. unfold Term_Model.go, Term_Model.received.
  destruct (Term_Model.at_ s t); destruct c; try done; cbv zeta; repeat case_match; cbn; by Term_Proofs.fs.
Qed.
Definition closes (c : Term_Model.choice) : bool :=
  match c with Term_Model.Close | Term_Model.FinishCheck | Term_Model.More true => true | _ => false end.
Lemma open_own sw n s t c : closes c = false -> Term_Model.open_ (Term_Model.step sw n s (t, c)) t = Term_Model.open_ s t.
Proof.
  intros Hc. unfold Term_Model.step. cbn [fst snd]. destruct (t <? n); [|done]. unfold Term_Model.go, Term_Model.received.
  destruct (Term_Model.at_ s t); destruct c as [| | | | |[]| |]; try done; cbv zeta; repeat case_match; cbn; by Term_Proofs.fs.
Qed.

Section query.
Context (a : alg) (owner : nat -> nat) (swap : bool) (n : nat) (Hown : forall v, owner v < n).
Context (evs : list (nat * (nat * edge_t a))) (ask : nat -> bool) (e0 : est a) (sent0 : nat -> N).
Notation qstep := (qstep a owner swap n evs ask).
Notation qrun := (qrun a owner swap n evs ask).
Notation wstep := (wstep a owner swap n).
Notation qst := (qst a).
Notation at_ s t := (Term_Model.at_ (trm (who s)) t).
Notation open_ s t := (Term_Model.open_ (trm (who s)) t).

(** Steps of a thread: the others stay where they are. *)
Lemma lwork_one (w : wst a) t x : lwork a owner w t x = [] \/ exists c, lwork a owner w t x = [(t, c)].
Proof.
  unfold lwork. destruct (Term_Model.at_ (trm w) t); destruct x as [c|c]; try (by left); try (right; by eexists).
  - destruct c; destruct (todo (eng w) t); try (by left); case_match; eauto.
  - destruct c; destruct (todo (eng w) t) as [|[]]; eauto.
Qed.
Lemma wstep_other (w : wst a) t x u : u <> t ->
  Term_Model.at_ (trm (wstep w t x)) u = Term_Model.at_ (trm w) u /\ Term_Model.open_ (trm (wstep w t x)) u = Term_Model.open_ (trm w) u.
Proof.
  intros Hne. rewrite trm_step. destruct (lwork_one w t x) as [->|(c & ->)]; [done|]. cbn. split; [by apply loop_other|by apply open_other].
Qed.
Definition plain_x (x : wchoice a) : Prop := match x with Ctl c => closes c = false | Do _ => True end.
Lemma wstep_open (w : wst a) t x : plain_x x -> Term_Model.open_ (trm (wstep w t x)) t = Term_Model.open_ (trm w) t.
Proof.
  intros Hx. rewrite trm_step. unfold lwork.
  destruct (Term_Model.at_ (trm w) t); destruct x as [c|c]; try done; try (by apply open_own).
  - destruct c; destruct (todo (eng w) t); try done; try (case_match; [|done]); cbn; try (by apply open_own).
  - destruct c; destruct (todo (eng w) t) as [|[]]; try done; cbn; by apply open_own.
Qed.
Definition stays (x : wchoice a) : Prop :=
  match x with Ctl (Term_Model.Finish | Term_Model.FinishCheck | Term_Model.More _) => False | _ => True end.
Lemma wstep_work (w : wst a) t x got sent own : Term_Model.at_ (trm w) t = Term_Model.Work got sent own -> stays x ->
  exists sent', Term_Model.at_ (trm (wstep w t x)) t = Term_Model.Work got sent' own.
Proof.
  intros Hp Hx. rewrite trm_step. unfold lwork. rewrite Hp. destruct x as [c|c].
  - destruct c; try done; destruct (todo (eng w) t); by eexists.
  - destruct c; destruct (todo (eng w) t) as [|[]]; try by eexists.
    cbn. unfold Term_Model.step. cbn [fst snd]. destruct (t <? n); [|by eexists]. unfold Term_Model.go. rewrite Hp.
    case_match; [|by eexists]. cbn. Term_Proofs.fs. by eexists.
Qed.
Definition no_edges (x : wchoice a) : Prop := match x with Do (AddEdges _ _) | Do (DelEdges _ _) => False | _ => True end.
Lemma step_edges (e : est a) t c : no_edges (Do c) -> edges (estep a owner e t c) = edges e.
Proof.
  intros Hc. unfold Engine_Model.estep. destruct (todo e t) as [|o rest]; destruct c; try done.
  - by destruct (queue e t).
  - by destruct (owner v =? t).
  - unfold exec_op. destruct o as [v d m|d|d|v|v k|v k i got|l|v m]; try done.
    + by destruct (merge a m v d (box e d)).
    + by case_match.
    + destruct (box e v !! i); [by destruct (take a c)|]. by destruct (react a v k (prop e v) (edges e v) got) as [[? ?] ?].
    + by destruct (merge a m v v (box e v)).
Qed.
Lemma wstep_edges (w : wst a) t x : no_edges x -> edges (eng (wstep w t x)) = edges (eng w).
Proof.
  intros Hx. rewrite eng_step. unfold ework. destruct (Term_Model.at_ (trm w) t); destruct x as [c|c]; try done.
  destruct c; destruct (todo (eng w) t) as [|o l] eqn:E; try done; try (case_match; [|done]); try (case_match; [done|]); cbn; by apply step_edges.
Qed.
Lemma wstep_add (w : wst a) t v l : owner v = t -> ework a w t (Do (AddEdges v l)) <> [] ->
  edges (eng (wstep w t (Do (AddEdges v l)))) = upd (edges (eng w)) v (edges (eng w) v ++ l).
Proof.
  intros Hv. rewrite eng_step. unfold ework. destruct (Term_Model.at_ (trm w) t); try done. destruct (todo (eng w) t) eqn:E; [|done]. case_match; [done|]. intros _.
  cbn. unfold Engine_Model.estep. rewrite E, Hv, Nat.eqb_refl. done.
Qed.

(** The modes of a thread with respect to the queries, and which are possible when. *)
Inductive mode := Free | Called | Inside | Answered | Taken | Held | Freed.
Definition is_in (m : mode) (s : qst) (t : nat) : Prop :=
  match m with
  | Free => epoch s t = false /\ acked s t = false /\ cmds s t = [] /\ resp s t = 0
  | Called => epoch s t = false /\ acked s t = false /\ cmds s t = [Epoch] /\ resp s t = 0
  | Inside => epoch s t = true /\ acked s t = false /\ cmds s t = [] /\ resp s t = 0
  | Answered => epoch s t = true /\ acked s t = true /\ cmds s t = [] /\ resp s t = 1 /\ at_ s t = Term_Model.Done
  | Taken => epoch s t = true /\ acked s t = true /\ cmds s t = [] /\ resp s t = 0 /\ at_ s t = Term_Model.Done
  | Held => epoch s t = true /\ acked s t = true /\ cmds s t = [] /\ resp s t = 0 /\ open_ s t = true
  | Freed => epoch s t = true /\ acked s t = true /\ cmds s t = [Resume] /\ resp s t = 0 /\ open_ s t = true
  end.
Definition modes (l : logger) (t : nat) (m : mode) : Prop :=
  match l with
  | LWait => m = Free \/ m = Freed
  | LCast i => if t <? i then m = Called \/ m = Inside \/ m = Answered else m = Free \/ m = Freed
  | LAwait i => if t <? i then m = Taken else m = Called \/ m = Inside \/ m = Answered
  | LView => m = Taken
  | LResume i => if t <? i then m = Free \/ m = Freed else m = Held
  end.
Definition asking (l : logger) : Prop := match l with LWait => False | _ => True end.

(** The queries that have been looked at. *)
Definition asked_upto (k : nat) : list nat := List.filter ask (seq 1 k).
Definition looked (l : logger) : Prop := match l with LResume _ => True | _ => False end.

Record qinv (s : qst) : Prop := Qinv {
  q_w : winv a n (who s);
  q_unused : unused a n (eng (who s));
  q_trm : exists own q c l, trm (who s) = Term_Model.exec swap n (Term_Model.start own q c) l;
  q_graph : forall v, edges (eng (who s)) v ++ out (batch s (owner v)) v ++ out (tq s (owner v)) v = edges e0 v ++ out (firstn (nxt s) evs) v;
  q_batch : forall t, batch s t = [] \/ exists got sent own, at_ s t = Term_Model.Work got sent own;
  q_batch_open : forall t, open_ s t = false -> batch s t = [];
  q_open : forall t, t < n -> open_ s t = false -> tq s t = [] /\ (rem s = Finished \/ epoch s t = true /\ rem s = Asked);
  q_mode : forall t, t < n -> exists m, modes (lg s) t m /\ is_in m s t;
  q_asking : asking (lg s) -> rem s = Asked;
  q_nxt : nxt s <= length evs /\ (rem s = Asked -> ask (nxt s) = true) /\ (rem s = Finished -> nxt s = length evs);
  q_seen : (rem s = Asked /\ ~ looked (lg s) -> seen s ++ [nxt s] = asked_upto (nxt s)) /\
           (rem s <> Asked \/ looked (lg s) -> seen s = asked_upto (nxt s)) }.

Lemma is_in_same s s' t m : is_in m s t -> epoch s' t = epoch s t -> acked s' t = acked s t -> cmds s' t = cmds s t -> resp s' t = resp s t ->
  (acked s t = true -> at_ s' t = at_ s t /\ open_ s' t = open_ s t) -> is_in m s' t.
Proof.
  intros H E1 E2 E3 E4 E5. destruct m; cbn in *; rewrite E1, E2, E3, E4; try done;
    destruct H as (H1 & H2 & H3 & H4 & H5); destruct (E5 H2) as [E6 E7]; by rewrite ?E6, ?E7.
Qed.

Lemma winv_restart s : winv a n (who s) -> (forall t, t < n -> at_ s t = Term_Model.Done) -> winv a n (restart a (who s)).
Proof.
  intros HW HD. assert (Hat : forall t, at_ s t = Term_Model.Done \/ at_ s t = Term_Model.Recv 0).
  { intros t. destruct (decide (t < n)); [left; by apply HD|right; apply (w_out _ _ _ HW); lia]. }
  constructor; cbn.
  - intros t. left. destruct (w_todo _ _ _ HW t) as [?|H]; [done|]. destruct (Hat t) as [E|E]; by rewrite E in H.
  - intros t. left. destruct (w_did _ _ _ HW t) as [?|H]; [done|]. destruct (Hat t) as [E|E]; by rewrite E in H.
  - intros t. pose proof (w_batch _ _ _ HW t) as H. destruct (Hat t) as [E|E]; by rewrite E in H.
  - intros t. pose proof (w_queue _ _ _ HW t) as H. destruct (Hat t) as [E|E]; by rewrite E in H.
  - apply (w_count _ _ _ HW).
  - done.
Qed.

Lemma asked_upto_S k : asked_upto (S k) = asked_upto k ++ (if ask (S k) then [S k] else []).
Proof. unfold asked_upto. rewrite seq_S, List.filter_app. cbn. by destruct (ask (S k)). Qed.

Lemma remit_inv s : qinv s -> qinv (remit a owner evs ask s).
Proof.
  intros H. unfold remit. destruct (rem s) eqn:Er; [|done|done].
  assert (Hna : ~ asking (lg s)) by (intros K; apply H in K; congruence).
  assert (Hnl : ~ looked (lg s)) by (intros K; apply Hna; by destruct (lg s)).
  assert (Hop : forall t, t < n -> open_ s t = true).
  { intros t Ht. destruct (open_ s t) eqn:E; [done|]. apply H in E as [_ [E|[_ E]]]; [congruence|congruence|done]. }
  pose proof (q_nxt _ H) as (Hn1 & _ & _). pose proof (proj2 (q_seen _ H)) as Hseen. rewrite Er in Hseen. specialize (Hseen ltac:(by left)).
  destruct (nth_error evs (nxt s)) as [[v x]|] eqn:En.
  - assert (Hlt : nxt s < length evs) by (apply nth_error_Some; by rewrite En).
    assert (Ef : firstn (S (nxt s)) evs = firstn (nxt s) evs ++ [(v, x)]).
    { clear -En. revert En. generalize (nxt s). induction evs as [|y l IH]; intros [|k]; cbn; intros E; try done; [by injection E as ->|]. f_equal. by apply IH. }
    constructor; cbn [who tq batch epoch acked cmds resp nxt rem lg seen]; try apply H.
    + intros u. rewrite Ef, out_app, (app_assoc (edges e0 u)), <- (q_graph _ H u). unfold upd. destruct (Nat.eqb_spec (owner u) (owner v)) as [E|E].
      * rewrite out_app, E, !app_assoc. done.
      * assert (Hne : v <> u) by congruence. assert (Ez : out [(v, x)] u = []) by (unfold out; cbn; by destruct (Nat.eqb_spec v u)).
        by rewrite Ez, app_nil_r.
    + intros t Ht Ho. by rewrite Hop in Ho.
    + done.
    + split_and!; [lia| |]; destruct (ask (S (nxt s))) eqn:Ea; try done; by rewrite ?Ea.
    + rewrite asked_upto_S, <- Hseen. destruct (ask (S (nxt s))) eqn:Ea; (split; [intros [? _]|intros [?|?]]); try done. by rewrite app_nil_r.
  - assert (Hge : nxt s = length evs) by (apply nth_error_None in En; lia).
    constructor; cbn [who tq batch epoch acked cmds resp nxt rem lg seen]; try apply H.
    + intros t Ht Ho. by rewrite Hop in Ho.
    + done.
    + done.
    + split; [by intros [? _]|done].
Qed.

Lemma log_inv s : qinv s -> qinv (log_step a n s).
Proof.
  intros H. unfold log_step. destruct (lg s) as [|i|i| |i] eqn:El.
  - destruct (rem s) eqn:Er; try done. constructor; cbn [set_lg who tq batch epoch acked cmds resp nxt rem lg seen]; try apply H; try done.
    + intros t Ht. destruct (q_mode _ H t Ht) as (m & Hm & Hi). rewrite El in Hm. exists m. split; [done|]. by apply (is_in_same s).
    + pose proof (q_seen _ H) as [Q1 Q2]. rewrite El, Er in Q1, Q2. rewrite Er. split; [auto|]. intros [?|[]]; by apply Q2; auto.
  - assert (Er : rem s = Asked) by (apply H; by rewrite El).
    destruct (Nat.ltb_spec i n) as [Hi|Hi].
    + destruct (nil (cmds s i)) eqn:En; [|done]. apply nil_true in En.
      constructor; cbn [set_lg who tq batch epoch acked cmds resp nxt rem lg seen]; try apply H; try done.
      * intros t Ht. destruct (q_mode _ H t Ht) as (m & Hm & Hin). rewrite El in Hm. cbn [modes] in Hm. destruct (decide (t = i)) as [->|Hne].
        -- rewrite Nat.ltb_irrefl in Hm. destruct Hm as [->| ->]; cbn in Hin; destruct_and!; [|congruence].
           exists Called. split; [cbn [modes]; case_match eqn:E; [by left|apply Nat.ltb_ge in E; lia]|]. cbn. rewrite upd_eq. by split_and!.
        -- exists m. split; [|apply (is_in_same s); try done; cbn; by rewrite upd_ne].
           cbn [modes]. destruct (Nat.ltb_spec t i), (Nat.ltb_spec t (S i)); try done; lia.
      * pose proof (q_seen _ H) as [Q1 Q2]. rewrite El, Er in Q1, Q2. rewrite Er. split; [auto|]. intros [?|[]]; by apply Q2; auto.
    + constructor; cbn [set_lg who tq batch epoch acked cmds resp nxt rem lg seen]; try apply H; try done.
      * intros t Ht. destruct (q_mode _ H t Ht) as (m & Hm & Hin). rewrite El in Hm. cbn [modes] in Hm. exists m. split; [|by apply (is_in_same s)]. cbn [modes]. destruct (Nat.ltb_spec t i); [done|lia].
      * pose proof (q_seen _ H) as [Q1 Q2]. rewrite El, Er in Q1, Q2. rewrite Er. split; [auto|]. intros [?|[]]; by apply Q2; auto.
  - assert (Er : rem s = Asked) by (apply H; by rewrite El).
    destruct (Nat.ltb_spec i n) as [Hi|Hi].
    + destruct (resp s i) as [|r] eqn:En; [done|].
      constructor; cbn [set_lg who tq batch epoch acked cmds resp nxt rem lg seen]; try apply H; try done.
      * intros t Ht. destruct (q_mode _ H t Ht) as (m & Hm & Hin). rewrite El in Hm. cbn [modes] in Hm. destruct (decide (t = i)) as [->|Hne].
        -- rewrite Nat.ltb_irrefl in Hm. destruct Hm as [->|[->| ->]]; cbn in Hin; destruct_and!; try congruence.
           exists Taken. split; [cbn [modes]; case_match eqn:E; [done|apply Nat.ltb_ge in E; lia]|]. cbn. rewrite upd_eq. split_and!; try done. congruence.
        -- exists m. split; [|apply (is_in_same s); try done; cbn; by rewrite upd_ne].
           cbn [modes]. destruct (Nat.ltb_spec t i), (Nat.ltb_spec t (S i)); try done; lia.
      * pose proof (q_seen _ H) as [Q1 Q2]. rewrite El, Er in Q1, Q2. rewrite Er. split; [auto|]. intros [?|[]]; by apply Q2; auto.
    + constructor; cbn [set_lg who tq batch epoch acked cmds resp nxt rem lg seen]; try apply H; try done.
      * intros t Ht. destruct (q_mode _ H t Ht) as (m & Hm & Hin). rewrite El in Hm. cbn [modes] in Hm. exists m. split; [|by apply (is_in_same s)]. cbn [modes]. destruct (Nat.ltb_spec t i); [done|lia].
      * pose proof (q_seen _ H) as [Q1 Q2]. rewrite El, Er in Q1, Q2. rewrite Er. split; [auto|]. intros [?|[]]; by apply Q2; auto.
  - assert (Er : rem s = Asked) by (apply H; by rewrite El).
    assert (HT : forall t, t < n -> is_in Taken s t).
    { intros t Ht. destruct (q_mode _ H t Ht) as (m & Hm & Hin). rewrite El in Hm. cbn [modes] in Hm. by subst m. }
    constructor; cbn [set_lg who tq batch epoch acked cmds resp nxt rem lg seen]; try apply H; try done.
    + apply winv_restart; [apply H|]. intros t Ht. by apply HT.
    + by exists (fun _ => true), (Term_Model.queue (trm (who s))), (Term_Model.cnt (trm (who s))), [].
    + intros t. left. destruct (q_batch _ H t) as [?|(g & x & o & E)]; [done|]. destruct (decide (t < n)) as [Ht|Ht].
      * destruct (HT t Ht) as (_ & _ & _ & _ & E'). congruence.
      * rewrite (w_out _ _ _ (q_w _ H) t) in E by lia. done.
    + intros t Ht. exists Held. split; [done|]. pose proof (HT t Ht) as Hi. cbn in Hi |- *. destruct_and!. by split_and!.
    + pose proof (q_seen _ H) as [Q1 Q2]. rewrite El, Er in Q1, Q2. rewrite Er. split; [intros [_ []]; done|]. intros _. apply Q1. split; [done|by intros []].
  - assert (Er : rem s = Asked) by (apply H; by rewrite El).
    destruct (Nat.ltb_spec i n) as [Hi|Hi].
    + destruct (nil (cmds s i)) eqn:En; [|done]. apply nil_true in En.
      constructor; cbn [set_lg who tq batch epoch acked cmds resp nxt rem lg seen]; try apply H; try done.
      * intros t Ht. destruct (q_mode _ H t Ht) as (m & Hm & Hin). rewrite El in Hm. cbn [modes] in Hm. destruct (decide (t = i)) as [->|Hne].
        -- rewrite Nat.ltb_irrefl in Hm. subst m. cbn in Hin; destruct_and!.
           exists Freed. split; [cbn [modes]; case_match eqn:E; [by right|apply Nat.ltb_ge in E; lia]|]. cbn. rewrite upd_eq. by split_and!.
        -- exists m. split; [|apply (is_in_same s); try done; cbn; by rewrite upd_ne].
           cbn [modes]. destruct (Nat.ltb_spec t i), (Nat.ltb_spec t (S i)); try done; lia.
      * pose proof (q_seen _ H) as [Q1 Q2]. rewrite El, Er in Q1, Q2. rewrite Er. split; [by intros [_ []]|]. intros _. apply Q2. by right.
    + assert (HF : forall t, t < n -> is_in Free s t \/ is_in Freed s t).
      { intros t Ht. destruct (q_mode _ H t Ht) as (m & Hm & Hin). rewrite El in Hm. cbn [modes] in Hm. destruct (Nat.ltb_spec t i); [|lia]. destruct Hm as [->| ->]; auto. }
      constructor; cbn [set_lg who tq batch epoch acked cmds resp nxt rem lg seen]; try apply H; try done.
      * intros t Ht Ho. pose proof (q_open _ H t Ht Ho) as [_ [E|[E _]]]; [congruence|]. destruct (HF t Ht) as [Hi'|Hi']; cbn in Hi'; destruct_and!; congruence.
      * intros t Ht. destruct (HF t Ht); [exists Free|exists Freed]; (split; [cbn; auto|by apply (is_in_same s)]).
      * split_and!; [apply H|done|done].
      * pose proof (q_seen _ H) as [Q1 Q2]. rewrite El, Er in Q1, Q2. split; [by intros [? _]|]. intros _. apply Q2. by right.
Qed.

(** A thread that is inside an epoch and has not answered. *)
Lemma inside s t : qinv s -> t < n -> acked s t = false -> epoch s t = true -> rem s = Asked.
Proof.
  intros H Ht Ha He. destruct (q_mode _ H t Ht) as (m & Hm & Hi). apply H.
  destruct m; cbn in Hi; destruct_and!; try congruence. destruct (lg s); cbn in *; try done. by destruct Hm.
Qed.

Lemma trm_more s t x : (exists own q c l, trm (who s) = Term_Model.exec swap n (Term_Model.start own q c) l) ->
  exists own q c l, trm (wstep (who s) t x) = Term_Model.exec swap n (Term_Model.start own q c) l.
Proof.
  intros (own & q & c & l & E). exists own, q, c, (l ++ lwork a owner (who s) t x). rewrite trm_step, E. unfold Term_Model.exec. by rewrite fold_left_app.
Qed.
Lemma unused_more s t x : unused a n (eng (who s)) -> unused a n (eng (wstep (who s) t x)).
Proof. intros H. rewrite eng_step. by apply (unused_run a owner n Hown). Qed.

Lemma on_inv s t x : qinv s -> t < n -> acked s t = false -> no_edges x -> (batch s t <> [] -> stays x) ->
  (plain_x x \/ batch s t = [] /\ tq s t = [] /\ (epoch s t = true \/ rem s = Finished)) -> qinv (on a owner swap n s t x).
Proof.
  intros H Ht Ha Hx Hst Hcl.
  assert (Hoth : forall u, u <> t -> at_ (on a owner swap n s t x) u = at_ s u /\ open_ (on a owner swap n s t x) u = open_ s u) by (intros u Hu; by apply wstep_other).
  constructor; cbn [on set_who who tq batch epoch acked cmds resp nxt rem lg seen]; try apply H.
  - apply (winv_step a owner swap n Hown), H.
  - apply unused_more, H.
  - apply trm_more, H.
  - rewrite wstep_edges by done. apply H.
  - intros u. destruct (decide (u = t)) as [->|Hne].
    + destruct (q_batch _ H t) as [?|(g & sn & o & E)]; [by left|]. destruct (batch s t) eqn:Eb; [by left|]. right.
      destruct (wstep_work (who s) t x g sn o E) as (sn' & E'); [by apply Hst|]. by exists g, sn', o.
    + destruct (Hoth u Hne) as [E _]. cbn in E. rewrite E. apply H.
  - intros u Ho. destruct (decide (u = t)) as [->|Hne].
    + destruct Hcl as [Hp|(Hb & _)]; [|done]. rewrite wstep_open in Ho by done. by apply H.
    + destruct (Hoth u Hne) as [_ E]. cbn in E. rewrite E in Ho. by apply H.
  - intros u Hu Ho. destruct (decide (u = t)) as [->|Hne].
    + destruct Hcl as [Hp|(Hb & Hq & He)]; [rewrite wstep_open in Ho by done; by apply H|]. split; [done|].
      destruct He as [He|He]; [right; split; [done|by apply (inside s t)]|by left].
    + destruct (Hoth u Hne) as [_ E]. cbn in E. rewrite E in Ho. by apply H.
  - intros u Hu. destruct (q_mode _ H u Hu) as (m & Hm & Hi). exists m. split; [done|]. apply (is_in_same s); try done.
    intros Hak. apply Hoth. congruence.
Qed.

Lemma loop_inv s t x : qinv s -> t < n -> acked s t = false -> qinv (loop a owner swap n s t x).
Proof.
  intros H Ht Ha. destruct x as [[]|c].
  - cbn [loop]. case_match; [done|]. apply on_inv; try done. by left.
  - apply on_inv; try done. by left.
  - apply on_inv; try done. by left.
  - cbn [loop]. destruct (nil (batch s t)) eqn:Eb; [|done]. apply nil_true in Eb. apply on_inv; try done. by left.
  - cbn [loop]. destruct (nil (batch s t)) eqn:Eb, (nil (tq s t)) eqn:Eq, (finished a s) eqn:Ef; try done. apply nil_true in Eb, Eq.
    apply on_inv; try done. right. split_and!; try done. right. unfold finished in Ef. by destruct (rem s).
  - cbn [loop]. destruct (nil (batch s t)) eqn:Eb; [|done]. apply nil_true in Eb. destruct closed; cbn [negb orb andb].
    + destruct (nil (tq s t)) eqn:Eq, (finished a s) eqn:Ef; try done. apply nil_true in Eq. apply on_inv; try done. right. split_and!; try done.
      right. unfold finished in Ef. by destruct (rem s).
    + apply on_inv; try done. by left.
  - done.
  - cbn [loop]. destruct (nil (tq s t)) eqn:Eq; [|done]. apply nil_true in Eq. destruct (epoch s t || finished a s) eqn:Ef; [|done].
    destruct (batch s t) eqn:Eb.
    + apply on_inv; try done. right. split_and!; try done. apply orb_true_iff in Ef as [?|Ef]; [by left|right]. unfold finished in Ef. by destruct (rem s).
    + (* the thread is at work: nothing happens *)
      destruct (q_batch _ H t) as [?|(g & sn & o & E)]; [congruence|]. cbn [andb].
      enough (on a owner swap n s t (Ctl Term_Model.Close) = s) as -> by done.
      unfold on, Whole_Model.wstep. rewrite E. by destruct s.
  - destruct c.
    + cbn [loop]. apply on_inv; try done. by left.
    + cbn [loop]. destruct (nil (batch s t)) eqn:Eb; [|done]. apply on_inv; try done. by left.
    + cbn [loop]. cbv zeta. set (x := Do _). destruct (Nat.eqb_spec (owner v) t) as [Hv|]; [|done]. destruct (nil (out (batch s t) v)) eqn:Eo; [done|].
      destruct (nil (ework a (who s) t x)) eqn:Ew; [done|]. cbn [negb andb].
      assert (Hw : ework a (who s) t x <> []) by (intros E; by rewrite E in Ew).
      assert (Hb : batch s t <> []) by (intros E; by rewrite E in Eo).
      assert (Hop : open_ s t = true) by (destruct (open_ s t) eqn:E; [done|]; by apply H in E).
      assert (Hoth : forall u, u <> t -> Term_Model.at_ (trm (wstep (who s) t x)) u = at_ s u /\ Term_Model.open_ (trm (wstep (who s) t x)) u = open_ s u) by (intros u Hu; by apply wstep_other).
      constructor; cbn [set_top who tq batch epoch acked cmds resp nxt rem lg seen]; try apply H.
      * apply (winv_step a owner swap n Hown), H.
      * apply unused_more, H.
      * apply trm_more, H.
      * intros u. unfold x. rewrite wstep_add by done. rewrite <- (q_graph _ H u). unfold upd. destruct (Nat.eqb_spec u v) as [->|Hne].
        -- rewrite Hv, Nat.eqb_refl, out_rest. by rewrite <- !app_assoc.
        -- destruct (Nat.eqb_spec (owner u) t) as [E|E]; [|done]. rewrite out_rest_ne by done. by rewrite E.
      * intros u. unfold upd. destruct (Nat.eqb_spec u t) as [->|Hne].
        -- right. destruct (q_batch _ H t) as [?|(g & sn & o & E)]; [done|]. destruct (wstep_work (who s) t x g sn o E) as (sn' & E'); [done|]. by exists g, sn', o.
        -- destruct (Hoth u Hne) as [E _]. rewrite E. apply H.
      * intros u Ho. unfold upd. destruct (Nat.eqb_spec u t) as [->|Hne]; [rewrite wstep_open in Ho by done; congruence|].
        destruct (Hoth u Hne) as [_ E]. rewrite E in Ho. by apply H.
      * intros u Hu Ho. destruct (decide (u = t)) as [->|Hne]; [rewrite wstep_open in Ho by done; congruence|].
        destruct (Hoth u Hne) as [_ E]. rewrite E in Ho. by apply H.
      * intros u Hu. destruct (q_mode _ H u Hu) as (m & Hm & Hi). exists m. split; [done|]. apply (is_in_same s); try done.
        intros Hak. apply Hoth. congruence.
    + done.
    + cbn [loop]. apply on_inv; try done. by left.
Qed.
Lemma pull_inv s t k r : qinv s -> t < n -> acked s t = false -> qinv (pull a owner swap n s t k r).
Proof.
  intros H Ht Ha. unfold pull. destruct (may_pull a s t k r) eqn:Hm; [|done]. unfold may_pull in Hm.
  repeat (apply andb_true_iff in Hm as [Hm ?]). unfold looking in Hm. destruct (at_ s t) as [|got| | | | | | | | | | | | | | |] eqn:Hp; try done.
  set (x := Ctl _).
  assert (Hoth : forall u, u <> t -> Term_Model.at_ (trm (wstep (who s) t x)) u = at_ s u /\ Term_Model.open_ (trm (wstep (who s) t x)) u = open_ s u) by (intros u Hu; by apply wstep_other).
  assert (Hb : batch s t = []) by (destruct (q_batch _ H t) as [?|(? & ? & ? & ?)]; [done|congruence]).
  constructor; cbn [set_top who tq batch epoch acked cmds resp nxt rem lg seen]; try apply H.
  - apply (winv_step a owner swap n Hown), H.
  - apply unused_more, H.
  - apply trm_more, H.
  - intros u. rewrite wstep_edges by done. rewrite <- (q_graph _ H u). unfold upd. destruct (Nat.eqb_spec (owner u) t) as [E|E]; [|done].
    rewrite E, out_app, <- app_assoc, <- (out_app (firstn k _)), firstn_skipn. done.
  - intros u. unfold upd. destruct (Nat.eqb_spec u t) as [->|Hne].
    + right. rewrite trm_step. unfold lwork. rewrite Hp. subst x. cbn. unfold Term_Model.step. cbn [fst snd]. rewrite (proj2 (Nat.ltb_lt t n) Ht). unfold Term_Model.go. rewrite Hp, H4. cbn. Term_Proofs.fs. by do 3 eexists.
    + destruct (Hoth u Hne) as [E _]. rewrite E. apply H.
  - intros u Ho. unfold upd. destruct (Nat.eqb_spec u t) as [->|Hne]; [rewrite wstep_open in Ho by done; congruence|].
    destruct (Hoth u Hne) as [_ E]. rewrite E in Ho. by apply H.
  - intros u Hu Ho. unfold upd. destruct (Nat.eqb_spec u t) as [->|Hne]; [rewrite wstep_open in Ho by done; congruence|].
    destruct (Hoth u Hne) as [_ E]. rewrite E in Ho. by apply H.
  - intros u Hu. destruct (q_mode _ H u Hu) as (m & Hm' & Hi). exists m. split; [done|]. apply (is_in_same s); try done.
    intros Hak. apply Hoth. congruence.
Qed.

Lemma tstep_inv s t x : qinv s -> qinv (tstep a owner swap n s t x).
Proof.
  intros H. unfold tstep. destruct (Nat.leb_spec n t) as [|Ht]; [done|]. destruct (acked s t) eqn:Ha.
  - destruct x; try done. destruct (cmds s t) as [|[] c] eqn:Ec; try done.
    destruct (q_mode _ H t Ht) as (m & Hm & Hi). assert (m = Freed) as -> by (destruct m; cbn in Hi; destruct_and!; try done; congruence).
    cbn in Hi. destruct Hi as (E1 & _ & E3 & E4 & E5). assert (c = []) as -> by congruence.
    constructor; cbn [set_cmd who tq batch epoch acked cmds resp nxt rem lg seen]; try apply H.
    + intros u Hu Ho. unfold upd. destruct (Nat.eqb_spec u t) as [->|Hne]; [congruence|]. by apply H.
    + intros u Hu. destruct (decide (u = t)) as [->|Hne].
      * exists Free. split; [|cbn; rewrite !upd_eq; by split_and!]. destruct (lg s); cbn [modes] in *; try case_match; naive_solver.
      * destruct (q_mode _ H u Hu) as (m & Hm' & Hi). exists m. split; [done|]. apply (is_in_same s); try done; cbn; by rewrite upd_ne.
  - destruct x as [|x|k r| |].
    + destruct (cmds s t) as [|c l] eqn:Ec; [done|]. destruct (receiving a s t); [|done].
      destruct (q_mode _ H t Ht) as (m & Hm & Hi). assert (m = Called) as -> by (destruct m; cbn in Hi; destruct_and!; try done; congruence).
      cbn in Hi. destruct Hi as (E1 & _ & E3 & E4). rewrite Ec in E3. injection E3 as -> ->.
      constructor; cbn [set_cmd who tq batch epoch acked cmds resp nxt rem lg seen]; try apply H.
      * intros u Hu Ho. destruct (q_open _ H u Hu Ho) as [? [?|[? ?]]]; (split; [done|]); [by left|right]. split; [|done]. unfold upd. by case_match.
      * intros u Hu. destruct (decide (u = t)) as [->|Hne].
        -- exists Inside. split; [|cbn; rewrite !upd_eq; by split_and!]. destruct (lg s); cbn [modes] in *; try case_match; naive_solver.
        -- destruct (q_mode _ H u Hu) as (m & Hm' & Hi). exists m. split; [done|]. apply (is_in_same s); try done; cbn; by rewrite upd_ne.
    + by apply loop_inv.
    + by apply pull_inv.
    + destruct (at_done a s t) eqn:Ed, (epoch s t) eqn:Ee, (resp s t =? 0) eqn:Ers; try done. cbn [andb].
      destruct (q_mode _ H t Ht) as (m & Hm & Hi). assert (m = Inside) as -> by (destruct m; cbn in Hi; destruct_and!; try done; congruence).
      cbn in Hi. destruct Hi as (_ & _ & E3 & E4). unfold at_done in Ed.
      constructor; cbn [set_cmd who tq batch epoch acked cmds resp nxt rem lg seen]; try apply H.
      intros u Hu. destruct (decide (u = t)) as [->|Hne].
      * exists Answered. split; [|cbn; rewrite !upd_eq, E4; split_and!; try done; by destruct (at_ s t)]. destruct (lg s); cbn [modes] in *; try case_match; naive_solver.
      * destruct (q_mode _ H u Hu) as (m & Hm' & Hi). exists m. split; [done|]. apply (is_in_same s); try done; cbn; by rewrite upd_ne.
    + done.
Qed.
Lemma qstep_inv s x : qinv s -> qinv (qstep s x).
Proof. destruct x; [apply remit_inv|apply log_inv|apply tstep_inv]. Qed.
Lemma qrun_inv l : forall s, qinv s -> qinv (qrun s l).
Proof. induction l as [|x l IH]; intros s H; [done|]. by apply IH, qstep_inv. Qed.
Lemma qstart_inv : (forall t, todo e0 t = []) -> (forall t, n <= t -> queue e0 t = []) -> sumN sent0 n = sumN (fun t => N.of_nat (length (queue e0 t))) n ->
  qinv (qstart a e0 sent0).
Proof.
  intros F1 F2 F3. constructor; cbn; try done.
  - by apply (winv_start a owner n Hown).
  - by exists (fun _ => true), (fun t => N.of_nat (length (queue e0 t))), sent0, [].
  - by left.
  - intros t Ht. exists Free. split; [by left|done].
  - split_and!; [lia|done|done].
  - by split; [intros [? _]|].
Qed.

(** The engine: a run of it. *)
Lemma qwork_step s x : eng (who (qstep s x)) = erun a owner (eng (who s)) (qwork a owner n s x).
Proof.
  destruct x as [| |t x]; cbn [Query_Model.qstep qwork].
  - unfold remit. destruct (rem s); try done. by destruct (nth_error evs (nxt s)) as [[]|].
  - unfold log_step. destruct (lg s); try done; try (destruct (rem s); done); try (case_match; [case_match|]; done).
  - unfold tstep. destruct (n <=? t); [by destruct x as [|[]| | |]|]. destruct (acked s t).
    + destruct x; try done. destruct (cmds s t) as [|[]]; done.
    + cbn [orb]. destruct x as [|x|k r| |]; try done.
      * destruct (cmds s t); [done|]. by case_match.
      * destruct x as [c|c].
        -- assert (E : eng (who (on a owner swap n s t (Ctl c))) = eng (who s)).
           { cbn. rewrite eng_step. unfold ework. by destruct (Term_Model.at_ _ t). }
           destruct c; cbn [loop]; try done; try case_match; done.
        -- destruct c; cbn [loop]; try apply eng_step; try done.
           ++ destruct (nil (batch s t)); [apply eng_step|done].
           ++ cbv zeta. destruct (owner v =? t); [|done]. destruct (nil (out (batch s t) v)); [done|]. cbn [negb andb].
              destruct (nil (ework a (who s) t _)) eqn:E; [apply nil_true in E; by rewrite E|]. apply eng_step.
      * unfold pull. case_match; [|done]. cbn. rewrite eng_step. unfold ework. by destruct (Term_Model.at_ _ t).
      * by case_match.
Qed.
Lemma qwork_run l : forall s, eng (who (qrun s l)) = erun a owner (eng (who s)) (qworks a owner swap n evs ask s l).
Proof.
  induction l as [|x l IH]; intros s; [done|]. cbn [qworks]. unfold erun. rewrite fold_left_app. fold (erun a owner (eng (who s)) (qwork a owner n s x)).
  rewrite <- qwork_step. apply IH.
Qed.

(** What a look at the graph finds. *)
Lemma all_done_rest s : qinv s -> (forall t, t < n -> at_ s t = Term_Model.Done) ->
  idle (eng (who s)) /\ complete n (who s) = true /\ forall v, edges (eng (who s)) v = edges e0 v ++ out (firstn (nxt s) evs) v.
Proof.
  intros H HD. pose proof (q_trm _ H) as (own & q & c & l & Et).
  assert (HQ : Term_Proofs.quiet n (trm (who s))).
  { rewrite Et. apply Term_All.all_left_quiet. rewrite <- Et. exact HD. }
  pose proof (quiet_idle a owner n Hown (who s) (q_w _ H) (q_unused _ H) HQ) as HI.
  split_and!; [done|by apply (idle_complete a owner n Hown); [apply H| |]|].
  intros v. rewrite <- (q_graph _ H v). destruct (HQ (owner v) (Hown v)) as (_ & _ & Ho).
  rewrite (q_batch_open _ H _ Ho), (proj1 (q_open _ H _ (Hown v) Ho)). cbn. by rewrite app_nil_r.
Qed.
Lemma view_done s : qinv s -> lg s = LView -> forall t, t < n -> is_in Taken s t.
Proof. intros H Hl t Ht. destruct (q_mode _ H t Ht) as (m & Hm & Hi). rewrite Hl in Hm. cbn in Hm. by subst. Qed.

(** What is added comes from the stream. *)
Definition from_evs (s : qst) : Prop := forall t x, x ∈ batch s t \/ x ∈ tq s t -> x ∈ evs.
Lemma from_step s x : from_evs s -> from_evs (qstep s x).
Proof.
  intros H. destruct x as [| |t x]; cbn [Query_Model.qstep].
  - unfold remit. destruct (rem s); try done. destruct (nth_error evs (nxt s)) as [[v y]|] eqn:En; [|done].
    intros t z. cbn. intros [Hz|Hz]; [apply (H t); by left|]. revert Hz. unfold upd. case_match; [|intros Hz; apply (H t); by right].
    rewrite elem_of_app, elem_of_list_singleton. intros [Hz| ->]; [apply (H (owner v)); by right|]. apply elem_of_list_In. by apply nth_error_In in En.
  - unfold log_step. destruct (lg s); try done; try (destruct (rem s); done); try (case_match; [case_match|]; done).
  - unfold tstep. destruct (n <=? t); [done|]. destruct (acked s t); [destruct x; try done; destruct (cmds s t) as [|[]]; done|].
    destruct x as [|x|k r| |]; try done.
    + destruct (cmds s t); [done|]. by case_match.
    + destruct x as [[]|[]]; cbn [loop]; try done; try (case_match; done). cbv zeta. case_match; [|done]. intros u z. cbn. unfold upd.
      intros [Hz|Hz]; [|apply (H u); by right]. case_match eqn:E; [|apply (H u); by left]. apply (H t). left. unfold rest_of in Hz. apply elem_of_list_In, filter_In in Hz as [Hz _]. by apply elem_of_list_In.
    + unfold pull. case_match; [|done]. intros u z. cbn. unfold upd. case_match eqn:E; [|apply (H u)]. intros [Hz|Hz]; apply (H t).
      * apply elem_of_app in Hz as [?|Hz]; [by left|right]. rewrite <- (firstn_skipn k). apply elem_of_app. by left.
      * right. rewrite <- (firstn_skipn k). apply elem_of_app. by right.
    + by case_match.
Qed.
Lemma out_in {E} (l : list (nat * (nat * E))) v x : x ∈ out l v <-> (v, x) ∈ l.
Proof.
  unfold out. rewrite elem_of_list_In, in_map_iff. split.
  - intros ([u y] & <- & Hy). apply filter_In in Hy as [Hy E']. cbn in E'. apply Nat.eqb_eq in E' as ->. by apply elem_of_list_In.
  - intros H. exists (v, x). split; [done|]. apply filter_In. cbn. rewrite Nat.eqb_refl. by rewrite <- elem_of_list_In.
Qed.
Lemma ework_in (w : wst a) t x t' c : (t', c) ∈ ework a w t x -> x = Do c /\ t' = t.
Proof.
  unfold ework. destruct (Term_Model.at_ (trm w) t); try by rewrite elem_of_nil. destruct x as [|c']; [by rewrite elem_of_nil|].
  destruct c'; destruct (todo (eng w) t); try case_match; rewrite ?elem_of_nil, ?elem_of_list_singleton; try done; by intros [= -> ->].
Qed.
Lemma qworks_in l : forall s t c, from_evs s -> (t, c) ∈ qworks a owner swap n evs ask s l ->
  match c with
  | Run | Pop => True
  | AddEdges v es => es <> [] /\ forall x, x ∈ es -> (v, x) ∈ evs
  | DelEdges _ _ => False
  | SendInit v m => Thread t (Loop (Do (SendInit v m))) ∈ l
  end.
Proof.
  induction l as [|y l IH]; intros s t c Hs Hin; [cbn in Hin; by apply elem_of_nil in Hin|]. cbn [qworks] in Hin. apply elem_of_app in Hin as [Hin|Hin].
  - unfold qwork in Hin. destruct y as [| |u [|x| | |]]; try by apply elem_of_nil in Hin. destruct ((n <=? u) || acked s u); [by apply elem_of_nil in Hin|].
    destruct x as [|c']; [by apply elem_of_nil in Hin|]. destruct c' as [| |v l'|v l'|v m].
    + by apply ework_in in Hin as [[= <-] ->].
    + destruct (nil (batch s u)); [|by apply elem_of_nil in Hin]. by apply ework_in in Hin as [[= <-] ->].
    + cbv zeta in Hin. destruct (_ && _) eqn:E; [|by apply elem_of_nil in Hin]. apply ework_in in Hin as [[= <-] ->]. split; [intros E'; rewrite E', !andb_true_iff in E; by destruct E|]. intros x Hx. apply out_in in Hx. apply (Hs u). by left.
    + by apply elem_of_nil in Hin.
    + apply ework_in in Hin as [[= <-] ->]. apply elem_of_list_here.
  - specialize (IH _ _ _ (from_step s y Hs) Hin). destruct c; try done. by apply elem_of_list_further.
Qed.
End query.
