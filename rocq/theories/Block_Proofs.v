(** Queries that do not wait for the algorithm: what holds in every state. *)
From Verif Require Import Base Engine_Spec Engine_Model Engine_Proofs Engine_Props Rest_Proofs Whole_Model Whole_Proofs Query_Spec Query_Proofs Block_Spec Block_Model.
From Verif Require Term_Model Term_Proofs Term_All.
Open Scope nat_scope.

(** Before the stream is closed nobody is in the check for termination, and nothing is in it. *)
Definition early_pc (p : Term_Model.pc) : Prop := match p with Term_Model.Recv _ | Term_Model.Look _ | Term_Model.Work _ _ _ => True | _ => False end.
Definition early (s : Term_Model.st) : Prop :=
  Term_Model.data s = (fun _ => 0%N) /\ Term_Model.view s = (fun _ => 0%N) /\ Term_Model.vote s = (fun _ => 0%N) /\
  forall t, Term_Model.open_ s t = true /\ early_pc (Term_Model.at_ s t).
Lemma early_step sw n s t c : closes c = false -> early s -> early (Term_Model.step sw n s (t, c)).
Proof.
  intros Hc (E1 & E2 & E3 & E4). unfold Term_Model.step. cbn [fst snd]. destruct (t <? n); [|done]. pose proof (E4 t) as [Eo Ep].
  assert (K : forall s', Term_Model.data s' = Term_Model.data s -> Term_Model.view s' = Term_Model.view s -> Term_Model.vote s' = Term_Model.vote s ->
    Term_Model.open_ s' = Term_Model.open_ s -> (forall u, u <> t -> Term_Model.at_ s' u = Term_Model.at_ s u) -> early_pc (Term_Model.at_ s' t) -> early s').
  { intros s' D V W O A P. unfold early. rewrite D, V, W, O. split_and!; try done. intros u. destruct (decide (u = t)) as [->|Hne]; [done|]. rewrite A by done. apply E4. }
  unfold Term_Model.go, Term_Model.received.
  destruct (Term_Model.at_ s t) eqn:Ea; try done; destruct c as [| | | | |[]| |]; try done; cbv zeta; rewrite ?Eo; repeat case_match; try done;
    apply K; cbn; try done; try (intros w Hw); by Term_Proofs.fs.
Qed.

Lemma filter_firstn {A} (f : A -> bool) (l pre suf : list A) : List.filter f l = pre ++ suf -> exists j, j <= length l /\ List.filter f (firstn j l) = pre.
Proof.
  revert pre. induction l as [|x l IH]; intros pre; cbn [List.filter].
  - intros E. symmetry in E. apply app_eq_nil in E as [-> _]. by exists 0.
  - destruct pre as [|y pre]; [intros _; exists 0; cbn; split; [lia|done]|]. destruct (f x) eqn:Ex.
    + cbn. intros [= <- E]. destruct (IH _ E) as (j & Hj & Ej). exists (S j). cbn. rewrite Ex, Ej. split; [lia|done].
    + intros E. destruct (IH _ E) as (j & Hj & Ej). exists (S j). cbn. rewrite Ex, Ej. split; [lia|done].
Qed.
Lemma out_mine {E} (owner : nat -> nat) (l : list (nat * (nat * E))) v : out (List.filter (fun x => owner (fst x) =? owner v) l) v = out l v.
Proof.
  unfold out. induction l as [|[u x] l IH]; [done|]. cbn. destruct (Nat.eqb_spec u v) as [->|Hne].
  - rewrite Nat.eqb_refl. cbn. rewrite Nat.eqb_refl. cbn. by rewrite IH.
  - destruct (owner u =? owner v); [|done]. cbn. destruct (Nat.eqb_spec u v); [done|]. done.
Qed.

Lemma choose_upto (P : nat -> nat -> Prop) n : (forall t, exists j, P t j) -> exists f : nat -> nat, forall t, t < n -> P t (f t).
Proof.
  intros HC. induction n as [|k (f & IH)]; [exists (fun _ => 0); intros; lia|]. destruct (HC k) as (j & Hj). exists (upd f k j). intros t Ht. unfold upd. destruct (Nat.eqb_spec t k) as [->|]; [done|]. apply IH. lia.
Qed.

Section block.
Context (a : alg) (owner : nat -> nat) (swap : bool) (n : nat) (Hown : forall v, owner v < n).
Context (evs : list (nat * (nat * edge_t a))) (ask : nat -> bool) (async : bool) (verts : list nat) (e0 : est a) (sent0 : nat -> N).
Notation bstep := (bstep a owner swap n evs ask async verts).
Notation brun := (brun a owner swap n evs ask async verts).
Notation wstep := (wstep a owner swap n).
Notation bst := (bst a).
Notation at_ s t := (Term_Model.at_ (trm (bwho s)) t).
Notation open_ s t := (Term_Model.open_ (trm (bwho s)) t).

Definition blocked (s : bst) (t : nat) : Prop :=
  if async then top s t = true /\ held s t = false else top s t = false /\ held s t = true /\ exists got, at_ s t = Term_Model.Recv got.
Inductive bmode := BFree | BCalled | BAnswered | BTaken | BFreed.
Definition b_in (m : bmode) (s : bst) (t : nat) : Prop :=
  match m with
  | BFree => top s t = false /\ held s t = false /\ bcmds s t = [] /\ bresp s t = 0
  | BCalled => top s t = false /\ held s t = false /\ bcmds s t = [block async] /\ bresp s t = 0
  | BAnswered => blocked s t /\ bcmds s t = [] /\ bresp s t = 1
  | BTaken => blocked s t /\ bcmds s t = [] /\ bresp s t = 0
  | BFreed => blocked s t /\ bcmds s t = [BResume] /\ bresp s t = 0
  end.
Definition bmodes (l : logger) (t : nat) (m : bmode) : Prop :=
  match l with
  | LWait => m = BFree \/ m = BFreed
  | LCast i => if t <? i then m = BCalled \/ m = BAnswered else m = BFree \/ m = BFreed
  | LAwait i => if t <? i then m = BTaken else m = BCalled \/ m = BAnswered
  | LView => m = BTaken
  | LResume i => if t <? i then m = BFree \/ m = BFreed else m = BTaken
  end.
Notation asking := Query_Proofs.asking. Notation looked := Query_Proofs.looked. Notation asked_upto := (Query_Proofs.asked_upto ask).
Definition mine (t : nat) (l : list (nat * (nat * edge_t a))) := List.filter (fun x => owner (fst x) =? t) l.

Record binv (s : bst) : Prop := Binv {
  b_w : winv a n (bwho s);
  b_unused : unused a n (eng (bwho s));
  b_trm : exists own q c l, trm (bwho s) = Term_Model.exec swap n (Term_Model.start own q c) l;
  b_graph : forall v, edges (eng (bwho s)) v ++ out (bbatch s (owner v)) v ++ out (btq s (owner v)) v = edges e0 v ++ out (firstn (bnxt s) evs) v;
  b_suffix : forall t, exists pre, mine t (firstn (bnxt s) evs) = pre ++ btq s t;
  b_batch : forall t, bbatch s t = [] \/ exists got sent own, at_ s t = Term_Model.Work got sent own;
  b_batch_open : forall t, open_ s t = false -> bbatch s t = [];
  b_top : forall t, top s t = true -> bbatch s t = [];
  b_early : brem s <> Finished -> early (trm (bwho s));
  b_open : forall t, t < n -> open_ s t = false -> btq s t = [];
  b_mode : forall t, t < n -> exists m, bmodes (blg s) t m /\ b_in m s t;
  b_asking : asking (blg s) -> brem s = Asked;
  b_nxt : bnxt s <= length evs /\ (brem s = Asked -> ask (bnxt s) = true) /\ (brem s = Finished -> bnxt s = length evs);
  b_seen : (brem s = Asked /\ ~ looked (blg s) -> bseen s ++ [bnxt s] = asked_upto (bnxt s)) /\
           (brem s <> Asked \/ looked (blg s) -> bseen s = asked_upto (bnxt s)) }.

Lemma b_in_same s s' t m : b_in m s t -> top s' t = top s t -> held s' t = held s t -> bcmds s' t = bcmds s t -> bresp s' t = bresp s t ->
  (held s t = true -> at_ s' t = at_ s t) -> b_in m s' t.
Proof.
  intros H E1 E2 E3 E4 E5.
  assert (K : blocked s t -> blocked s' t).
  { unfold blocked. rewrite E1, E2. destruct async; [done|]. intros (? & Hh & ?). by rewrite (E5 Hh). }
  destruct m; cbn in *; rewrite ?E1, ?E2, E3, E4; naive_solver.
Qed.

Lemma reset_same w : early (trm w) -> reset a w = w.
Proof. destruct w as [e [A O Q C D V W] d ns nr]. unfold early, reset. cbn. by intros (-> & -> & -> & _). Qed.

Lemma bremit_inv s : binv s -> binv (bremit a owner evs ask s).
Proof.
  intros H. unfold bremit. destruct (brem s) eqn:Er; [|done|done].
  assert (Hna : ~ asking (blg s)) by (intros K; apply H in K; congruence).
  assert (Hnl : ~ looked (blg s)) by (intros K; apply Hna; by destruct (blg s)).
  assert (Hea : early (trm (bwho s))) by (apply H; congruence).
  assert (Hop : forall t, open_ s t = true) by (intros t; by apply Hea).
  pose proof (b_nxt _ H) as (Hn1 & _ & _). pose proof (proj2 (b_seen _ H)) as Hseen. rewrite Er in Hseen. specialize (Hseen ltac:(by left)).
  destruct (nth_error evs (bnxt s)) as [[v x]|] eqn:En.
  - assert (Hlt : bnxt s < length evs) by (apply nth_error_Some; by rewrite En).
    assert (Ef : firstn (S (bnxt s)) evs = firstn (bnxt s) evs ++ [(v, x)]).
    { clear -En. revert En. generalize (bnxt s). induction evs as [|y l IH]; intros [|k]; cbn; intros E; try done; [by injection E as ->|]. f_equal. by apply IH. }
    constructor; cbn [bwho btq bbatch top held bcmds bresp bnxt brem blg bseen]; try apply H.
    + intros u. rewrite Ef, out_app, (app_assoc (edges e0 u)), <- (b_graph _ H u). unfold upd. destruct (Nat.eqb_spec (owner u) (owner v)) as [E|E].
      * rewrite out_app, E, !app_assoc. done.
      * assert (Hne : v <> u) by congruence. assert (Ez : out [(v, x)] u = []) by (unfold out; cbn; by destruct (Nat.eqb_spec v u)).
        by rewrite Ez, app_nil_r.
    + intros t. rewrite Ef. unfold mine. rewrite List.filter_app. fold (mine t (firstn (bnxt s) evs)). destruct (b_suffix _ H t) as (pre & ->). exists pre.
      cbn. unfold upd. rewrite (Nat.eqb_sym t). destruct (Nat.eqb_spec (owner v) t) as [<-|]; [by rewrite app_assoc|by rewrite app_nil_r].
    + done.
    + intros t Ht Ho. by rewrite Hop in Ho.
    + done.
    + split_and!; [lia| |]; destruct (ask (S (bnxt s))) eqn:Ea; try done; by rewrite ?Ea.
    + rewrite asked_upto_S, <- Hseen. destruct (ask (S (bnxt s))) eqn:Ea; (split; [intros [? _]|intros [?|?]]); try done. by rewrite app_nil_r.
  - assert (Hge : bnxt s = length evs) by (apply nth_error_None in En; lia).
    constructor; cbn [bwho btq bbatch top held bcmds bresp bnxt brem blg bseen]; try apply H; try done.
    split; [by intros [? _]|done].
Qed.

Lemma blog_inv s : binv s -> binv (blog_step a n async verts s).
Proof.
  intros H. unfold blog_step. destruct (blg s) as [|i|i| |i] eqn:El.
  - destruct (brem s) eqn:Er; try done. constructor; cbn [bset_lg bwho btq bbatch top held bcmds bresp bnxt brem blg bseen]; try apply H; try done.
    + intros t Ht. destruct (b_mode _ H t Ht) as (m & Hm & Hi). rewrite El in Hm. exists m. split; [done|]. by apply (b_in_same s).
    + pose proof (b_seen _ H) as [Q1 Q2]. rewrite El, Er in Q1, Q2. rewrite Er. split; [auto|]. intros [?|[]]; by apply Q2; auto.
  - assert (Er : brem s = Asked) by (apply H; by rewrite El).
    destruct (Nat.ltb_spec i n) as [Hi|Hi].
    + destruct (nil (bcmds s i)) eqn:En; [|done]. apply nil_true in En.
      constructor; cbn [bset_lg bwho btq bbatch top held bcmds bresp bnxt brem blg bseen]; try apply H; try done.
      * intros t Ht. destruct (b_mode _ H t Ht) as (m & Hm & Hin). rewrite El in Hm. cbn [bmodes] in Hm. destruct (decide (t = i)) as [->|Hne].
        -- rewrite Nat.ltb_irrefl in Hm. destruct Hm as [->| ->]; cbn in Hin; destruct_and!; [|congruence].
           exists BCalled. split; [cbn [bmodes]; case_match eqn:E; [by left|apply Nat.ltb_ge in E; lia]|]. cbn. rewrite upd_eq. by split_and!.
        -- exists m. split; [|apply (b_in_same s); try done; cbn; by rewrite upd_ne].
           cbn [bmodes]. destruct (Nat.ltb_spec t i), (Nat.ltb_spec t (S i)); try done; lia.
      * pose proof (b_seen _ H) as [Q1 Q2]. rewrite El, Er in Q1, Q2. rewrite Er. split; [auto|]. intros [?|[]]; by apply Q2; auto.
    + constructor; cbn [bset_lg bwho btq bbatch top held bcmds bresp bnxt brem blg bseen]; try apply H; try done.
      * intros t Ht. destruct (b_mode _ H t Ht) as (m & Hm & Hin). rewrite El in Hm. cbn [bmodes] in Hm. exists m. split; [|by apply (b_in_same s)]. cbn [bmodes]. destruct (Nat.ltb_spec t i); [done|lia].
      * pose proof (b_seen _ H) as [Q1 Q2]. rewrite El, Er in Q1, Q2. rewrite Er. split; [auto|]. intros [?|[]]; by apply Q2; auto.
  - assert (Er : brem s = Asked) by (apply H; by rewrite El).
    destruct (Nat.ltb_spec i n) as [Hi|Hi].
    + destruct (bresp s i) as [|r] eqn:En; [done|].
      constructor; cbn [bset_lg bwho btq bbatch top held bcmds bresp bnxt brem blg bseen]; try apply H; try done.
      * intros t Ht. destruct (b_mode _ H t Ht) as (m & Hm & Hin). rewrite El in Hm. cbn [bmodes] in Hm. destruct (decide (t = i)) as [->|Hne].
        -- rewrite Nat.ltb_irrefl in Hm. destruct Hm as [->| ->]; cbn in Hin; destruct_and!; try congruence.
           exists BTaken. split; [cbn [bmodes]; case_match eqn:E; [done|apply Nat.ltb_ge in E; lia]|]. cbn. rewrite upd_eq. split_and!; try done. congruence.
        -- exists m. split; [|apply (b_in_same s); try done; cbn; by rewrite upd_ne].
           cbn [bmodes]. destruct (Nat.ltb_spec t i), (Nat.ltb_spec t (S i)); try done; lia.
      * pose proof (b_seen _ H) as [Q1 Q2]. rewrite El, Er in Q1, Q2. rewrite Er. split; [auto|]. intros [?|[]]; by apply Q2; auto.
    + constructor; cbn [bset_lg bwho btq bbatch top held bcmds bresp bnxt brem blg bseen]; try apply H; try done.
      * intros t Ht. destruct (b_mode _ H t Ht) as (m & Hm & Hin). rewrite El in Hm. cbn [bmodes] in Hm. exists m. split; [|by apply (b_in_same s)]. cbn [bmodes]. destruct (Nat.ltb_spec t i); [done|lia].
      * pose proof (b_seen _ H) as [Q1 Q2]. rewrite El, Er in Q1, Q2. rewrite Er. split; [auto|]. intros [?|[]]; by apply Q2; auto.
  - assert (Er : brem s = Asked) by (apply H; by rewrite El).
    destruct (nil (fin s)); [|done]. rewrite reset_same by (apply H; congruence).
    constructor; cbn [bset_lg bwho btq bbatch top held bcmds bresp bnxt brem blg bseen]; try apply H; try done.
    + intros t Ht. destruct (b_mode _ H t Ht) as (m & Hm & Hi). rewrite El in Hm. cbn in Hm. subst m. exists BTaken. by split.
    + pose proof (b_seen _ H) as [Q1 Q2]. rewrite El, Er in Q1, Q2. rewrite Er. split; [intros [_ []]; done|]. intros _. apply Q1. split; [done|by intros []].
  - assert (Er : brem s = Asked) by (apply H; by rewrite El).
    destruct (Nat.ltb_spec i n) as [Hi|Hi].
    + destruct (nil (bcmds s i)) eqn:En; [|done]. apply nil_true in En.
      constructor; cbn [bset_lg bwho btq bbatch top held bcmds bresp bnxt brem blg bseen]; try apply H; try done.
      * intros t Ht. destruct (b_mode _ H t Ht) as (m & Hm & Hin). rewrite El in Hm. cbn [bmodes] in Hm. destruct (decide (t = i)) as [->|Hne].
        -- rewrite Nat.ltb_irrefl in Hm. subst m. cbn in Hin; destruct_and!.
           exists BFreed. split; [cbn [bmodes]; case_match eqn:E; [by right|apply Nat.ltb_ge in E; lia]|]. cbn. rewrite upd_eq. by split_and!.
        -- exists m. split; [|apply (b_in_same s); try done; cbn; by rewrite upd_ne].
           cbn [bmodes]. destruct (Nat.ltb_spec t i), (Nat.ltb_spec t (S i)); try done; lia.
      * pose proof (b_seen _ H) as [Q1 Q2]. rewrite El, Er in Q1, Q2. rewrite Er. split; [by intros [_ []]|]. intros _. apply Q2. by right.
    + assert (HF : forall t, t < n -> b_in BFree s t \/ b_in BFreed s t).
      { intros t Ht. destruct (b_mode _ H t Ht) as (m & Hm & Hin). rewrite El in Hm. cbn [bmodes] in Hm. destruct (Nat.ltb_spec t i); [|lia]. destruct Hm as [->| ->]; auto. }
      constructor; cbn [bset_lg bwho btq bbatch top held bcmds bresp bnxt brem blg bseen]; try apply H; try done.
      * intros _. apply H. congruence.
      * intros t Ht. destruct (HF t Ht); [exists BFree|exists BFreed]; (split; [cbn; auto|by apply (b_in_same s)]).
      * split_and!; [apply H|done|done].
      * pose proof (b_seen _ H) as [Q1 Q2]. rewrite El, Er in Q1, Q2. split; [by intros [? _]|]. intros _. apply Q2. by right.
Qed.

Lemma btrm_more s t x : (exists own q c l, trm (bwho s) = Term_Model.exec swap n (Term_Model.start own q c) l) ->
  exists own q c l, trm (wstep (bwho s) t x) = Term_Model.exec swap n (Term_Model.start own q c) l.
Proof.
  intros (own & q & c & l & E). exists own, q, c, (l ++ lwork a owner (bwho s) t x). rewrite trm_step, E. unfold Term_Model.exec. by rewrite fold_left_app.
Qed.
Lemma bunused_more s t x : unused a n (eng (bwho s)) -> unused a n (eng (wstep (bwho s) t x)).
Proof. intros H. rewrite eng_step. by apply (unused_run a owner n Hown). Qed.
Lemma early_more (w : wst a) t x : plain_x a x -> early (trm w) -> early (trm (wstep w t x)).
Proof.
  intros Hx He. rewrite trm_step. unfold lwork.
  destruct (Term_Model.at_ (trm w) t); destruct x as [c|c]; try done; try (by apply early_step).
  - destruct c; destruct (todo (eng w) t); try done; try (case_match; [|done]); cbn; try (by apply early_step).
  - destruct c; destruct (todo (eng w) t) as [|[]]; try done; cbn; by apply early_step.
Qed.

Lemma bon_inv s t x : binv s -> t < n -> held s t = false -> no_edges a x -> (bbatch s t <> [] -> stays a x) ->
  (plain_x a x \/ bbatch s t = [] /\ btq s t = [] /\ brem s = Finished) -> binv (bon a owner swap n s t x).
Proof.
  intros H Ht Ha Hx Hst Hcl.
  assert (Hoth : forall u, u <> t -> at_ (bon a owner swap n s t x) u = at_ s u /\ open_ (bon a owner swap n s t x) u = open_ s u) by (intros u Hu; by apply wstep_other).
  constructor; cbn [bon bset_who bwho btq bbatch top held bcmds bresp bnxt brem blg bseen]; try apply H.
  - apply (winv_step a owner swap n Hown), H.
  - apply bunused_more, H.
  - apply btrm_more, H.
  - rewrite wstep_edges by done. apply H.
  - intros u. destruct (decide (u = t)) as [->|Hne].
    + destruct (b_batch _ H t) as [?|(g & sn & o & E)]; [by left|]. destruct (bbatch s t) eqn:Eb; [by left|]. right.
      destruct (wstep_work a owner swap n (bwho s) t x g sn o E) as (sn' & E'); [by apply Hst|]. by exists g, sn', o.
    + destruct (Hoth u Hne) as [E _]. cbn in E. rewrite E. apply H.
  - intros u Ho. destruct (decide (u = t)) as [->|Hne].
    + destruct Hcl as [Hp|(Hb & _)]; [|done]. rewrite wstep_open in Ho by done. by apply H.
    + destruct (Hoth u Hne) as [_ E]. cbn in E. rewrite E in Ho. by apply H.
  - intros Hf. destruct Hcl as [Hp|(_ & _ & He)]; [|congruence]. apply early_more; [done|]. by apply H.
  - intros u Hu Ho. destruct (decide (u = t)) as [->|Hne].
    + destruct Hcl as [Hp|(Hb & Hq & He)]; [rewrite wstep_open in Ho by done; by apply H|done].
    + destruct (Hoth u Hne) as [_ E]. cbn in E. rewrite E in Ho. by apply H.
  - intros u Hu. destruct (b_mode _ H u Hu) as (m & Hm & Hi). exists m. split; [done|]. apply (b_in_same s); try done.
    intros Hak. apply Hoth. congruence.
Qed.

Lemma closed_now_true s t : closed_now a s t = true -> btq s t = [] /\ brem s = Finished.
Proof. unfold closed_now, bfinished. destruct (top s t), (nil (btq s t)) eqn:E, (brem s); try done. by apply nil_true in E. Qed.
Lemma bloop_inv s t x : binv s -> t < n -> held s t = false -> binv (bloop a owner swap n s t x).
Proof.
  intros H Ht Ha. destruct x as [[]|c].
  - cbn [bloop]. case_match; [done|]. apply bon_inv; try done. by left.
  - apply bon_inv; try done. by left.
  - apply bon_inv; try done. by left.
  - cbn [bloop]. destruct (nil (bbatch s t)) eqn:Eb; [|done]. apply nil_true in Eb. apply bon_inv; try done. by left.
  - cbn [bloop]. destruct (nil (bbatch s t)) eqn:Eb, (closed_now a s t) eqn:Ef; try done. apply nil_true in Eb. apply closed_now_true in Ef as [? ?].
    apply bon_inv; try done. by right.
  - cbn [bloop]. destruct (nil (bbatch s t)) eqn:Eb; [|done]. apply nil_true in Eb. destruct closed; cbn [negb orb andb].
    + destruct (closed_now a s t) eqn:Ef; try done. apply closed_now_true in Ef as [? ?]. apply bon_inv; try done. by right.
    + apply bon_inv; try done. by left.
  - done.
  - cbn [bloop]. destruct (closed_now a s t) eqn:Ef; try done. apply closed_now_true in Ef as [? ?].
    destruct (bbatch s t) eqn:Eb.
    + apply bon_inv; try done. by right.
    + destruct (b_batch _ H t) as [?|(g & sn & o & E)]; [congruence|].
      enough (bon a owner swap n s t (Ctl Term_Model.Close) = s) as -> by done.
      unfold bon, Whole_Model.wstep. rewrite E. by destruct s.
  - destruct c.
    + cbn [bloop]. apply bon_inv; try done. by left.
    + cbn [bloop]. destruct (nil (bbatch s t)) eqn:Eb; [|done]. apply bon_inv; try done. by left.
    + cbn [bloop]. cbv zeta. set (x := Do _). destruct (Nat.eqb_spec (owner v) t) as [Hv|]; [|done]. destruct (nil (out (bbatch s t) v)) eqn:Eo; [done|].
      destruct (nil (ework a (bwho s) t x)) eqn:Ew; [done|]. cbn [negb andb].
      assert (Hw : ework a (bwho s) t x <> []) by (intros E; by rewrite E in Ew).
      assert (Hb : bbatch s t <> []) by (intros E; by rewrite E in Eo).
      assert (Hop : open_ s t = true) by (destruct (open_ s t) eqn:E; [done|]; by apply H in E).
      assert (Hoth : forall u, u <> t -> Term_Model.at_ (trm (wstep (bwho s) t x)) u = at_ s u /\ Term_Model.open_ (trm (wstep (bwho s) t x)) u = open_ s u) by (intros u Hu; by apply wstep_other).
      constructor; cbn [bset_top bwho btq bbatch top held bcmds bresp bnxt brem blg bseen]; try apply H.
      * apply (winv_step a owner swap n Hown), H.
      * apply bunused_more, H.
      * apply btrm_more, H.
      * intros u. unfold x. rewrite wstep_add by done. rewrite <- (b_graph _ H u). unfold upd. destruct (Nat.eqb_spec u v) as [->|Hne].
        -- rewrite Hv, Nat.eqb_refl, out_rest. by rewrite <- !app_assoc.
        -- destruct (Nat.eqb_spec (owner u) t) as [E|E]; [|done]. rewrite out_rest_ne by done. by rewrite E.
      * intros u. unfold upd. destruct (Nat.eqb_spec u t) as [->|Hne].
        -- right. destruct (b_batch _ H t) as [?|(g & sn & o & E)]; [done|]. destruct (wstep_work a owner swap n (bwho s) t x g sn o E) as (sn' & E'); [done|]. by exists g, sn', o.
        -- destruct (Hoth u Hne) as [E _]. rewrite E. apply H.
      * intros u Ho. unfold upd. destruct (Nat.eqb_spec u t) as [->|Hne]; [rewrite wstep_open in Ho by done; congruence|].
        destruct (Hoth u Hne) as [_ E]. rewrite E in Ho. by apply H.
      * intros u Hu. unfold upd. destruct (Nat.eqb_spec u t) as [->|Hne]; [|by apply (b_top _ H)]. by apply (b_top _ H) in Hu.
      * intros Hf. apply early_more; [done|]. by apply H.
      * intros u Hu Ho. destruct (decide (u = t)) as [->|Hne]; [rewrite wstep_open in Ho by done; congruence|].
        destruct (Hoth u Hne) as [_ E]. rewrite E in Ho. by apply H.
      * intros u Hu. destruct (b_mode _ H u Hu) as (m & Hm & Hi). exists m. split; [done|]. apply (b_in_same s); try done.
        intros Hak. apply Hoth. congruence.
    + done.
    + cbn [bloop]. apply bon_inv; try done. by left.
Qed.
Lemma bpull_inv s t k r : binv s -> t < n -> held s t = false -> binv (bpull a owner swap n s t k r).
Proof.
  intros H Ht Ha. unfold bpull. destruct (bmay_pull a s t k r) eqn:Hm; [|done]. unfold bmay_pull in Hm.
  apply andb_true_iff in Hm as [Hm Hsum]. apply andb_true_iff in Hm as [Hm Htop]. apply andb_true_iff in Hm as [Hm _]. apply andb_true_iff in Hm as [Hm _]. apply andb_true_iff in Hm as [Hm Hop].
  unfold blooking in Hm. destruct (at_ s t) as [|got| | | | | | | | | | | | | | |] eqn:Hp; try done.
  apply negb_true_iff in Htop.
  set (x := Ctl _).
  assert (Hoth : forall u, u <> t -> Term_Model.at_ (trm (wstep (bwho s) t x)) u = at_ s u /\ Term_Model.open_ (trm (wstep (bwho s) t x)) u = open_ s u) by (intros u Hu; by apply wstep_other).
  assert (Hb : bbatch s t = []) by (destruct (b_batch _ H t) as [?|(? & ? & ? & ?)]; [done|congruence]).
  constructor; cbn [bset_top bwho btq bbatch top held bcmds bresp bnxt brem blg bseen]; try apply H.
  - apply (winv_step a owner swap n Hown), H.
  - apply bunused_more, H.
  - apply btrm_more, H.
  - intros u. rewrite wstep_edges by done. rewrite <- (b_graph _ H u). unfold upd. destruct (Nat.eqb_spec (owner u) t) as [E|E]; [|done].
    rewrite E, out_app, <- app_assoc, <- (out_app (firstn k _)), firstn_skipn. done.
  - intros u. destruct (b_suffix _ H u) as (pre & E). unfold upd. destruct (Nat.eqb_spec u t) as [->|Hne]; [|by exists pre].
    exists (pre ++ firstn k (btq s t)). by rewrite <- app_assoc, firstn_skipn.
  - intros u. unfold upd. destruct (Nat.eqb_spec u t) as [->|Hne].
    + right. rewrite trm_step. unfold lwork. rewrite Hp. subst x. cbn. unfold Term_Model.step. cbn [fst snd]. rewrite (proj2 (Nat.ltb_lt t n) Ht). unfold Term_Model.go. rewrite Hp, Hop. cbn. Term_Proofs.fs. by do 3 eexists.
    + destruct (Hoth u Hne) as [E _]. rewrite E. apply H.
  - intros u Ho. unfold upd. destruct (Nat.eqb_spec u t) as [->|Hne]; [rewrite wstep_open in Ho by done; congruence|].
    destruct (Hoth u Hne) as [_ E]. rewrite E in Ho. by apply H.
  - intros u Hu. unfold upd. destruct (Nat.eqb_spec u t) as [->|Hne]; [congruence|by apply (b_top _ H)].
  - intros Hf. apply early_more; [done|]. by apply H.
  - intros u Hu Ho. unfold upd. destruct (Nat.eqb_spec u t) as [->|Hne]; [rewrite wstep_open in Ho by done; congruence|].
    destruct (Hoth u Hne) as [_ E]. rewrite E in Ho. by apply H.
  - intros u Hu. destruct (b_mode _ H u Hu) as (m & Hm' & Hi). exists m. split; [done|]. apply (b_in_same s); try done.
    intros Hak. apply Hoth. congruence.
Qed.

(** Where a thread is that has a command to take. *)
Lemma held_mode s t : binv s -> t < n -> held s t = true -> async = false /\ (bcmds s t = [] \/ bcmds s t = [BResume]) /\ top s t = false /\ exists got, at_ s t = Term_Model.Recv got.
Proof.
  intros H Ht Hh. destruct (b_mode _ H t Ht) as (m & _ & Hi).
  destruct m; cbn in Hi; unfold blocked in Hi; destruct async; destruct_and!; try congruence; split_and!; eauto.
Qed.
Lemma btake_inv s t : binv s -> t < n -> held s t = false -> binv (btake a s t).
Proof.
  intros H Ht Hh. unfold btake. destruct (bcmds s t) as [|c l] eqn:Ec; [done|]. destruct (breceiving a s t) eqn:Hr; [|done].
  unfold breceiving in Hr. destruct (at_ s t) as [got| | | | | | | | | | | | | | | |] eqn:Hp; try done. clear Hr.
  assert (Hb : bbatch s t = []) by (destruct (b_batch _ H t) as [?|(? & ? & ? & ?)]; [done|congruence]).
  destruct (b_mode _ H t Ht) as (m & Hm & Hi).
  assert (HO : forall s', bwho s' = bwho s -> (forall u, u <> t -> top s' u = top s u /\ held s' u = held s u /\ bcmds s' u = bcmds s u /\ bresp s' u = bresp s u) ->
    (exists m, bmodes (blg s) t m /\ b_in m s' t) -> forall u, u < n -> exists m, bmodes (blg s) u m /\ b_in m s' u).
  { intros s' E1 E2 E4 u Hu. destruct (decide (u = t)) as [->|Hne]; [done|]. destruct (b_mode _ H u Hu) as (m' & ? & ?). exists m'. split; [done|].
    destruct (E2 u Hne) as (? & ? & ? & ?). apply (b_in_same s); try done. by rewrite E1. }
  assert (Hmm : m = BCalled /\ c = block async \/ m = BFreed /\ c = BResume /\ async = true).
  { destruct m; cbn in Hi; unfold blocked in Hi; destruct async; destruct_and!; try congruence; [left|left|right]; split_and!; try done; congruence. }
  destruct Hmm as [[-> ->]|(-> & -> & Eas)].
  - cbn in Hi. destruct Hi as (E1 & E2 & E3 & E4). assert (l = []) as -> by congruence. rewrite E4. cbn [Nat.eqb].
    assert (Hm' : bmodes (blg s) t BAnswered) by (destruct (blg s); cbn [bmodes] in *; try case_match; naive_solver).
    assert (HC : async = true /\ block async = BlockTop \/ async = false /\ block async = BlockAll) by (unfold block; destruct async; auto).
    destruct HC as [[Eas ->]|[Eas ->]].
    + constructor; cbn [bset_cmd bwho btq bbatch top held bcmds bresp bnxt brem blg bseen]; try apply H.
      * intros u. unfold upd. destruct (Nat.eqb_spec u t) as [->|]; [done|apply (b_top _ H)].
      * apply HO; try done; cbn; [intros u Hu; by rewrite !upd_ne|]. exists BAnswered. split; [done|]. cbn. unfold blocked. rewrite Eas. cbn. by rewrite !upd_eq.
    + constructor; cbn [bset_cmd bwho btq bbatch top held bcmds bresp bnxt brem blg bseen]; try apply H.
      apply HO; try done; cbn; [intros u Hu; by rewrite !upd_ne|]. exists BAnswered. split; [done|]. cbn. unfold blocked. rewrite Eas. cbn. rewrite !upd_eq. split_and!; try done. by exists got.
  - cbn in Hi. destruct Hi as (E1 & E3 & E4). assert (l = []) as -> by congruence.
    assert (Hm' : bmodes (blg s) t BFree) by (destruct (blg s); cbn [bmodes] in *; try case_match; naive_solver).
    constructor; cbn [bset_cmd bwho btq bbatch top held bcmds bresp bnxt brem blg bseen]; try apply H.
    + intros u. unfold upd. destruct (Nat.eqb_spec u t) as [->|]; [done|apply (b_top _ H)].
    + apply HO; try done; cbn; [intros u Hu; by rewrite !upd_ne|]. exists BFree. split; [done|]. cbn. by rewrite !upd_eq.
Qed.
Lemma btstep_inv s t x : binv s -> binv (btstep a owner swap n s t x).
Proof.
  intros H. unfold btstep. destruct (Nat.leb_spec n t) as [|Ht]; [done|]. destruct (held s t) eqn:Ha.
  - destruct x; try done. destruct (bcmds s t) as [|[] c] eqn:Ec; try done.
    destruct (b_mode _ H t Ht) as (m & Hm & Hi). assert (m = BFreed) as ->.
    { destruct m; cbn in Hi; destruct_and!; try done; try congruence. }
    cbn in Hi. destruct Hi as (E1 & E3 & E4). assert (c = []) as -> by congruence. unfold blocked in E1.
    destruct async eqn:Eas; [by destruct E1; congruence|]. destruct E1 as (E1 & _ & _).
    constructor; cbn [bset_cmd bwho btq bbatch top held bcmds bresp bnxt brem blg bseen]; try apply H.
    intros u Hu. destruct (decide (u = t)) as [->|Hne].
    + exists BFree. split; [|cbn; rewrite !upd_eq; by split_and!]. destruct (blg s); cbn [bmodes] in *; try case_match; naive_solver.
    + destruct (b_mode _ H u Hu) as (m & Hm' & Hi). exists m. split; [done|]. apply (b_in_same s); try done; cbn; by rewrite upd_ne.
  - destruct x as [|x|k r| |]; try done; [by apply btake_inv|by apply bloop_inv|by apply bpull_inv].
Qed.
Lemma bread_inv s v : binv s -> binv (bread a s v).
Proof.
  intros H. unfold bread. case_match; [|done]. constructor; cbn [bwho btq bbatch top held bcmds bresp bnxt brem blg bseen]; try apply H.
Qed.
Lemma bstep_inv s x : binv s -> binv (bstep s x).
Proof. destruct x; [apply bremit_inv|apply blog_inv|apply btstep_inv|apply bread_inv]. Qed.
Lemma brun_inv l : forall s, binv s -> binv (brun s l).
Proof. induction l as [|x l IH]; intros s H; [done|]. by apply IH, bstep_inv. Qed.
Lemma bstart_inv : (forall t, todo e0 t = []) -> (forall t, n <= t -> queue e0 t = []) -> sumN sent0 n = sumN (fun t => N.of_nat (length (queue e0 t))) n ->
  binv (bstart a e0 sent0).
Proof.
  intros F1 F2 F3. constructor; cbn; try done.
  - by apply (winv_start a owner n Hown).
  - by exists (fun _ => true), (fun t => N.of_nat (length (queue e0 t))), sent0, [].
  - by exists [].
  - by left.
  - intros t Ht. exists BFree. split; [by left|done].
  - split_and!; [lia|done|done].
  - by split; [intros [? _]|].
Qed.

(** The engine: a run of it. *)
Lemma bwork_step s x : eng (bwho (bstep s x)) = erun a owner (eng (bwho s)) (bwork a owner n s x).
Proof.
  destruct x as [| |t x|v]; cbn [Block_Model.bstep bwork].
  - unfold bremit. destruct (brem s); try done. by destruct (nth_error evs (bnxt s)) as [[]|].
  - unfold blog_step. destruct (blg s); try done; try (destruct (brem s); done); try (case_match; [case_match|]; done). by case_match.
  - unfold btstep. destruct (n <=? t); [by destruct x as [|[]| | |]|]. destruct (held s t).
    + destruct x; try done. destruct (bcmds s t) as [|[]]; done.
    + cbn [orb]. destruct x as [|x|k r| |]; try done.
      * unfold btake. destruct (bcmds s t) as [|[]]; try done; case_match; try done; by case_match.
      * destruct x as [c|c].
        -- assert (E : eng (bwho (bon a owner swap n s t (Ctl c))) = eng (bwho s)).
           { cbn. rewrite eng_step. unfold ework. by destruct (Term_Model.at_ _ t). }
           destruct c; cbn [bloop]; try done; try case_match; done.
        -- destruct c; cbn [bloop]; try apply eng_step; try done.
           ++ destruct (nil (bbatch s t)); [apply eng_step|done].
           ++ cbv zeta. destruct (owner v =? t); [|done]. destruct (nil (out (bbatch s t) v)); [done|]. cbn [negb andb].
              destruct (nil (ework a (bwho s) t _)) eqn:E; [apply nil_true in E; by rewrite E|]. apply eng_step.
      * unfold bpull. case_match; [|done]. cbn. rewrite eng_step. unfold ework. by destruct (Term_Model.at_ _ t).
  - unfold bread. by case_match.
Qed.

Lemma bwork_run l : forall s, eng (bwho (brun s l)) = erun a owner (eng (bwho s)) (bworks a owner swap n evs ask async verts s l).
Proof.
  induction l as [|x l IH]; intros s; [done|]. cbn [bworks]. unfold erun. rewrite fold_left_app. fold (erun a owner (eng (bwho s)) (bwork a owner n s x)).
  rewrite <- bwork_step. apply IH.
Qed.

(** What is added comes from the stream. *)
Definition bfrom_evs (s : bst) : Prop := forall t x, x ∈ bbatch s t \/ x ∈ btq s t -> x ∈ evs.
Lemma bfrom_step s x : bfrom_evs s -> bfrom_evs (bstep s x).
Proof.
  intros H. destruct x as [| |t x|v]; cbn [Block_Model.bstep].
  - unfold bremit. destruct (brem s); try done. destruct (nth_error evs (bnxt s)) as [[v y]|] eqn:En; [|done].
    intros t z. cbn. intros [Hz|Hz]; [apply (H t); by left|]. revert Hz. unfold upd. case_match; [|intros Hz; apply (H t); by right].
    rewrite elem_of_app, elem_of_list_singleton. intros [Hz| ->]; [apply (H (owner v)); by right|]. apply elem_of_list_In. by apply nth_error_In in En.
  - unfold blog_step. destruct (blg s); try done; try (destruct (brem s); done); try (case_match; [case_match|]; done). by case_match.
  - unfold btstep. destruct (n <=? t); [done|]. destruct (held s t); [destruct x; try done; destruct (bcmds s t) as [|[]]; done|].
    destruct x as [|x|k r| |]; try done.
    + unfold btake. destruct (bcmds s t) as [|[]]; try done; case_match; try done; by case_match.
    + destruct x as [[]|[]]; cbn [bloop]; try done; try (case_match; done). cbv zeta. case_match; [|done]. intros u z. cbn. unfold upd.
      intros [Hz|Hz]; [|apply (H u); by right]. case_match eqn:E; [|apply (H u); by left]. apply (H t). left. unfold rest_of in Hz. apply elem_of_list_In, filter_In in Hz as [Hz _]. by apply elem_of_list_In.
    + unfold bpull. case_match; [|done]. intros u z. cbn. unfold upd. case_match eqn:E; [|apply (H u)]. intros [Hz|Hz]; apply (H t).
      * apply elem_of_app in Hz as [?|Hz]; [by left|right]. rewrite <- (firstn_skipn k). apply elem_of_app. by left.
      * right. rewrite <- (firstn_skipn k). apply elem_of_app. by right.
  - unfold bread. by case_match.
Qed.
Lemma bworks_in l : forall s t c, bfrom_evs s -> (t, c) ∈ bworks a owner swap n evs ask async verts s l ->
  match c with
  | Run | Pop => True
  | AddEdges v es => es <> [] /\ forall x, x ∈ es -> (v, x) ∈ evs
  | DelEdges _ _ => False
  | SendInit v m => BThread t (Loop (Do (SendInit v m))) ∈ l
  end.
Proof.
  induction l as [|y l IH]; intros s t c Hs Hin; [cbn in Hin; by apply elem_of_nil in Hin|]. cbn [bworks] in Hin. apply elem_of_app in Hin as [Hin|Hin].
  - unfold bwork in Hin. destruct y as [| |u [|x| | |]|]; try by apply elem_of_nil in Hin. destruct ((n <=? u) || held s u); [by apply elem_of_nil in Hin|].
    destruct x as [|c']; [by apply elem_of_nil in Hin|]. destruct c' as [| |v l'|v l'|v m].
    + by apply ework_in in Hin as [[= <-] ->].
    + destruct (nil (bbatch s u)); [|by apply elem_of_nil in Hin]. by apply ework_in in Hin as [[= <-] ->].
    + cbv zeta in Hin. destruct (_ && _) eqn:E; [|by apply elem_of_nil in Hin]. apply ework_in in Hin as [[= <-] ->]. split; [intros E'; rewrite E', !andb_true_iff in E; by destruct E|]. intros x Hx. apply out_in in Hx. apply (Hs u). by left.
    + by apply elem_of_nil in Hin.
    + apply ework_in in Hin as [[= <-] ->]. apply elem_of_list_here.
  - specialize (IH _ _ _ (bfrom_step s y Hs) Hin). destruct c; try done. by apply elem_of_list_further.
Qed.

(** A step other than the logger's keeps the graph where topology is blocked. *)
Lemma blocked_nothing s t : binv s -> t < n -> blocked s t -> bbatch s t = [] /\ (top s t = true \/ held s t = true).
Proof.
  intros H Ht Hb. unfold blocked in Hb. destruct async.
  - destruct Hb as [Hb _]. split; [by apply (b_top _ H)|by left].
  - destruct Hb as (_ & Hb & got & E). split; [|by right]. destruct (b_batch _ H t) as [?|(? & ? & ? & ?)]; [done|congruence].
Qed.
Lemma blocked_edges s x : binv s -> (forall t, t < n -> blocked s t /\ bcmds s t = []) -> brem s = Asked -> x <> BLogger ->
  let s' := bstep s x in
  edges (eng (bwho s')) = edges (eng (bwho s)) /\ btq s' = btq s /\ bnxt s' = bnxt s /\ brem s' = brem s /\ blg s' = blg s /\ bseen s' = bseen s /\
  (forall t, t < n -> blocked s' t /\ bcmds s' t = []).
Proof.
  intros H HB Hr Hx s'. subst s'. destruct x as [| |t x|v]; [| done | |]; cbn [Block_Model.bstep].
  - unfold bremit. rewrite Hr. done.
  - unfold btstep. destruct (Nat.leb_spec n t) as [|Ht]; [done|]. destruct (HB t Ht) as [Hb Hc]. destruct (blocked_nothing s t H Ht Hb) as [Eb Htp].
    destruct (held s t) eqn:Eh; [destruct x; rewrite ?Hc; done|]. destruct Htp as [Htp|]; [|done].
    assert (Eas : async = true) by (unfold blocked in Hb; destruct async; [done|]; destruct Hb as (_ & ? & _); congruence).
    assert (K : forall y, no_edges a y -> let s' := bon a owner swap n s t y in
      edges (eng (bwho s')) = edges (eng (bwho s)) /\ btq s' = btq s /\ bnxt s' = bnxt s /\ brem s' = brem s /\ blg s' = blg s /\ bseen s' = bseen s /\
      (forall t, t < n -> blocked s' t /\ bcmds s' t = [])).
    { intros y Hy. cbn. rewrite wstep_edges by done. split_and!; try done. intros u Hu. destruct (HB u Hu) as [Hbu ?]. split; [|done]. unfold blocked in *. by rewrite Eas in *. }
    destruct x as [|x|k r| |]; try done.
    + unfold btake. by rewrite Hc.
    + destruct x as [[]|[]]; cbn [bloop]; try done; try (by apply K); try (case_match; [try done; by apply K|try done; by apply K]).
      rewrite Eb. cbv zeta. cbn [out List.filter map nil negb]. by rewrite andb_false_r.
    + unfold bpull, bmay_pull. rewrite Htp. cbn [negb]. by rewrite andb_false_r.
  - unfold bread. by case_match.
Qed.

(** All have left. *)
Lemma ball_done s : binv s -> (forall t, t < n -> at_ s t = Term_Model.Done) ->
  idle (eng (bwho s)) /\ complete n (bwho s) = true /\ forall v, edges (eng (bwho s)) v = edges e0 v ++ out (firstn (bnxt s) evs) v.
Proof.
  intros H HD. pose proof (b_trm _ H) as (own & q & c & l & Et).
  assert (HQ : Term_Proofs.quiet n (trm (bwho s))).
  { rewrite Et. apply Term_All.all_left_quiet. rewrite <- Et. exact HD. }
  pose proof (quiet_idle a owner n Hown (bwho s) (b_w _ H) (b_unused _ H) HQ) as HI.
  split_and!; [done|by apply (idle_complete a owner n Hown); [apply H| |]|].
  intros v. rewrite <- (b_graph _ H v). destruct (HQ (owner v) (Hown v)) as (_ & _ & Ho).
  rewrite (b_batch_open _ H _ Ho), (b_open _ H _ (Hown v) Ho). cbn. by rewrite app_nil_r.
Qed.
Lemma bview s : binv s -> blg s = LView -> forall t, t < n -> blocked s t /\ bcmds s t = [].
Proof. intros H Hl t Ht. destruct (b_mode _ H t Ht) as (m & Hm & Hi). rewrite Hl in Hm. cbn in Hm. subst. by destruct Hi as (? & ? & _). Qed.

(** The parts of the graph. *)
Lemma in_parts_at s : binv s -> (forall t, bbatch s t = []) -> in_parts owner evs (bnxt s) (edges e0) (edges (eng (bwho s))).
Proof.
  intros H Hb.
  assert (HC : forall t, exists j, j <= bnxt s /\ mine t (firstn (bnxt s) evs) = mine t (firstn j evs) ++ btq s t).
  { intros t. destruct (b_suffix _ H t) as (pre & E). pose proof E as E'. apply filter_firstn in E' as (j & Hj & Ej).
    pose proof (b_nxt _ H) as (Hn & _). rewrite firstn_length in Hj. exists j. split; [lia|]. rewrite E. f_equal.
    rewrite <- Ej. unfold mine. rewrite firstn_firstn. by replace (min j (bnxt s)) with j by lia. }
  assert (HF : exists upto : nat -> nat, forall t, t < n -> upto t <= bnxt s /\ mine t (firstn (bnxt s) evs) = mine t (firstn (upto t) evs) ++ btq s t).
  { by apply (choose_upto (fun t j => j <= bnxt s /\ mine t (firstn (bnxt s) evs) = mine t (firstn j evs) ++ btq s t)). }
  destruct HF as (upto & HF). exists upto. intros v. destruct (HF (owner v) (Hown v)) as [Hle E]. split; [done|].
  pose proof (b_graph _ H v) as HG. rewrite Hb in HG. cbn [out List.filter map app] in HG.
  rewrite <- (out_mine owner (firstn (bnxt s) evs)) in HG. fold (mine (owner v) (firstn (bnxt s) evs)) in HG. rewrite E, out_app, app_assoc in HG.
  unfold mine in HG. rewrite (out_mine owner) in HG. by apply app_inv_tail in HG.
Qed.
End block.
