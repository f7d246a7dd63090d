(** Sliding windows in a run: what holds in every state. *)
From Verif Require Import Base Engine_Spec Engine_Model Engine_Proofs Engine_Props Rest_Proofs Whole_Model Whole_Proofs Whole_Props QDel_Spec QDel_Model QDel_Lists QDel_Proofs QWin_Spec QWin_Model.
From Verif Require Term_Model Term_Proofs Term_All.
From Coq Require Import Sorting.Sorted.
Open Scope nat_scope.

(** ** The control of the program, whatever is in the batches (as in QDel_Proofs, without the graph) *)
Section core.
Context (a : alg) (owner : nat -> nat) (swap : bool) (n : nat) (Hown : forall v, owner v < n).
Context (evs : list (nat * change (edge_t a))) (ask : nat -> bool) (e0 : est a) (sent0 : nat -> N).
Notation qstep := (qstep a owner swap n evs ask).
Notation qrun := (qrun a owner swap n evs ask).
Notation wstep := (wstep a owner swap n).
Notation qst := (qst a).
Notation at_ s t := (Term_Model.at_ (trm (who s)) t).
Notation open_ s t := (Term_Model.open_ (trm (who s)) t).
Notation is_in := (is_in a).
Notation asked_upto := (asked_upto ask).
Notation plain_x := (plain_x a).
Notation stays := (stays a).
Notation no_edges := (no_edges a).

Record core (s : qst) : Prop := Core {
  c_w : winv a n (who s);
  c_unused : unused a n (eng (who s));
  c_trm : exists own q c l, trm (who s) = Term_Model.exec swap n (Term_Model.start own q c) l;
  c_batch : forall t, batch s t = [] \/ exists got sent own, at_ s t = Term_Model.Work got sent own;
  c_batch_open : forall t, open_ s t = false -> batch s t = [];
  c_open : forall t, t < n -> open_ s t = false -> tq s t = [] /\ (rem s = Finished \/ epoch s t = true /\ rem s = Asked);
  c_mode : forall t, t < n -> exists m, modes (lg s) t m /\ is_in m s t;
  c_asking : asking (lg s) -> rem s = Asked;
  c_nxt : nxt s <= length evs /\ (rem s = Asked -> ask (nxt s) = true) /\ (rem s = Finished -> nxt s = length evs);
  c_seen : (rem s = Asked /\ ~ looked (lg s) -> seen s ++ [nxt s] = asked_upto (nxt s)) /\
           (rem s <> Asked \/ looked (lg s) -> seen s = asked_upto (nxt s)) }.

Lemma core_remit s : core s -> core (remit a owner evs ask s).
Proof.
  intros H. unfold remit. destruct (rem s) eqn:Er; [|done|done].
  assert (Hna : ~ asking (lg s)) by (intros K; apply H in K; congruence).
  assert (Hnl : ~ looked (lg s)) by (intros K; apply Hna; by destruct (lg s)).
  assert (Hop : forall t, t < n -> open_ s t = true).
  { intros t Ht. destruct (open_ s t) eqn:E; [done|]. apply H in E as [_ [E|[_ E]]]; [congruence|congruence|done]. }
  pose proof (c_nxt _ H) as (Hn1 & _ & _). pose proof (proj2 (c_seen _ H)) as Hseen. rewrite Er in Hseen. specialize (Hseen ltac:(by left)).
  destruct (nth_error evs (nxt s)) as [[v x]|] eqn:En.
  - assert (Hlt : nxt s < length evs) by (apply nth_error_Some; by rewrite En).
    assert (Ef : firstn (S (nxt s)) evs = firstn (nxt s) evs ++ [(v, x)]).
    { clear -En. revert En. generalize (nxt s). induction evs as [|y l IH]; intros [|k]; cbn; intros E; try done; [by injection E as ->|]. f_equal. by apply IH. }
    constructor; cbn [who tq batch epoch acked cmds resp nxt rem lg seen]; try apply H.
    + intros t Ht Ho. by rewrite Hop in Ho.
    + done.
    + split_and!; [lia| |]; destruct (ask (S (nxt s))) eqn:Ea; try done; by rewrite ?Ea.
    + rewrite asked_upto_S, <- Hseen. destruct (ask (S (nxt s))) eqn:Ea; (split; [intros [? _]|intros [?|?]]); try done. by rewrite app_nil_r.
  - assert (Hge : nxt s = length evs) by (apply nth_error_None in En; lia).
    constructor; cbn [who tq batch epoch acked cmds resp nxt rem lg seen]; try apply H.
    + intros t Ht Ho. by rewrite Hop in Ho.
    + done.
    + done.
    + split; [by intros [? _]|done].
Qed.

Lemma core_log s : core s -> core (log_step a n s).
Proof.
  intros H. unfold log_step. destruct (lg s) as [|i|i| |i] eqn:El.
  - destruct (rem s) eqn:Er; try done. constructor; cbn [set_lg who tq batch epoch acked cmds resp nxt rem lg seen]; try apply H; try done.
    + intros t Ht. destruct (c_mode _ H t Ht) as (m & Hm & Hi). rewrite El in Hm. exists m. split; [done|]. by apply (is_in_same a s).
    + pose proof (c_seen _ H) as [Q1 Q2]. rewrite El, Er in Q1, Q2. rewrite Er. split; [auto|]. intros [?|[]]; by apply Q2; auto.
  - assert (Er : rem s = Asked) by (apply H; by rewrite El).
    destruct (Nat.ltb_spec i n) as [Hi|Hi].
    + destruct (nil (cmds s i)) eqn:En; [|done]. apply nil_true in En.
      constructor; cbn [set_lg who tq batch epoch acked cmds resp nxt rem lg seen]; try apply H; try done.
      * intros t Ht. destruct (c_mode _ H t Ht) as (m & Hm & Hin). rewrite El in Hm. cbn [modes] in Hm. destruct (decide (t = i)) as [->|Hne].
        -- rewrite Nat.ltb_irrefl in Hm. destruct Hm as [->| ->]; cbn in Hin; destruct_and!; [|congruence].
           exists Called. split; [cbn [modes]; case_match eqn:E; [by left|apply Nat.ltb_ge in E; lia]|]. cbn. rewrite upd_eq. by split_and!.
        -- exists m. split; [|apply (is_in_same a s); try done; cbn; by rewrite upd_ne].
           cbn [modes]. destruct (Nat.ltb_spec t i), (Nat.ltb_spec t (S i)); try done; lia.
      * pose proof (c_seen _ H) as [Q1 Q2]. rewrite El, Er in Q1, Q2. rewrite Er. split; [auto|]. intros [?|[]]; by apply Q2; auto.
    + constructor; cbn [set_lg who tq batch epoch acked cmds resp nxt rem lg seen]; try apply H; try done.
      * intros t Ht. destruct (c_mode _ H t Ht) as (m & Hm & Hin). rewrite El in Hm. cbn [modes] in Hm. exists m. split; [|by apply (is_in_same a s)]. cbn [modes]. destruct (Nat.ltb_spec t i); [done|lia].
      * pose proof (c_seen _ H) as [Q1 Q2]. rewrite El, Er in Q1, Q2. rewrite Er. split; [auto|]. intros [?|[]]; by apply Q2; auto.
  - assert (Er : rem s = Asked) by (apply H; by rewrite El).
    destruct (Nat.ltb_spec i n) as [Hi|Hi].
    + destruct (resp s i) as [|r] eqn:En; [done|].
      constructor; cbn [set_lg who tq batch epoch acked cmds resp nxt rem lg seen]; try apply H; try done.
      * intros t Ht. destruct (c_mode _ H t Ht) as (m & Hm & Hin). rewrite El in Hm. cbn [modes] in Hm. destruct (decide (t = i)) as [->|Hne].
        -- rewrite Nat.ltb_irrefl in Hm. destruct Hm as [->|[->| ->]]; cbn in Hin; destruct_and!; try congruence.
           exists Taken. split; [cbn [modes]; case_match eqn:E; [done|apply Nat.ltb_ge in E; lia]|]. cbn. rewrite upd_eq. split_and!; try done. congruence.
        -- exists m. split; [|apply (is_in_same a s); try done; cbn; by rewrite upd_ne].
           cbn [modes]. destruct (Nat.ltb_spec t i), (Nat.ltb_spec t (S i)); try done; lia.
      * pose proof (c_seen _ H) as [Q1 Q2]. rewrite El, Er in Q1, Q2. rewrite Er. split; [auto|]. intros [?|[]]; by apply Q2; auto.
    + constructor; cbn [set_lg who tq batch epoch acked cmds resp nxt rem lg seen]; try apply H; try done.
      * intros t Ht. destruct (c_mode _ H t Ht) as (m & Hm & Hin). rewrite El in Hm. cbn [modes] in Hm. exists m. split; [|by apply (is_in_same a s)]. cbn [modes]. destruct (Nat.ltb_spec t i); [done|lia].
      * pose proof (c_seen _ H) as [Q1 Q2]. rewrite El, Er in Q1, Q2. rewrite Er. split; [auto|]. intros [?|[]]; by apply Q2; auto.
  - assert (Er : rem s = Asked) by (apply H; by rewrite El).
    assert (HT : forall t, t < n -> is_in Taken s t).
    { intros t Ht. destruct (c_mode _ H t Ht) as (m & Hm & Hin). rewrite El in Hm. cbn [modes] in Hm. by subst m. }
    constructor; cbn [set_lg who tq batch epoch acked cmds resp nxt rem lg seen]; try apply H; try done.
    + apply (winv_restart a owner n Hown ask sent0); [apply H|]. intros t Ht. by apply HT.
    + by exists (fun _ => true), (Term_Model.queue (trm (who s))), (Term_Model.cnt (trm (who s))), [].
    + intros t. left. destruct (c_batch _ H t) as [?|(g & x & o & E)]; [done|]. destruct (decide (t < n)) as [Ht|Ht].
      * destruct (HT t Ht) as (_ & _ & _ & _ & E'). congruence.
      * rewrite (w_out _ _ _ (c_w _ H) t) in E by lia. done.
    + intros t Ht. exists Held. split; [done|]. pose proof (HT t Ht) as Hi. cbn in Hi |- *. destruct_and!. by split_and!.
    + pose proof (c_seen _ H) as [Q1 Q2]. rewrite El, Er in Q1, Q2. rewrite Er. split; [intros [_ []]; done|]. intros _. apply Q1. split; [done|by intros []].
  - assert (Er : rem s = Asked) by (apply H; by rewrite El).
    destruct (Nat.ltb_spec i n) as [Hi|Hi].
    + destruct (nil (cmds s i)) eqn:En; [|done]. apply nil_true in En.
      constructor; cbn [set_lg who tq batch epoch acked cmds resp nxt rem lg seen]; try apply H; try done.
      * intros t Ht. destruct (c_mode _ H t Ht) as (m & Hm & Hin). rewrite El in Hm. cbn [modes] in Hm. destruct (decide (t = i)) as [->|Hne].
        -- rewrite Nat.ltb_irrefl in Hm. subst m. cbn in Hin; destruct_and!.
           exists Freed. split; [cbn [modes]; case_match eqn:E; [by right|apply Nat.ltb_ge in E; lia]|]. cbn. rewrite upd_eq. by split_and!.
        -- exists m. split; [|apply (is_in_same a s); try done; cbn; by rewrite upd_ne].
           cbn [modes]. destruct (Nat.ltb_spec t i), (Nat.ltb_spec t (S i)); try done; lia.
      * pose proof (c_seen _ H) as [Q1 Q2]. rewrite El, Er in Q1, Q2. rewrite Er. split; [by intros [_ []]|]. intros _. apply Q2. by right.
    + assert (HF : forall t, t < n -> is_in Free s t \/ is_in Freed s t).
      { intros t Ht. destruct (c_mode _ H t Ht) as (m & Hm & Hin). rewrite El in Hm. cbn [modes] in Hm. destruct (Nat.ltb_spec t i); [|lia]. destruct Hm as [->| ->]; auto. }
      constructor; cbn [set_lg who tq batch epoch acked cmds resp nxt rem lg seen]; try apply H; try done.
      * intros t Ht Ho. pose proof (c_open _ H t Ht Ho) as [_ [E|[E _]]]; [congruence|]. destruct (HF t Ht) as [Hi'|Hi']; cbn in Hi'; destruct_and!; congruence.
      * intros t Ht. destruct (HF t Ht); [exists Free|exists Freed]; (split; [cbn; auto|by apply (is_in_same a s)]).
      * split_and!; [apply H|done|done].
      * pose proof (c_seen _ H) as [Q1 Q2]. rewrite El, Er in Q1, Q2. split; [by intros [? _]|]. intros _. apply Q2. by right.
Qed.

(** A thread that is core_inside an epoch and has not answered. *)
Lemma core_inside s t : core s -> t < n -> acked s t = false -> epoch s t = true -> rem s = Asked.
Proof.
  intros H Ht Ha He. destruct (c_mode _ H t Ht) as (m & Hm & Hi). apply H.
  destruct m; cbn in Hi; destruct_and!; try congruence. destruct (lg s); cbn in *; try done. by destruct Hm.
Qed.

Lemma core_on s t x : core s -> t < n -> acked s t = false -> no_edges x -> (batch s t <> [] -> stays x) ->
  (plain_x x \/ batch s t = [] /\ tq s t = [] /\ (epoch s t = true \/ rem s = Finished)) -> core (on a owner swap n s t x).
Proof.
  intros H Ht Ha Hx Hst Hcl.
  assert (Hoth : forall u, u <> t -> at_ (on a owner swap n s t x) u = at_ s u /\ open_ (on a owner swap n s t x) u = open_ s u) by (intros u Hu; by apply wstep_other).
  constructor; cbn [on set_who who tq batch epoch acked cmds resp nxt rem lg seen]; try apply H.
  - apply (winv_step a owner swap n Hown), H.
  - apply (unused_more a owner swap n Hown), H.
  - apply trm_more, H.
  - intros u. destruct (decide (u = t)) as [->|Hne].
    + destruct (c_batch _ H t) as [?|(g & sn & o & E)]; [by left|]. destruct (batch s t) eqn:Eb; [by left|]. right.
      destruct (wstep_work a owner swap n (who s) t x g sn o E) as (sn' & E'); [by apply Hst|]. by exists g, sn', o.
    + destruct (Hoth u Hne) as [E _]. cbn in E. rewrite E. apply H.
  - intros u Ho. destruct (decide (u = t)) as [->|Hne].
    + destruct Hcl as [Hp|(Hb & _)]; [|done]. rewrite wstep_open in Ho by done. by apply H.
    + destruct (Hoth u Hne) as [_ E]. cbn in E. rewrite E in Ho. by apply H.
  - intros u Hu Ho. destruct (decide (u = t)) as [->|Hne].
    + destruct Hcl as [Hp|(Hb & Hq & He)]; [rewrite wstep_open in Ho by done; by apply H|]. split; [done|].
      destruct He as [He|He]; [right; split; [done|by apply (core_inside s t)]|by left].
    + destruct (Hoth u Hne) as [_ E]. cbn in E. rewrite E in Ho. by apply H.
  - intros u Hu. destruct (c_mode _ H u Hu) as (m & Hm & Hi). exists m. split; [done|]. apply (is_in_same a s); try done.
    intros Hak. apply Hoth. congruence.
Qed.

Lemma core_enacted s t v del : core s -> t < n -> acked s t = false -> core (enacted a owner swap n s t v del).
Proof.
  intros H Ht Ha. unfold enacted. destruct (enact a s t v del) as [[c k]|] eqn:Ee; [|done]. set (x := Do c). destruct (Nat.eqb_spec (owner v) t) as [Hv|]; [|done].
  destruct (nil (ework a (who s) t x)) eqn:Ew; [done|]. cbn [negb andb].
  assert (Hw : ework a (who s) t x <> []) by (intros E; by rewrite E in Ew).
  assert (Hb : batch s t <> []). { intros E. unfold enact in Ee. rewrite E in Ee. by destruct del. }
  assert (Hpl : plain_x x /\ stays x) by done.
  assert (Hop : open_ s t = true) by (destruct (open_ s t) eqn:E; [done|]; by apply H in E).
  assert (Hoth : forall u, u <> t -> Term_Model.at_ (trm (wstep (who s) t x)) u = at_ s u /\ Term_Model.open_ (trm (wstep (who s) t x)) u = open_ s u) by (intros u Hu; by apply wstep_other).
  constructor; cbn [set_top who tq batch epoch acked cmds resp nxt rem lg seen]; try apply H.
  - apply (winv_step a owner swap n Hown), H.
  - apply (unused_more a owner swap n Hown), H.
  - apply trm_more, H.
  - intros u. unfold upd. destruct (Nat.eqb_spec u t) as [->|Hne].
    + right. destruct (c_batch _ H t) as [?|(g & sn & o & E)]; [done|]. destruct (wstep_work a owner swap n (who s) t x g sn o E) as (sn' & E'); [done|]. by exists g, sn', o.
    + destruct (Hoth u Hne) as [E _]. rewrite E. apply H.
  - intros u Ho. unfold upd. destruct (Nat.eqb_spec u t) as [->|Hne]; [rewrite wstep_open in Ho by done; congruence|].
    destruct (Hoth u Hne) as [_ E]. rewrite E in Ho. by apply H.
  - intros u Hu Ho. destruct (decide (u = t)) as [->|Hne]; [rewrite wstep_open in Ho by done; congruence|].
    destruct (Hoth u Hne) as [_ E]. rewrite E in Ho. by apply H.
  - intros u Hu. destruct (c_mode _ H u Hu) as (m & Hm & Hi). exists m. split; [done|]. apply (is_in_same a s); try done.
    intros Hak. apply Hoth. congruence.
Qed.
Lemma core_loop s t x : core s -> t < n -> acked s t = false -> core (loop a owner swap n s t x).
Proof.
  intros H Ht Ha. destruct x as [[]|c].
  - cbn [loop]. case_match; [done|]. apply core_on; try done. by left.
  - apply core_on; try done. by left.
  - apply core_on; try done. by left.
  - cbn [loop]. destruct (nil (batch s t)) eqn:Eb; [|done]. apply nil_true in Eb. apply core_on; try done. by left.
  - cbn [loop]. destruct (nil (batch s t)) eqn:Eb, (nil (tq s t)) eqn:Eq, (finished a s) eqn:Ef; try done. apply nil_true in Eb, Eq.
    apply core_on; try done. right. split_and!; try done. right. unfold finished in Ef. by destruct (rem s).
  - cbn [loop]. destruct (nil (batch s t)) eqn:Eb; [|done]. apply nil_true in Eb. destruct closed; cbn [negb orb andb].
    + destruct (nil (tq s t)) eqn:Eq, (finished a s) eqn:Ef; try done. apply nil_true in Eq. apply core_on; try done. right. split_and!; try done.
      right. unfold finished in Ef. by destruct (rem s).
    + apply core_on; try done. by left.
  - done.
  - cbn [loop]. destruct (nil (tq s t)) eqn:Eq; [|done]. apply nil_true in Eq. destruct (epoch s t || finished a s) eqn:Ef; [|done].
    destruct (batch s t) eqn:Eb.
    + apply core_on; try done. right. split_and!; try done. apply orb_true_iff in Ef as [?|Ef]; [by left|right]. unfold finished in Ef. by destruct (rem s).
    + (* the thread is at work: nothing happens *)
      destruct (c_batch _ H t) as [?|(g & sn & o & E)]; [congruence|]. cbn [andb].
      enough (on a owner swap n s t (Ctl Term_Model.Close) = s) as -> by done.
      unfold on, Whole_Model.wstep. rewrite E. by destruct s.
  - destruct c.
    + cbn [loop]. apply core_on; try done. by left.
    + cbn [loop]. destruct (nil (batch s t)) eqn:Eb; [|done]. apply core_on; try done. by left.
    + by apply core_enacted.
    + by apply core_enacted.
    + cbn [loop]. apply core_on; try done. by left.
Qed.
Lemma core_pull s t k r : core s -> t < n -> acked s t = false -> core (pull a owner swap n s t k r).
Proof.
  intros H Ht Ha. unfold pull. destruct (may_pull a s t k r) eqn:Hm; [|done]. unfold may_pull in Hm.
  repeat (apply andb_true_iff in Hm as [Hm ?]). unfold looking in Hm. destruct (at_ s t) as [|got| | | | | | | | | | | | | | |] eqn:Hp; try done.
  set (x := Ctl _).
  assert (Hoth : forall u, u <> t -> Term_Model.at_ (trm (wstep (who s) t x)) u = at_ s u /\ Term_Model.open_ (trm (wstep (who s) t x)) u = open_ s u) by (intros u Hu; by apply wstep_other).
  assert (Hb : batch s t = []) by (destruct (c_batch _ H t) as [?|(? & ? & ? & ?)]; [done|congruence]).
  constructor; cbn [set_top who tq batch epoch acked cmds resp nxt rem lg seen]; try apply H.
  - apply (winv_step a owner swap n Hown), H.
  - apply (unused_more a owner swap n Hown), H.
  - apply trm_more, H.
  - intros u. unfold upd. destruct (Nat.eqb_spec u t) as [->|Hne].
    + right. rewrite trm_step. unfold lwork. rewrite Hp. subst x. cbn. unfold Term_Model.step. cbn [fst snd]. rewrite (proj2 (Nat.ltb_lt t n) Ht). unfold Term_Model.go. rewrite Hp, H4. cbn. Term_Proofs.fs. by do 3 eexists.
    + destruct (Hoth u Hne) as [E _]. rewrite E. apply H.
  - intros u Ho. unfold upd. destruct (Nat.eqb_spec u t) as [->|Hne]; [rewrite wstep_open in Ho by done; congruence|].
    destruct (Hoth u Hne) as [_ E]. rewrite E in Ho. by apply H.
  - intros u Hu Ho. unfold upd. destruct (Nat.eqb_spec u t) as [->|Hne]; [rewrite wstep_open in Ho by done; congruence|].
    destruct (Hoth u Hne) as [_ E]. rewrite E in Ho. by apply H.
  - intros u Hu. destruct (c_mode _ H u Hu) as (m & Hm' & Hi). exists m. split; [done|]. apply (is_in_same a s); try done.
    intros Hak. apply Hoth. congruence.
Qed.

Lemma core_tstep s t x : core s -> core (tstep a owner swap n s t x).
Proof.
  intros H. unfold tstep. destruct (Nat.leb_spec n t) as [|Ht]; [done|]. destruct (acked s t) eqn:Ha.
  - destruct x; try done. destruct (cmds s t) as [|[] c] eqn:Ec; try done.
    destruct (c_mode _ H t Ht) as (m & Hm & Hi). assert (m = Freed) as -> by (destruct m; cbn in Hi; destruct_and!; try done; congruence).
    cbn in Hi. destruct Hi as (E1 & _ & E3 & E4 & E5). assert (c = []) as -> by congruence.
    constructor; cbn [set_cmd who tq batch epoch acked cmds resp nxt rem lg seen]; try apply H.
    + intros u Hu Ho. unfold upd. destruct (Nat.eqb_spec u t) as [->|Hne]; [congruence|]. by apply H.
    + intros u Hu. destruct (decide (u = t)) as [->|Hne].
      * exists Free. split; [|cbn; rewrite !upd_eq; by split_and!]. destruct (lg s); cbn [modes] in *; try case_match; naive_solver.
      * destruct (c_mode _ H u Hu) as (m & Hm' & Hi). exists m. split; [done|]. apply (is_in_same a s); try done; cbn; by rewrite upd_ne.
  - destruct x as [|x|k r| |].
    + destruct (cmds s t) as [|c l] eqn:Ec; [done|]. destruct (receiving a s t); [|done].
      destruct (c_mode _ H t Ht) as (m & Hm & Hi). assert (m = Called) as -> by (destruct m; cbn in Hi; destruct_and!; try done; congruence).
      cbn in Hi. destruct Hi as (E1 & _ & E3 & E4). rewrite Ec in E3. injection E3 as -> ->.
      constructor; cbn [set_cmd who tq batch epoch acked cmds resp nxt rem lg seen]; try apply H.
      * intros u Hu Ho. destruct (c_open _ H u Hu Ho) as [? [?|[? ?]]]; (split; [done|]); [by left|right]. split; [|done]. unfold upd. by case_match.
      * intros u Hu. destruct (decide (u = t)) as [->|Hne].
        -- exists Inside. split; [|cbn; rewrite !upd_eq; by split_and!]. destruct (lg s); cbn [modes] in *; try case_match; naive_solver.
        -- destruct (c_mode _ H u Hu) as (m & Hm' & Hi). exists m. split; [done|]. apply (is_in_same a s); try done; cbn; by rewrite upd_ne.
    + by apply core_loop.
    + by apply core_pull.
    + destruct (at_done a s t) eqn:Ed, (epoch s t) eqn:Ee, (resp s t =? 0) eqn:Ers; try done. cbn [andb].
      destruct (c_mode _ H t Ht) as (m & Hm & Hi). assert (m = Inside) as -> by (destruct m; cbn in Hi; destruct_and!; try done; congruence).
      cbn in Hi. destruct Hi as (_ & _ & E3 & E4). unfold at_done in Ed.
      constructor; cbn [set_cmd who tq batch epoch acked cmds resp nxt rem lg seen]; try apply H.
      intros u Hu. destruct (decide (u = t)) as [->|Hne].
      * exists Answered. split; [|cbn; rewrite !upd_eq, E4; split_and!; try done; by destruct (at_ s t)]. destruct (lg s); cbn [modes] in *; try case_match; naive_solver.
      * destruct (c_mode _ H u Hu) as (m & Hm' & Hi). exists m. split; [done|]. apply (is_in_same a s); try done; cbn; by rewrite upd_ne.
    + done.
Qed.
Lemma core_qstep s x : core s -> core (qstep s x).
Proof. destruct x; [apply core_remit|apply core_log|apply core_tstep]. Qed.
Lemma core_qrun l : forall s, core s -> core (qrun s l).
Proof. induction l as [|x l IH]; intros s H; [done|]. by apply IH, core_qstep. Qed.
Lemma core_qstart : (forall t, todo e0 t = []) -> (forall t, n <= t -> queue e0 t = []) -> sumN sent0 n = sumN (fun t => N.of_nat (length (queue e0 t))) n ->
  core (qstart a e0 sent0).
Proof.
  intros F1 F2 F3. constructor; cbn; try done.
  - by apply (winv_start a owner n Hown).
  - by exists (fun _ => true), (fun t => N.of_nat (length (queue e0 t))), sent0, [].
  - by left.
  - intros t Ht. exists Free. split; [by left|done].
  - split_and!; [lia|done|done].
  - by split; [intros [? _]|].
Qed.

End core.

(** ** Windows of lists of events *)
Section lists.
Context {E : Type} (ts : E -> N) (W : N).
Notation event := (nat * (nat * E))%type.
Notation at_time := (at_time ts).
Notation rising := (rising ts).
Notation clock := (clock ts).
Definition young (now : N) (x : event) : bool := (now <? at_time x + W)%N.
Lemma outs_app v (l l' : list event) : outs v (l ++ l') = outs v l ++ outs v l'.
Proof. unfold outs. by rewrite List.filter_app, map_app. Qed.
Lemma outs_young v now (l : list event) : outs v (List.filter (young now) l) = window ts W now (outs v l).
Proof.
  unfold outs, window. induction l as [|[u e] l IH]; [done|]. cbn. unfold young at 1. unfold QWin_Spec.at_time. cbn [fst snd].
  destruct (now <? ts (snd e) + W)%N eqn:Ey, (u =? v) eqn:Eu; cbn; rewrite ?Eu; cbn; rewrite ?Ey; by rewrite <- IH.
Qed.
Lemma outs_thread owner v (l : list event) : outs v (of_thread owner (owner v) l) = outs v l.
Proof.
  unfold outs, of_thread. induction l as [|[u e] l IH]; [done|]. cbn. destruct (Nat.eqb_spec (owner u) (owner v)) as [Eo|Eo]; cbn.
  - destruct (u =? v); cbn; by rewrite IH.
  - destruct (Nat.eqb_spec u v) as [->|]; [done|]. done.
Qed.
Lemma thread_app owner t (l l' : list event) : of_thread owner t (l ++ l') = of_thread owner t l ++ of_thread owner t l'.
Proof. apply List.filter_app. Qed.
Lemma rising_app (l l' : list event) : rising (l ++ l') -> rising l /\ rising l' /\ forall x y, x ∈ l -> y ∈ l' -> (at_time x <= at_time y)%N.
Proof.
  unfold QWin_Spec.rising. induction l as [|z l IH]; cbn; intros H.
  - split_and!; [constructor|done|]. intros x y Hx. by apply elem_of_nil in Hx.
  - apply StronglySorted_inv in H as [H1 H2]. destruct (IH H1) as (I1 & I2 & I3). rewrite List.Forall_forall in H2. split_and!; [|done|].
    + constructor; [done|]. rewrite List.Forall_forall. intros y Hy. apply H2, in_or_app. by left.
    + intros x y Hx Hy. apply elem_of_cons in Hx as [->|Hx]; [|by apply I3]. apply H2, in_or_app. right. by apply elem_of_list_In.
Qed.
Lemma rising_filter f (l : list event) : rising l -> rising (List.filter f l).
Proof.
  unfold QWin_Spec.rising. induction 1 as [|x l H IH Hx]; cbn; [constructor|]. destruct (f x); [|done]. constructor; [done|].
  rewrite List.Forall_forall in *. intros y Hy. apply List.filter_In in Hy as [Hy _]. by apply Hx.
Qed.
Lemma clock_app (l l' : list event) : l' <> [] -> clock (l ++ l') = clock l'.
Proof.
  intros H. unfold QWin_Spec.clock. destruct l' as [|y l'] using rev_ind; [done|]. by rewrite app_assoc, !last_snoc.
Qed.
Lemma clock_last (l : list event) x : rising l -> x ∈ l -> (at_time x <= clock l)%N.
Proof.
  destruct l as [|y l _] using rev_ind; [by intros _ Hx; apply elem_of_nil in Hx|]. intros H Hx. unfold QWin_Spec.clock. rewrite last_snoc.
  apply rising_app in H as (_ & _ & H). apply elem_of_app in Hx as [Hx|Hx]; [apply H; [done|by left]|]. apply elem_of_list_singleton in Hx. by subst.
Qed.
Lemma clock_mono (l l' : list event) : rising (l ++ l') -> (clock l <= clock (l ++ l'))%N.
Proof.
  intros H. destruct l as [|y l _] using rev_ind; [cbn; lia|]. unfold QWin_Spec.clock at 1. rewrite last_snoc. apply clock_last; [done|].
  apply elem_of_app. left. apply elem_of_app. right. by left.
Qed.
Lemma young_young (now now' : N) (l : list event) : (now <= now')%N -> List.filter (young now') (List.filter (young now) l) = List.filter (young now') l.
Proof.
  intros H. induction l as [|x l IH]; [done|]. cbn. destruct (young now x) eqn:E1; cbn; [by rewrite IH|].
  destruct (young now' x) eqn:E2; [|done]. exfalso. unfold young in *. apply N.ltb_ge in E1. apply N.ltb_lt in E2. lia.
Qed.
Lemma young_all now (l : list event) : (forall x, x ∈ l -> young now x = true) -> List.filter (young now) l = l.
Proof. intros H. induction l as [|x l IH]; [done|]. cbn. rewrite H by (by left). f_equal. apply IH. intros y Hy. apply H. by right. Qed.
End lists.

Section front.
Context (A : alg).
Notation edge := (nat * edge_t A)%type.
Lemma marks_front (X R : list edge) : forall P : list edge, marks A (P ++ X ++ R) (repeat true (length P) ++ repeat false (length X + length R)) (length P) (map fst X) =
  Some (repeat true (length P + length X) ++ repeat false (length R)).
Proof.
  induction X as [|x X IH]; intros P; [cbn; by rewrite Nat.add_0_r|]. cbn [map marks].
  rewrite nth_error_app2, Nat.sub_diag by lia. rewrite (nth_error_app2 (repeat true (length P))) by (rewrite repeat_length; lia). rewrite repeat_length, Nat.sub_diag. cbn [app length Nat.add repeat nth_error].
  rewrite Nat.eqb_refl. cbn [andb negb].
  rewrite insert_app_r_alt by (rewrite repeat_length; lia). rewrite repeat_length, Nat.sub_diag. cbn [insert list_insert].
  specialize (IH (P ++ [x])). rewrite <- app_assoc in IH. cbn [app] in IH. rewrite app_length in IH. cbn [length] in IH.
  replace (length P + S (length X)) with (length P + 1 + length X) by lia. rewrite <- IH. f_equal; [|lia].
  rewrite (repeat_app true), <- app_assoc. done.
Qed.
Lemma gone_front (X R : list edge) : gone A (X ++ R) (map fst X) = Some (repeat true (length X) ++ repeat false (length R)).
Proof. unfold gone. rewrite app_length. exact (marks_front X R []). Qed.
Lemma masked_front (X R : list edge) : masked false (X ++ R) (repeat true (length X) ++ repeat false (length R)) = R.
Proof. induction X as [|x X IH]; [apply masked_none|exact IH]. Qed.
End front.

Section win.
Context (a : alg) (owner : nat -> nat) (swap : bool) (n : nat) (Hown : forall v, owner v < n).
Notation event := (nat * (nat * edge_t a))%type.
Context (evs : list event) (ask : nat -> bool) (ts : edge_t a -> N) (W : N) (e0 : est a) (sent0 : nat -> N).
Context (Hup : rising ts evs).
Notation xstep := (xstep a owner swap n evs ask ts W).
Notation xrun := (xrun a owner swap n evs ask ts W).
Notation core := (core a swap n (plus a evs) ask).
Notation wstep := (wstep a owner swap n).
Notation at_ s t := (Term_Model.at_ (trm (who s)) t).
Notation young := (young ts W).
Notation clock := (clock ts).

Lemma ripe_young now (l : list event) : rising ts l -> l = ripe a ts W now l ++ List.filter (young now) l.
Proof.
  intros H. induction H as [|x l H IH Hx]; [done|]. cbn. unfold QWin_Proofs.young at 1. destruct (now <? at_time ts x + W)%N eqn:Ey.
  - cbn. f_equal. symmetry. apply young_all. intros y Hy. unfold QWin_Proofs.young. apply N.ltb_lt in Ey. apply N.ltb_lt. rewrite List.Forall_forall in Hx. specialize (Hx y ltac:(by apply elem_of_list_In)). cbn in Hx. lia.
  - cbn. by f_equal.
Qed.
Lemma ripe_rest now (l : list event) : rising ts l -> skipn (length (ripe a ts W now l)) l = List.filter (young now) l.
Proof. intros H. rewrite (ripe_young now l H) at 2. rewrite drop_app. done. Qed.

Lemma plus_app l l' : plus a (l ++ l') = plus a l ++ plus a l'.
Proof. apply map_app. Qed.
Lemma added_by_plus l : added_by a (plus a l) = l.
Proof. induction l as [|[v e] l IH]; [done|]. cbn. by f_equal. Qed.
Lemma changes_plus l v : changes (plus a l) v = map Plus (outs v l).
Proof. unfold changes, outs, plus. induction l as [|[u e] l IH]; [done|]. cbn. destruct (u =? v); cbn; by rewrite IH. Qed.
Lemma changes_expiries l v : changes (expiries a l) v = map Minus (map fst (outs v l)).
Proof. unfold changes, outs, expiries. induction l as [|[u e] l IH]; [done|]. cbn. destruct (u =? v); cbn; by rewrite IH. Qed.

(** The edges of [v] when the last changes, [cs], are still to be made. *)
Definition holds (v : nat) (p : list event) (cs : list (change (edge_t a))) (es : list (nat * edge_t a)) : Prop :=
  exists A X, cs = map Plus A ++ map Minus (map fst X) /\ es ++ A = X ++ window ts W (clock p) (outs v p).
Definition thread_ok (s : xst a) (t : nat) : Prop := exists p q,
  of_thread owner t (firstn (nxt (base s)) evs) = p ++ q /\ tq (base s) t = plus a q /\ due s t = List.filter (young (clock p)) p /\
  forall v, owner v = t -> holds v p (changes (batch (base s) t) v) (edges (eng (who (base s))) v).
Record xinv (s : xst a) : Prop := Xinv { x_core : core (base s); x_threads : forall t, t < n -> thread_ok s t }.

Lemma thread_same s s' t : nxt (base s') = nxt (base s) -> tq (base s') t = tq (base s) t -> due s' t = due s t -> batch (base s') t = batch (base s) t ->
  (forall v, owner v = t -> edges (eng (who (base s'))) v = edges (eng (who (base s))) v) -> thread_ok s t -> thread_ok s' t.
Proof.
  intros E1 E2 E3 E4 E5 (p & q & H1 & H2 & H3 & H4). exists p, q. rewrite E1, E2, E3, E4. split_and!; try done. intros v Hv. rewrite E5 by done. by apply H4.
Qed.

Lemma nth_plus k : nth_error (plus a evs) k = option_map (fun x : event => (fst x, Plus (snd x))) (nth_error evs k).
Proof. apply nth_error_map. Qed.
Lemma firstn_S {X} (l : list X) k x : nth_error l k = Some x -> firstn (S k) l = firstn k l ++ [x].
Proof. revert k. induction l as [|y l IH]; intros [|k]; cbn; intros E; try done; [by injection E as ->|]. f_equal. by apply IH. Qed.

Lemma remit_thread s t : thread_ok s t -> thread_ok (Xst a (remit a owner (plus a evs) ask (base s)) (due s)) t.
Proof.
  intros H. unfold remit. destruct (rem (base s)); [|by destruct s|by destruct s]. rewrite nth_plus. destruct (nth_error evs (nxt (base s))) as [[v e]|] eqn:En; cbn [option_map fst snd].
  2:{ by apply (thread_same s). }
  destruct H as (p & q & H1 & H2 & H3 & H4). destruct (Nat.eqb_spec t (owner v)) as [->|Hne].
  - exists p, (q ++ [(v, e)]). cbn [base due nxt tq batch who]. rewrite upd_eq, (firstn_S _ _ _ En), thread_app, H1, H2, plus_app. cbn. rewrite Nat.eqb_refl. rewrite <- app_assoc. by split_and!.
  - exists p, q. cbn [base due nxt tq batch who]. rewrite upd_ne by done. rewrite (firstn_S _ _ _ En), thread_app, H1. cbn. rewrite (proj2 (Nat.eqb_neq _ _)) by congruence. rewrite app_nil_r. by split_and!.
Qed.

Lemma add_run_plus (A : list (nat * edge_t a)) D : add_run a (map Plus A ++ map Minus D) = A.
Proof. induction A as [|x A IH]; cbn; [by destruct D|]. by f_equal. Qed.
Lemma del_run_minus D : del_run a (map Minus D) = D.
Proof. induction D as [|x A IH]; cbn; [done|]. by f_equal. Qed.

Lemma enacted_thread s t v del u : core (base s) -> thread_ok s u -> thread_ok (Xst a (enacted a owner swap n (base s) t v del) (due s)) u.
Proof.
  intros HC H. unfold enacted. destruct (enact a (base s) t v del) as [[c k]|] eqn:Ee; [|by destruct s]. destruct (Nat.eqb_spec (owner v) t) as [Hv|]; [|by destruct s].
  destruct (QDel_Model.nil (ework a (who (base s)) t (Do c))) eqn:Ew; [by destruct s|]. cbn [negb andb].
  assert (Hw : ework a (who (base s)) t (Do c) <> []) by (intros E; by rewrite E in Ew).
  assert (HE : exists es, edges (eng (wstep (who (base s)) t (Do c))) = upd (edges (eng (who (base s)))) v es /\
    (forall p, holds v p (changes (batch (base s) t) v) (edges (eng (who (base s))) v) -> holds v p (skipn k (changes (batch (base s) t) v)) es)).
  { unfold enact in Ee. destruct del.
    - destruct (del_run a (changes (batch (base s) t) v)) as [|d ds] eqn:Ed; [done|]. rewrite <- Ed in Ee. destruct (gone _ _ _) as [m|] eqn:Em; [|done]. injection Ee as <- <-.
      exists (masked false (edges (eng (who (base s))) v) m). split; [by apply wstep_del|]. intros p (A & X & E1 & E2). rewrite E1 in *.
      destruct A as [|x A]; [|done]. cbn [map app] in *. rewrite del_run_minus in *. rewrite app_nil_r in E2. rewrite E2 in Em. pose proof (gone_front a X (window ts W (clock p) (outs v p))) as Ef.
      rewrite Ef in Em. injection Em as <-. exists [], []. cbn. rewrite app_nil_r. split.
      + apply skipn_all2. rewrite !map_length. lia.
      + rewrite E2. apply masked_front.
    - destruct (add_run a (changes (batch (base s) t) v)) as [|d ds] eqn:Ed; [done|]. rewrite <- Ed in Ee. injection Ee as <- <-.
      exists (edges (eng (who (base s))) v ++ add_run a (changes (batch (base s) t) v)). split; [by apply wstep_add|]. intros p (A & X & E1 & E2). rewrite E1, add_run_plus in *.
      exists [], X. cbn. rewrite app_nil_r. split; [|done]. rewrite <- (map_length Plus A). apply drop_app. }
  destruct HE as (es & HE1 & HE2). destruct H as (p & q & H1 & H2 & H3 & H4). exists p, q. cbn [set_top base due nxt tq batch who]. split_and!; try done.
  intros w Hw'. specialize (H4 w Hw'). rewrite HE1. unfold upd. destruct (Nat.eqb_spec w v) as [->|Hne].
  - assert (u = t) as -> by congruence. rewrite Nat.eqb_refl, changes_rest. by apply HE2.
  - destruct (Nat.eqb_spec u t) as [->|]; [|done]. by rewrite changes_rest_ne.
Qed.

Lemma holds_done v p es : holds v p [] es -> es = window ts W (clock p) (outs v p).
Proof. intros (A & X & E1 & E2). destruct A; [|done]. destruct X; [|done]. by rewrite app_nil_r in E2. Qed.
Lemma clock_latest l : latest a ts l = clock l.
Proof. done. Qed.

Lemma inject_thread s t k r : core (base s) -> t < n -> may_pull a (base s) t k r = true -> 0 < k -> thread_ok s t ->
  thread_ok (inject a ts W s (pull a owner swap n (base s) t k r) t k) t.
Proof using All.
  intros HC Ht Hm Hk (p & q & H1 & H2 & H3 & H4). unfold inject, pull. rewrite Hm. cbn [set_top who tq batch nxt].
  assert (Hm' := Hm). unfold may_pull in Hm'. repeat (apply andb_true_iff in Hm' as [Hm' ?]). rename H into Hn0, H0 into Hr, H5 into Hk0, H6 into Hlen, H7 into Hop, Hm' into Hlook.
  assert (Hb : batch (base s) t = []).
  { destruct (c_batch _ _ _ _ _ _ HC t) as [?|(g & sn & o & E)]; [done|]. unfold looking in Hlook. by rewrite E in Hlook. }
  rewrite H2 in Hlen. unfold plus in Hlen. rewrite map_length in Hlen. apply Nat.leb_le in Hlen.
  set (got := firstn k q).
  assert (Eg : added_by a (firstn k (tq (base s) t)) = got). { rewrite H2. unfold plus. rewrite firstn_map. apply added_by_plus. }
  rewrite Eg, Hb, !upd_eq. cbn [app]. rewrite clock_latest.
  assert (Hgne : got <> []). { unfold got. destruct q as [|x q]; [cbn in Hlen; lia|]. by destruct k; [lia|]. }
  assert (Hri : rising ts ((p ++ got) ++ skipn k q)). { rewrite <- app_assoc. unfold got. rewrite firstn_skipn, <- H1. apply rising_filter. rewrite <- (firstn_skipn (nxt (base s)) evs) in Hup. by apply rising_app in Hup as [? _]. }
  apply rising_app in Hri as (Hri & _ & _).
  assert (Hcl : clock (p ++ got) = clock got) by (by apply clock_app).
  pose proof (clock_mono ts p got Hri) as Hmono. rewrite Hcl in Hmono.
  set (qu := due s t ++ got).
  assert (Hqu : rising ts qu). { unfold qu. rewrite H3. assert (List.filter (young (clock p)) p ++ got = List.filter (young (clock p)) p ++ List.filter (fun _ => true) got) as ->.
    { f_equal. clear. induction got as [|x l IH]; [done|]. cbn. by f_equal. }
    clear -Hri. revert Hri. generalize (young (clock p)) as f. intros f. induction p as [|x l IH]; cbn; intros H.
    - by apply rising_filter.
    - apply StronglySorted_inv in H as [H Hx]. destruct (f x); [|by apply IH]. cbn. constructor; [by apply IH|]. rewrite List.Forall_forall in *. intros y Hy.
      apply Hx. apply in_app_iff. apply in_app_iff in Hy as [Hy|Hy]; apply List.filter_In in Hy as [Hy _]; auto. }
  assert (Hyq : List.filter (young (clock got)) qu = List.filter (young (clock (p ++ got))) (p ++ got)).
  { unfold qu. rewrite H3, Hcl, !List.filter_app. f_equal. by apply young_young. }
  exists (p ++ got), (skipn k q). cbn [base due set_top nxt tq batch who]. rewrite !upd_eq, ripe_rest, Hyq by done. split_and!.
  - rewrite <- app_assoc. unfold got. by rewrite firstn_skipn.
  - rewrite H2. unfold plus. by rewrite skipn_map.
  - done.
  - intros v Hv. specialize (H4 v Hv). rewrite Hb in H4. apply holds_done in H4. rewrite wstep_edges, H4 by done.
    exists (outs v got), (outs v (ripe a ts W (clock got) qu)). split.
    + rewrite changes_app. rewrite H2. unfold plus at 1. rewrite firstn_map. fold (plus a (firstn k q)). by rewrite changes_plus, changes_expiries.
    + rewrite <- outs_young, <- H3, <- outs_app. fold qu. rewrite (ripe_young (clock got) qu Hqu) at 1. by rewrite outs_app, Hyq, outs_young.
Qed.

Lemma core_inject s b t k : core b -> (exists got sent own, at_ b t = Term_Model.Work got sent own) -> Term_Model.open_ (trm (who b)) t = true -> core (base (inject a ts W s b t k)).
Proof.
  intros H HW Ho. constructor; cbn [inject base set_top who tq batch epoch acked cmds resp nxt rem lg seen]; try apply H.
  - intros u. unfold upd. destruct (Nat.eqb_spec u t) as [->|]; [by right|apply H].
  - intros u Hu. unfold upd. destruct (Nat.eqb_spec u t) as [->|]; [congruence|by apply H].
Qed.

Lemma pulled_work s t k r : t < n -> may_pull a s t k r = true -> let b := pull a owner swap n s t k r in
  (exists got sent own, at_ b t = Term_Model.Work got sent own) /\ Term_Model.open_ (trm (who b)) t = true.
Proof.
  intros Ht Hm b. unfold b, pull. rewrite Hm. cbn [set_top who]. unfold may_pull in Hm. repeat (apply andb_true_iff in Hm as [Hm ?]).
  unfold looking in Hm. destruct (at_ s t) as [|got| | | | | | | | | | | | | | |] eqn:Hp; try done. split.
  - rewrite trm_step. unfold lwork. rewrite Hp. cbn. unfold Term_Model.step. cbn [fst snd]. rewrite (proj2 (Nat.ltb_lt t n) Ht). unfold Term_Model.go. rewrite Hp, H3. cbn. Term_Proofs.fs. by do 3 eexists.
  - by rewrite wstep_open.
Qed.

Lemma xstep_inv s x : xinv s -> xinv (xstep s x).
Proof using All.
  intros [HC HT].
  assert (HC' : core (qstep a owner swap n (plus a evs) ask (base s) x)) by (by apply (core_qstep a owner swap n Hown (plus a evs) ask sent0)).
  assert (Hpl : (forall t, t < n -> thread_ok (Xst a (qstep a owner swap n (plus a evs) ask (base s) x) (due s)) t) -> xinv (Xst a (qstep a owner swap n (plus a evs) ask (base s) x) (due s))).
  { intros H. by constructor. }
  destruct x as [| |t x]; cbn [QWin_Model.xstep].
  - apply Hpl. intros t Ht. apply remit_thread. by apply HT.
  - apply Hpl. intros t Ht. specialize (HT t Ht). cbn [qstep]. unfold log_step. destruct (lg (base s)); repeat case_match; by apply (thread_same s).
  - assert (Hother : forall b, b = base s -> forall u, thread_ok s u -> thread_ok (Xst a b (due s)) u) by (intros b -> u; by destruct s).
    destruct x as [|x|k r| |].
    + apply Hpl. intros u Hu. specialize (HT u Hu). cbn [qstep]. unfold tstep. repeat case_match; by apply (thread_same s).
    + apply Hpl. intros u Hu. specialize (HT u Hu). cbn [qstep]. unfold tstep. destruct (n <=? t); [by apply Hother|]. destruct (acked (base s) t); [by apply Hother|].
      assert (Hon : forall y, no_edges a y -> thread_ok (Xst a (on a owner swap n (base s) t y) (due s)) u).
      { intros y Hy. apply (thread_same s); try done. intros v _. cbn. by rewrite wstep_edges. }
      destruct x as [[]|[]]; cbn [loop]; try (case_match; [|by apply Hother]); try (case_match; by apply Hother || apply Hon); try (by apply Hon); try (by apply Hother); try (by apply enacted_thread).
      case_match; [by apply Hother|by apply Hon].
    + destruct (Nat.leb_spec n t) as [Hge|Ht].
      { cbn [negb andb]. apply Hpl. intros u Hu. cbn [qstep]. unfold tstep. rewrite (proj2 (Nat.leb_le _ _) Hge). apply Hother; [done|by apply HT]. }
      destruct (acked (base s) t) eqn:Ha.
      { cbn [negb andb]. apply Hpl. intros u Hu. cbn [qstep]. unfold tstep. rewrite (proj2 (Nat.leb_gt _ _) Ht), Ha. apply Hother; [done|by apply HT]. }
      assert (Eq : qstep a owner swap n (plus a evs) ask (base s) (Thread t (Pull k r)) = pull a owner swap n (base s) t k r).
      { cbn [qstep]. unfold tstep. by rewrite (proj2 (Nat.leb_gt _ _) Ht), Ha. }
      rewrite Eq in *. cbn [negb andb]. destruct (may_pull a (base s) t k r) eqn:Hm; cbn [andb].
      2:{ apply Hpl. intros u Hu. unfold pull. rewrite Hm. apply Hother; [done|by apply HT]. }
      destruct (Nat.ltb_spec 0 k) as [Hk|Hk].
      * destruct (pulled_work (base s) t k r Ht Hm) as [HW Ho]. constructor; [by apply core_inject|]. intros u Hu. destruct (decide (u = t)) as [->|Hne]; [by apply inject_thread; try apply HT|].
        apply (thread_same s); cbn [inject base due set_top nxt tq batch who]; try (by apply HT); unfold pull; rewrite ?Hm; cbn [set_top nxt tq batch who]; rewrite ?upd_ne by done; try done.
        intros v Hv. by rewrite wstep_edges.
      * apply Hpl. intros u Hu. unfold pull. rewrite Hm. assert (k = 0) as -> by lia. apply (thread_same s); cbn [base due set_top nxt tq batch who]; try (by apply HT); try done.
        -- unfold upd. by destruct (Nat.eqb_spec u t) as [->|].
        -- unfold upd. destruct (Nat.eqb_spec u t) as [->|]; [|done]. cbn. by rewrite app_nil_r.
        -- intros v Hv. by rewrite wstep_edges.
    + apply Hpl. intros u Hu. specialize (HT u Hu). cbn [qstep]. unfold tstep. repeat case_match; by apply (thread_same s).
    + apply Hpl. intros u Hu. specialize (HT u Hu). cbn [qstep]. unfold tstep. repeat case_match; by apply (thread_same s).
Qed.
Lemma xrun_inv l : forall s, xinv s -> xinv (xrun s l).
Proof using All. induction l as [|x l IH]; intros s H; [done|]. by apply IH, xstep_inv. Qed.
Lemma xstart_inv : Whole_Props.fresh n e0 sent0 -> (forall v, edges e0 v = []) -> xinv (xstart a e0 sent0).
Proof using All.
  intros (F1 & F2 & F3) He. constructor.
  - by apply (core_qstart a owner swap n Hown).
  - intros t Ht. exists [], []. split_and!; try done. intros v Hv. exists [], []. cbn. by rewrite He.
Qed.

(** The engine: a run of it. *)
Lemma xwork_step s x : eng (who (base (xstep s x))) = erun a owner (eng (who (base s))) (qwork a owner n (base s) x).
Proof.
  rewrite <- (qwork_step a owner swap n (plus a evs) ask). unfold QWin_Model.xstep. destruct x as [| |t [|x|k r| |]]; try done. by destruct (_ && _).
Qed.
Lemma xwork_run l : forall s, eng (who (base (xrun s l))) = erun a owner (eng (who (base s))) (xworks a owner swap n evs ask ts W s l).
Proof.
  induction l as [|x l IH]; intros s; [done|]. cbn [xworks]. unfold erun. rewrite fold_left_app. fold (erun a owner (eng (who (base s))) (qwork a owner n (base s) x)).
  rewrite <- xwork_step. apply IH.
Qed.

(** What a look at the graph finds. *)
Lemma xall_done s : xinv s -> (forall t, t < n -> at_ (base s) t = Term_Model.Done) ->
  idle (eng (who (base s))) /\ complete n (who (base s)) = true /\
  forall v, edges (eng (who (base s))) v = window ts W (clock (of_thread owner (owner v) (firstn (nxt (base s)) evs))) (outs v (firstn (nxt (base s)) evs)).
Proof using All.
  intros [HC HT] HD. pose proof (c_trm _ _ _ _ _ _ HC) as (own & q & c & l & Et).
  assert (HQ : Term_Proofs.quiet n (trm (who (base s)))).
  { rewrite Et. apply Term_All.all_left_quiet. rewrite <- Et. exact HD. }
  pose proof (quiet_idle a owner n Hown (who (base s)) (c_w _ _ _ _ _ _ HC) (c_unused _ _ _ _ _ _ HC) HQ) as HI.
  split_and!; [done|by apply (idle_complete a owner n Hown); [apply HC| |]|].
  intros v. destruct (HT (owner v) (Hown v)) as (p & q' & H1 & H2 & H3 & H4). specialize (H4 v eq_refl).
  destruct (HQ (owner v) (Hown v)) as (_ & _ & Ho).
  rewrite (c_batch_open _ _ _ _ _ _ HC _ Ho) in H4. apply holds_done in H4. rewrite (proj1 (c_open _ _ _ _ _ _ HC _ (Hown v) Ho)) in H2. destruct q'; [|done].
  rewrite app_nil_r in H1. rewrite H4, <- (outs_thread owner v (firstn (nxt (base s)) evs)), H1. done.
Qed.
Lemma core_view_done b : core b -> lg b = LView -> forall t, t < n -> is_in a Taken b t.
Proof. intros H Hl t Ht. destruct (c_mode _ _ _ _ _ _ H t Ht) as (m & Hm & Hi). rewrite Hl in Hm. cbn in Hm. by subst. Qed.

(** What is added comes from the stream. *)
Definition xfrom (s : xst a) : Prop := forall t v e, (v, Plus e) ∈ batch (base s) t \/ (v, Plus e) ∈ tq (base s) t -> (v, e) ∈ evs.
Lemma xfrom_q s x : xfrom s -> xfrom (Xst a (qstep a owner swap n (plus a evs) ask (base s) x) (due s)).
Proof.
  intros H. unfold xfrom. cbn [base]. destruct x as [| |t x]; cbn [qstep].
  - unfold remit. destruct (rem (base s)); try done. rewrite nth_plus. destruct (nth_error evs (nxt (base s))) as [[v y]|] eqn:En; [|done]. cbn [option_map fst snd].
    intros t w z. cbn. intros [Hz|Hz]; [apply (H t); by left|]. revert Hz. unfold upd. case_match; [|intros Hz; apply (H t); by right].
    rewrite elem_of_app, elem_of_list_singleton. intros [Hz|[= -> ->]]; [apply (H (owner v)); by right|]. apply elem_of_list_In. by apply nth_error_In in En.
  - unfold log_step. destruct (lg (base s)); try done; try (destruct (rem (base s)); done); try (case_match; [case_match|]; done).
  - unfold tstep. destruct (n <=? t); [done|]. destruct (acked (base s) t); [destruct x; try done; destruct (cmds (base s) t) as [|[]]; done|].
    destruct x as [|x|k r| |]; try done.
    + destruct (cmds (base s) t); [done|]. by case_match.
    + assert (Hen : forall v del, xfrom (Xst a (enacted a owner swap n (base s) t v del) (due s))).
      { intros v del. unfold enacted. destruct (enact a (base s) t v del) as [[c k]|]; [|done]. case_match; [|done]. intros u w z. cbn. unfold upd.
        intros [Hz|Hz]; [|apply (H u); by right]. case_match eqn:E; [|apply (H u); by left]. apply (H t). left. by apply rest_in in Hz. }
      destruct x as [[]|[]]; cbn [loop]; try done; try (case_match; done); apply Hen.
    + unfold pull. case_match; [|done]. intros u w z. cbn. unfold upd. case_match eqn:E; [|apply (H u)]. intros [Hz|Hz]; apply (H t).
      * apply elem_of_app in Hz as [?|Hz]; [by left|right]. rewrite <- (firstn_skipn k). apply elem_of_app. by left.
      * right. rewrite <- (firstn_skipn k). apply elem_of_app. by right.
    + by case_match.
Qed.
Lemma xfrom_step s x : xfrom s -> xfrom (xstep s x).
Proof.
  intros H. pose proof (xfrom_q s x H) as Hq. unfold QWin_Model.xstep. destruct x as [| |t [|x|k r| |]]; try done. destruct (_ && _); [|done].
  intros u v e. cbn [inject base set_top batch tq]. unfold upd. destruct (Nat.eqb_spec u t) as [->|]; [|apply Hq]. rewrite elem_of_app. intros [[Hz|Hz]|Hz]; [apply (Hq t); by left| |apply (Hq t); by right].
  exfalso. unfold expiries in Hz. by apply elem_of_list_fmap in Hz as (? & ? & _).
Qed.
Lemma xworks_in l : forall s t v es, xfrom s -> (t, AddEdges v es) ∈ xworks a owner swap n evs ask ts W s l -> es <> [] /\ forall x, x ∈ es -> (v, x) ∈ evs.
Proof.
  induction l as [|y l IH]; intros s t v es Hs Hin; [cbn in Hin; by apply elem_of_nil in Hin|]. cbn [xworks] in Hin. apply elem_of_app in Hin as [Hin|Hin].
  - unfold qwork in Hin. destruct y as [| |u [|x| | |]]; try by apply elem_of_nil in Hin. destruct ((n <=? u) || acked (base s) u); [by apply elem_of_nil in Hin|].
    destruct x as [|c']; [by apply elem_of_nil in Hin|]. destruct c' as [| |w l'|w l'|w m].
    + by apply ework_in in Hin as [[= <-] ->].
    + destruct (QDel_Model.nil (batch (base s) u)); [|by apply elem_of_nil in Hin]. by apply ework_in in Hin as [[= <-] ->].
    + destruct (enact a (base s) u w false) as [[c' k]|] eqn:Ee; [|by apply elem_of_nil in Hin]. destruct (owner w =? u); [|by apply elem_of_nil in Hin].
      apply ework_in in Hin as [[= ->] ->]. unfold enact in Ee. destruct (add_run a (changes (batch (base s) u) w)) as [|e es'] eqn:Ed; [done|]. injection Ee as <- <- <-. split; [done|].
      intros x Hx. apply (Hs u). left. apply changes_in. rewrite (add_run_split a (changes (batch (base s) u) w)), Ed. apply elem_of_app. left. apply elem_of_list_fmap. by exists x.
    + destruct (enact a (base s) u w true) as [[c' k]|] eqn:Ee; [|by apply elem_of_nil in Hin]. destruct (owner w =? u); [|by apply elem_of_nil in Hin].
      apply ework_in in Hin as [[= ->] ->]. unfold enact in Ee. destruct (del_run a (changes (batch (base s) u) w)) as [|d ds] eqn:Ed; [done|]. by destruct (gone _ _ _).
    + by apply ework_in in Hin as [[= <-] ->].
  - apply (IH _ _ _ _ (xfrom_step s y Hs) Hin).
Qed.
End win.
