(** The program with queries in the long run: what every turn brings forward. *)
From Verif Require Import Base Engine_Spec Engine_Model Engine_Proofs Engine_Props Rest_Proofs Whole_Model Whole_Proofs Live_Proofs QDel_Spec QDel_Model QDel_Lists QDel_Proofs QDLive_Model.
From Verif Require Term_Model Term_Proofs Term_All Term_Live.
Open Scope nat_scope.

(** Where a thread looks for events it is open; where it checks it is not. *)
Definition at_look (p : Term_Model.pc) : bool := match p with Term_Model.Look _ => true | _ => false end.
Definition at_check (p : Term_Model.pc) : bool :=
  match p with Term_Model.Recv _ | Term_Model.Look _ | Term_Model.Work _ _ _ => false | _ => true end.
Definition placed (s : Term_Model.st) (t : nat) : Prop :=
  (at_look (Term_Model.at_ s t) = true -> Term_Model.open_ s t = true) /\ (at_check (Term_Model.at_ s t) = true -> Term_Model.open_ s t = false).
Lemma placed_exec swap n own q c l t : placed (Term_Model.exec swap n (Term_Model.start own q c) l) t.
Proof.
  assert (G : forall s, placed s t -> placed (Term_Model.exec swap n s l) t); [|by apply G].
  induction l as [|[u x] l IH]; intros s Hs; [done|]. cbn [Term_Model.exec fold_left]. apply IH. clear IH.
  destruct (decide (t = u)) as [->|Hne].
  - destruct Hs as [H1 H2]. unfold placed, Term_Model.step. cbn [fst snd]. destruct (u <? n); [|done]. unfold Term_Model.go, Term_Model.received.
    destruct (Term_Model.at_ s u) eqn:E; destruct x; try (rewrite E; by split); cbv zeta; cbn in H1, H2; try specialize (H1 eq_refl); try specialize (H2 eq_refl);
      repeat Term_Live.ifs; cbn; Term_Proofs.fs; rewrite ?E; cbn; split; try done; intros; congruence.
  - destruct (Term_Live.other_thread swap n s u x t Hne) as (E1 & _ & _ & _ & _ & E2). unfold placed. rewrite E1, E2. exact Hs.
Qed.

Lemma sum_upd {A} n (f : nat -> list A) t l : t < n -> sumt (fun u => length (upd f t l u)) n + length (f t) = sumt (fun u => length (f u)) n + length l.
Proof.
  intros Ht. pose proof (sumt_change (fun u => length (upd f t l u)) (fun u => length (f u)) n t Ht) as H. cbn beta in H. rewrite upd_eq in H. apply H. intros k _ Hne. by rewrite upd_ne.
Qed.

Section live.
Context (a : alg) (owner : nat -> nat) (swap : bool) (n : nat) (Hown : forall v, owner v < n).
Context (evs : list (nat * change (edge_t a))) (ask : nat -> bool) (e0 : est a) (sent0 : nat -> N) (okay : actor a -> Prop).
Hypothesis F1 : forall t, todo e0 t = [].
Hypothesis F2 : forall t, n <= t -> queue e0 t = [].
Hypothesis F3 : sumN sent0 n = sumN (fun t => N.of_nat (length (queue e0 t))) n.
(** The stream deletes only edges that are there. *)
Hypothesis Hval : forall v, after (edges e0 v) (changes evs v) <> None.
Hypothesis Hokay : forall x, allowed x -> okay x.
Notation qstep := (qstep a owner swap n evs ask).
Notation qrun := (qrun a owner swap n evs ask).
Notation wstep := (wstep a owner swap n).
Notation qst := (qst a).
Notation at_ s t := (Term_Model.at_ (trm (who s)) t).
Notation open_ s t := (Term_Model.open_ (trm (who s)) t).
Notation on := (on a owner swap n).
Notation qinv := (qinv a owner swap n evs ask e0).

Definition reach (s : qst) : Prop := exists l, (forall x, x ∈ l -> okay x) /\ s = qrun (qstart a e0 sent0) l.
Hypothesis Hfin : forall s, reach s -> finite a owner (eng (who s)).

Lemma qrun_app s l l' : qrun s (l ++ l') = qrun (qrun s l) l'.
Proof. unfold QDel_Model.qrun. by rewrite fold_left_app. Qed.
Lemma reach_start : reach (qstart a e0 sent0).
Proof. exists []. split; [|done]. intros x H. by apply elem_of_nil in H. Qed.
Lemma reach_step s x : reach s -> allowed x -> reach (qstep s x).
Proof.
  intros (l & Hl & ->) Hx. exists (l ++ [x]). rewrite qrun_app. split; [|done]. intros y. rewrite elem_of_app, elem_of_list_singleton. intros [Hy| ->]; auto.
Qed.
Lemma reach_inv s : reach s -> qinv s.
Proof. intros (l & _ & ->). apply (qrun_inv a owner swap n Hown), (qstart_inv a owner swap n Hown); done. Qed.
Lemma no_panic s t v : reach s -> owner v = t -> gone a (edges (eng (who s)) v) (del_run a (changes (batch s t) v)) <> None.
Proof.
  intros HR Hv Hg. pose proof (reach_inv s HR) as H.
  apply gone_none in Hg. destruct (q_graph _ _ _ _ _ _ _ _ H v) as (dn & r & E1 & E2 & E3 & _). rewrite Hv in E1.
  pose proof (same_after (map Minus (del_run a (changes (batch s t) v))) _ _ E3) as Hs. rewrite Hg in Hs. destruct (after r _) eqn:Er; [done|].
  apply (Hval v). rewrite <- (firstn_skipn (nxt s) evs), changes_app, E1, (del_run_split a (changes (batch s t) v)), <- !app_assoc, after_app, E2, after_app, Er. done.
Qed.
Lemma reach_placed s t : reach s -> placed (trm (who s)) t.
Proof. intros H. destruct (q_trm _ _ _ _ _ _ _ _ (reach_inv s H)) as (own & q & c & l & ->). apply placed_exec. Qed.

(** While a thread has pulled events that it has not enacted, it has processed none of its
    messages; these events are its own, and of the stream. *)
Record tidy (s : qst) : Prop := Tidy {
  h_did : forall t, batch s t <> [] -> did (who s) t = 0%N /\ exists got sent own, at_ s t = Term_Model.Work got sent own /\ own <> 0%N;
  h_own : forall t v x, (v, x) ∈ batch s t \/ (v, x) ∈ tq s t -> owner v = t;
  h_evs : from_evs a evs s }.
Lemma did_other (w : wst a) t c u : u <> t -> did (wstep w t c) u = did w u.
Proof.
  intros Hne. unfold Whole_Model.wstep. destruct (Term_Model.at_ (trm w) t); destruct c as [k|k]; try (cbn; by rewrite upd_ne); try done.
  - destruct k; destruct (todo (eng w) t); try done; case_match; try done; cbn; by rewrite upd_ne.
  - destruct k; destruct (todo (eng w) t) as [|[]]; try done; try case_match; try done; cbn; by rewrite upd_ne.
Qed.
Lemma did_stays (w : wst a) t c got sent own : Term_Model.at_ (trm w) t = Term_Model.Work got sent own -> stays a c -> c <> Do Pop -> did w t = 0%N -> did (wstep w t c) t = 0%N.
Proof.
  intros Hp Hc Hn Hd. unfold Whole_Model.wstep. rewrite Hp. destruct c as [k|k].
  - destruct k; try done; destruct (todo (eng w) t); done.
  - destruct k; try done; destruct (todo (eng w) t) as [|[]]; try done; try case_match; try done; cbn; by rewrite upd_eq.
Qed.
Lemma tidy_same s s' : tidy s -> who s' = who s -> tq s' = tq s -> batch s' = batch s -> tidy s'.
Proof. intros H E1 E2 E3. constructor; unfold from_evs; rewrite ?E1, ?E2, ?E3; apply H. Qed.
Lemma tidy_start : tidy (qstart a e0 sent0).
Proof. constructor; [done| |]; [intros t v x [H|H]; by apply elem_of_nil in H|intros t x [H|H]; by apply elem_of_nil in H]. Qed.
Lemma tidy_on s t c : tidy s -> (batch s t <> [] -> stays a c /\ c <> Do Pop) -> tidy (on s t c).
Proof.
  intros H Hc. constructor; [|apply H|apply H]. intros u Hb. cbn in Hb. destruct (h_did _ H u Hb) as (Hd & g & sn & o & Hp & Ho). cbn [QDel_Model.on set_who who].
  destruct (decide (u = t)) as [->|Hne].
  - destruct (Hc Hb) as [H1 H2]. split; [by eapply did_stays|]. destruct (wstep_work a owner swap n (who s) t c g sn o Hp H1) as (sn' & E). by exists g, sn', o.
  - rewrite did_other by done. split; [done|]. exists g, sn, o. split; [|done]. by rewrite (proj1 (wstep_other a owner swap n (who s) t c u Hne)).
Qed.
Lemma tidy_enacted s t v del : tidy s -> tidy (enacted a owner swap n s t v del).
Proof.
  intros H. unfold enacted. destruct (enact a s t v del) as [[c' k]|] eqn:Ee; [|done]. set (c := Do c'). destruct (_ && _) eqn:E; [|done].
  assert (Hc : stays a c /\ c <> Do Pop). { unfold enact in Ee. destruct del; [destruct (del_run _ _); [done|]; destruct (gone _ _ _); [|done]|destruct (add_run _ _); [done|]]; by injection Ee as <- <-. }
  destruct Hc as [Hc1 Hc2].
  constructor; cbn [set_top who tq batch].
  + intros u Hb. assert (Hb' : batch s u <> []) by (revert Hb; unfold upd; destruct (Nat.eqb_spec u t) as [->|]; [destruct (batch s t); [by destruct k|done]|done]).
    destruct (h_did _ H u Hb') as (Hd & g & sn & o & Hp & Ho). destruct (decide (u = t)) as [->|Hne].
    * split; [by eapply did_stays|]. destruct (wstep_work a owner swap n (who s) t c g sn o Hp Hc1) as (sn' & E'). by exists g, sn', o.
    * rewrite did_other by done. split; [done|]. exists g, sn, o. split; [|done]. by rewrite (proj1 (wstep_other a owner swap n (who s) t c u Hne)).
  + intros u w x. unfold upd. destruct (Nat.eqb_spec u t) as [->|]; [|apply H]. intros [Hin|Hin]; [|apply (h_own _ H t w x); by right].
    apply (h_own _ H t w x). left. by apply rest_in in Hin.
  + intros u x. cbn. unfold upd. destruct (Nat.eqb_spec u t) as [->|]; [|apply H]. intros [Hin|Hin]; [|apply (h_evs _ H t x); by right].
    apply (h_evs _ H t x). left. by apply rest_in in Hin.
Qed.
Lemma tidy_loop s t c : tidy s -> tidy (loop a owner swap n s t c).
Proof.
  intros H. destruct c as [[]|[]]; cbn [loop]; try done; try (by apply tidy_on).
  - case_match; [done|]. by apply tidy_on.
  - destruct (nil (batch s t)) eqn:E; [|done]. apply nil_true in E. by apply tidy_on.
  - destruct (nil (batch s t)) eqn:E; [|done]. apply nil_true in E. case_match; [|done]. by apply tidy_on.
  - destruct (nil (batch s t)) eqn:E; [|done]. apply nil_true in E. case_match; [|done]. by apply tidy_on.
  - case_match; [|done]. by apply tidy_on.
  - destruct (nil (batch s t)) eqn:E; [|done]. apply nil_true in E. by apply tidy_on.
  - by apply tidy_enacted.
  - by apply tidy_enacted.
Qed.
Lemma tidy_step s x : qinv s -> tidy s -> tidy (qstep s x).
Proof.
  intros HQ H. destruct x as [| |t x]; cbn [QDel_Model.qstep].
  - assert (Hev := from_step a owner swap n evs ask s Remitter (h_evs _ H)). cbn [QDel_Model.qstep] in Hev. revert Hev. unfold remit. destruct (rem s); try done. destruct (nth_error evs (nxt s)) as [[v y]|] eqn:En; intros Hev; [|constructor; [apply H|apply H|done]].
    constructor; [apply H| |done]. intros t w z. cbn. intros [Hz|Hz]; [apply (h_own _ H t w z); by left|]. revert Hz. unfold upd. destruct (Nat.eqb_spec t (owner v)) as [->|]; [|intros Hz; apply (h_own _ H t w z); by right].
    rewrite elem_of_app, elem_of_list_singleton. intros [Hz|[= -> ->]]; [apply (h_own _ H _ w z); by right|done].
  - unfold log_step. destruct (lg s) eqn:El.
    all: try (repeat case_match; by apply (tidy_same s)).
    constructor; [|apply H|apply H]. intros t Hb. cbn in Hb. exfalso. destruct (h_did _ H t Hb) as (_ & g & sn & o & Hp & _). destruct (decide (t < n)) as [Ht|Ht].
    + destruct (view_done _ _ _ _ _ _ _ s HQ El t Ht) as (_ & _ & _ & _ & E). congruence.
    + rewrite (w_out _ _ _ (q_w _ _ _ _ _ _ _ _ HQ) t) in Hp by lia. done.
  - unfold tstep. destruct (n <=? t) eqn:Etn; [done|]. apply Nat.leb_gt in Etn. destruct (acked s t); [destruct x; try done; destruct (cmds s t) as [|[]]; try done; by apply (tidy_same s)|].
    destruct x as [|x|k r| |]; try done.
    + destruct (cmds s t); [done|]. case_match; [|done]. by apply (tidy_same s).
    + by apply tidy_loop.
    + unfold pull. destruct (may_pull a s t k r) eqn:E; [|done]. unfold may_pull in E. rewrite !andb_true_iff in E. destruct E as (((((E1 & E2) & E3) & E4) & E5) & E6).
      apply negb_true_iff, N.eqb_neq in E6. unfold looking in E1. destruct (at_ s t) as [|got| | | | | | | | | | | | | | |] eqn:Hp; try done.
      assert (Ew : wstep (who s) t (Ctl (Term_Model.Own (N.of_nat k + r - 1))) = loop_on a swap n (who s) t (Term_Model.Own (N.of_nat k + r - 1))) by (unfold Whole_Model.wstep; by rewrite Hp).
      rewrite Ew. constructor; cbn [set_top who tq batch].
      * intros u Hb. destruct (decide (u = t)) as [->|Hne].
        -- cbn. rewrite upd_eq. split; [done|]. unfold Term_Model.step. cbn [fst snd]. rewrite (proj2 (Nat.ltb_lt t n) Etn). unfold Term_Model.go. rewrite Hp, E2. cbn. Term_Proofs.fs. eexists _, _, _. split; [done|lia].
        -- rewrite upd_ne in Hb by done. destruct (h_did _ H u Hb) as (Hd & g & sn & o & Hpu & Ho). cbn. rewrite upd_ne by done. split; [done|]. exists g, sn, o. split; [|done]. by rewrite loop_other.
      * intros u w z. unfold upd. destruct (Nat.eqb_spec u t) as [->|]; [|apply H]. intros [Hz|Hz]; apply (h_own _ H t w z).
        -- apply elem_of_app in Hz as [?|Hz]; [by left|right]. rewrite <- (firstn_skipn k). apply elem_of_app. by left.
        -- right. rewrite <- (firstn_skipn k). apply elem_of_app. by right.
      * intros u z. cbn. unfold upd. destruct (Nat.eqb_spec u t) as [->|]; [|apply H]. intros [Hz|Hz]; apply (h_evs _ H t z).
        -- apply elem_of_app in Hz as [?|Hz]; [by left|right]. rewrite <- (firstn_skipn k). apply elem_of_app. by left.
        -- right. rewrite <- (firstn_skipn k). apply elem_of_app. by right.
    + case_match; [|done]. by apply (tidy_same s).
Qed.
Lemma reach_tidy s : reach s -> tidy s.
Proof.
  intros (l & _ & ->). assert (G : forall s, qinv s -> tidy s -> tidy (qrun s l)).
  { induction l as [|x l IH]; intros s HQ H; [done|]. cbn. apply IH; [by apply (qstep_inv a owner swap n Hown)|by apply tidy_step]. }
  apply G; [|apply tidy_start]. apply (qstart_inv a owner swap n Hown); done.
Qed.

(** What is still to come: events to be passed on, pulled, enacted; steps of the queries; commands
    to be taken and answered; queues to be found empty. *)
Definition mA (s : qst) : nat := 3 * (length evs - nxt s) + 2 * sumt (fun t => length (tq s t)) n + sumt (fun t => length (batch s t)) n.
Definition mB (s : qst) : nat :=
  match rem s with
  | Finished => 0
  | Streaming => 1
  | Asked => match lg s with LResume i => 2 + (n - i) | LView => n + 3 | LAwait i => n + 4 + (n - i) | LCast i => 2 * n + 5 + (n - i) | LWait => 3 * n + 6 end
  end.
Definition mD (s : qst) : nat := sumt (fun t => 2 * length (cmds s t) + (if acked s t then 0 else 1)) n.
Definition mO (s : qst) : nat := sumt (fun t => if open_ s t then 1 else 0) n.
Definition less (s' s : qst) : Prop := mA s' < mA s \/ mA s' = mA s /\ (mB s' < mB s \/ mB s' = mB s /\ (mD s' < mD s \/ mD s' = mD s /\ mO s' < mO s)).
Lemma less_trans s1 s2 s3 : less s1 s2 -> less s2 s3 -> less s1 s3.
Proof. unfold less. lia. Qed.
(** Nothing of this has changed. *)
Definition frame (s s' : qst) : Prop := (exists w, s' = set_who a s w) /\ forall t, t < n -> open_ s' t = open_ s t.
Lemma frame_refl s : frame s s.
Proof. split; [exists (who s); by destruct s|done]. Qed.
Lemma frame_trans s1 s2 s3 : frame s1 s2 -> frame s2 s3 -> frame s1 s3.
Proof. intros ((w & ->) & E1) ((w' & ->) & E2). split; [by exists w'|]. intros t Ht. rewrite E2, <- E1 by done. done. Qed.
Lemma frame_measures s s' : frame s s' -> mA s' = mA s /\ mB s' = mB s /\ mD s' = mD s /\ mO s' = mO s.
Proof. intros ((w & ->) & E). split_and!; try done. unfold mO. apply sumt_ext. intros t Ht. by rewrite (E t Ht). Qed.
Lemma frame_less s s' s'' : frame s s' -> less s'' s' -> less s'' s.
Proof. intros (E1 & E2 & E3 & E4)%frame_measures. unfold less. lia. Qed.
Lemma less_frame s s' s'' : less s' s -> frame s' s'' -> less s'' s.
Proof. intros H (E1 & E2 & E3 & E4)%frame_measures. unfold less in *. lia. Qed.

(** The steps of a thread that leave all of this alone. *)
Definition pass (s : qst) (t : nat) (c : wchoice a) : bool :=
  match c with
  | Ctl Term_Model.Go => negb (looking a s t && (negb (nil (tq s t)) || epoch s t))
  | Ctl Term_Model.Close => nil (tq s t) && (epoch s t || finished a s)
  | Ctl (Term_Model.Own _) => false
  | Ctl Term_Model.Finish => nil (batch s t)
  | Ctl Term_Model.FinishCheck => nil (batch s t) && nil (tq s t) && finished a s
  | Ctl (Term_Model.More b) => nil (batch s t) && (negb b || nil (tq s t) && finished a s)
  | Ctl _ => true
  | Do Pop => nil (batch s t)
  | Do Run => true
  | _ => false
  end.
Lemma loop_pass s t c : plain a c -> loop a owner swap n s t c = if pass s t c then on s t c else s.
Proof.
  intros Hc. destruct c as [[]|[]]; cbn [loop pass]; try done; try (by destruct (looking a s t && _)).
  all: unfold plain, acts in Hc; rewrite !elem_of_cons, elem_of_nil in Hc; destruct Hc as [Hc|[Hc|[]]]; discriminate.
Qed.
Definition still (s : qst) (x : actor a) : Prop :=
  qstep s x = s \/
  exists t c, x = Thread t (Loop c) /\ t < n /\ acked s t = false /\ plain a c /\ pass s t c = true /\ qstep s x = on s t c /\
    forall u, u < n -> open_ (on s t c) u = open_ s u.
Lemma still_frame s x : still s x -> frame s (qstep s x).
Proof.
  intros [-> |(t & c & -> & Ht & _ & _ & _ & E & Ho)]; [apply frame_refl|]. rewrite E. split; [by eexists|done].
Qed.
Lemma open_less (w : wst a) t c u : Term_Model.open_ (trm (wstep w t c)) u = Term_Model.open_ (trm w) u \/ u = t /\ Term_Model.open_ (trm w) u = true /\ Term_Model.open_ (trm (wstep w t c)) u = false.
Proof.
  destruct (decide (u = t)) as [->|Hne]; [|left; by apply wstep_other].
  rewrite trm_step. destruct (lwork_one a owner w t c) as [->|(k & ->)]; [by left|]. cbn [Term_Model.exec fold_left]. unfold Term_Model.step. cbn [fst snd].
  destruct (t <? n); [|by left]. unfold Term_Model.go, Term_Model.received. destruct (Term_Model.open_ (trm w) t) eqn:E.
  - destruct (Term_Model.at_ (trm w) t); destruct k; try (by left); cbv zeta; repeat Term_Live.ifs; cbn; Term_Proofs.fs; auto.
  - destruct (Term_Model.at_ (trm w) t); destruct k; try (by left); cbv zeta; repeat Term_Live.ifs; cbn; Term_Proofs.fs; auto.
Qed.
Lemma on_split s t c : t < n -> less (on s t c) s \/ forall u, u < n -> open_ (on s t c) u = open_ s u.
Proof.
  intros Ht. destruct (open_less (who s) t c t) as [E|(_ & E1 & E2)].
  - right. intros u Hu. destruct (open_less (who s) t c u) as [?|(-> & ? & ?)]; [done|]. cbn in *. congruence.
  - left. right. split; [done|]. right. split; [done|]. right. split; [done|]. unfold mO.
    pose proof (sumt_change (fun u => if open_ (on s t c) u then 1 else 0) (fun u => if open_ s u then 1 else 0) n t Ht) as Hs. cbn [QDel_Model.on set_who who] in Hs. rewrite E1, E2 in Hs.
    assert (forall k, k < n -> k <> t -> (if Term_Model.open_ (trm (wstep (who s) t c)) k then 1 else 0) = (if open_ s k then 1 else 0)) as Hk.
    { intros k _ Hne. by rewrite (proj2 (wstep_other a owner swap n (who s) t c k Hne)). }
    specialize (Hs Hk). cbn [QDel_Model.on set_who who]. lia.
Qed.
Lemma rest_shorter k v (l : list (nat * change (edge_t a))) : length (rest_of a k v l) <= length l /\ (0 < k -> changes l v <> [] -> length (rest_of a k v l) < length l).
Proof.
  revert k. induction l as [|x l IH]; intros [|k]; cbn [rest_of length]; try (by split; [lia|]); try (split; [lia|lia]). rewrite changes_cons. destruct (fst x =? v); cbn [length].
  - pose proof (proj1 (IH k)). split; [lia|]. intros _ _. lia.
  - destruct (IH (S k)) as [I1 I2]. split; [lia|]. intros H1 H2. specialize (I2 H1 H2). lia.
Qed.
Lemma enact_some s t v del c k : enact a s t v del = Some (c, k) -> 0 < k /\ changes (batch s t) v <> [].
Proof.
  unfold enact. destruct del; destruct (changes (batch s t) v) as [|[e|d] cs]; cbn [add_run del_run]; try done.
  - destruct (gone _ _ _); [|done]. intros [= <- <-]. split; [lia|done].
  - intros [= <- <-]. split; [lia|done].
Qed.
Lemma enacted_less s t v del : t < n -> enacted a owner swap n s t v del = s \/ less (enacted a owner swap n s t v del) s.
Proof.
  intros Ht. unfold enacted. destruct (enact a s t v del) as [[c k]|] eqn:Ee; [|by left]. destruct (_ && _); [|by left]. right. left. apply enact_some in Ee as [H1 H2].
  unfold mA. cbn. pose proof (sum_upd n (batch s) t (rest_of a k v (batch s t)) Ht) as Hs. pose proof (proj2 (rest_shorter k v (batch s t)) H1 H2). lia.
Qed.
Lemma split s x : reach s -> allowed x -> less (qstep s x) s \/ still s x.
Proof.
  intros HR Hx. pose proof (reach_inv s HR) as HQ. destruct x as [| |t x]; cbn [QDel_Model.qstep].
  - unfold still. cbn [QDel_Model.qstep]. unfold remit. destruct (rem s) eqn:Er; [|right; by left..]. destruct (nth_error evs (nxt s)) as [[v y]|] eqn:En; left.
    + left. unfold mA. cbn. pose proof (sum_upd n (tq s) (owner v) (tq s (owner v) ++ [(v, y)]) (Hown v)) as Hs. rewrite app_length in Hs. cbn in Hs. assert (nxt s < length evs) by (apply nth_error_Some; congruence). lia.
    + right. split; [done|]. left. unfold mB. cbn. rewrite Er. lia.
  - unfold still. cbn [QDel_Model.qstep]. unfold log_step. pose proof (q_asking _ _ _ _ _ _ _ _ HQ) as Ha.
    assert (Hb : forall s', nxt s' = nxt s -> tq s' = tq s -> batch s' = batch s -> mB s' < mB s -> less s' s).
    { intros s' E1 E2 E3 H. right. split; [unfold mA; by rewrite E1, E2, E3|by left]. }
    destruct (lg s) as [|i|i| |i] eqn:El.
    + destruct (rem s) eqn:Er; [right; by left| |right; by left]. left. apply Hb; try done. unfold mB. cbn. rewrite Er, El. lia.
    + specialize (Ha I). destruct (Nat.ltb_spec i n); [destruct (nil (cmds s i)); [|right; by left]|]; left; apply Hb; try done; unfold mB; cbn; rewrite Ha, El; lia.
    + specialize (Ha I). destruct (Nat.ltb_spec i n); [destruct (resp s i); [right; by left|]|]; left; apply Hb; try done; unfold mB; cbn; rewrite Ha, El; lia.
    + specialize (Ha I). left; apply Hb; try done; unfold mB; cbn; rewrite Ha, El; lia.
    + specialize (Ha I). destruct (Nat.ltb_spec i n); [destruct (nil (cmds s i)); [|right; by left]|]; left; apply Hb; try done; unfold mB; cbn; rewrite Ha, ?El; lia.
  - assert (HD : forall e k c r, (2 * length (c t) + (if k t : bool then 0 else 1) < 2 * length (cmds s t) + (if acked s t then 0 else 1)) -> t < n -> (forall u, u <> t -> c u = cmds s u /\ k u = acked s u) -> less (set_cmd a s e k c r) s).
    { intros e k c r H Ht Hu. right. split; [done|]. right. split; [done|]. left. unfold mD. cbn.
      pose proof (sumt_change (fun t => 2 * length (c t) + (if k t then 0 else 1)) (fun t => 2 * length (cmds s t) + (if acked s t then 0 else 1)) n t Ht) as Hs.
      specialize (Hs ltac:(intros u _ Hne; cbn; by destruct (Hu u Hne) as [-> ->])). cbn in Hs, H |- *. lia. }
    unfold still. cbn [QDel_Model.qstep]. unfold tstep. destruct (Nat.leb_spec n t) as [|Ht]; [right; by left|]. destruct (acked s t) eqn:Ea.
    + destruct x; try (right; by left). destruct (cmds s t) as [|[] l] eqn:Ec; try (right; by left). left. apply HD; try done; [rewrite !upd_eq; cbn; lia|]. intros u Hne. by rewrite !upd_ne.
    + destruct x as [|c|k r| |].
      * destruct (cmds s t) as [|c l] eqn:Ec; [right; by left|]. destruct (receiving a s t); [|right; by left]. left. apply HD; try done; [rewrite !upd_eq, Ea; cbn; lia|]. intros u Hne. by rewrite !upd_ne.
      * assert (Hen : forall v del, less (enacted a owner swap n s t v del) s \/ enacted a owner swap n s t v del = s \/
          exists t0 c0, Thread t (Loop c) = Thread t0 (Loop c0) /\ t0 < n /\ acked s t0 = false /\ plain a c0 /\ pass s t0 c0 = true /\ enacted a owner swap n s t v del = on s t0 c0 /\
            forall u, u < n -> open_ (on s t0 c0) u = open_ s u).
        { intros v del. destruct (enacted_less s t v del Ht) as [E|E]; [by right; left|by left]. }
        assert (Hpl : plain a c \/ (exists v l, c = Do (AddEdges v l)) \/ exists v l, c = Do (DelEdges v l)).
        { destruct c as [|[]]; try done; try (by left); eauto; left; unfold plain, acts; rewrite !elem_of_cons; auto. }
        destruct Hpl as [Hpl|[(v & l & ->)|(v & l & ->)]].
        -- rewrite (loop_pass s t c Hpl). destruct (pass s t c) eqn:Ep; [|right; by left]. destruct (on_split s t c Ht) as [?|Ho]; [by left|]. right. right. exists t, c. split_and!; try done.
        -- apply Hen.
        -- apply Hen.
      * cbn in Hx. subst r. unfold pull. destruct (may_pull a s t k 0) eqn:E; [|right; by left]. left. left. unfold may_pull in E. rewrite !andb_true_iff in E. destruct E as (((((_ & _) & E3) & _) & _) & E6).
        apply Nat.leb_le in E3. apply negb_true_iff, N.eqb_neq in E6. unfold mA. cbn.
        pose proof (sum_upd n (batch s) t (batch s t ++ firstn k (tq s t)) Ht) as Hs1. pose proof (sum_upd n (tq s) t (skipn k (tq s t)) Ht) as Hs2. rewrite app_length, firstn_length in Hs1. rewrite skipn_length in Hs2. lia.
      * destruct (at_done a s t && epoch s t && (resp s t =? 0)); [|right; by left]. left. apply HD; try done; [rewrite !upd_eq; lia|]. intros u Hne. by rewrite !upd_ne.
      * right. by left.
Qed.

(** The check for termination stays sound. *)
Lemma who_step s x : who (qstep s x) = who s \/ who (qstep s x) = restart a (who s) \/ exists t y c, x = Thread t y /\ who (qstep s x) = wstep (who s) t c.
Proof.
  destruct x as [| |t x]; cbn [QDel_Model.qstep].
  - left. unfold remit. destruct (rem s); try done. by destruct (nth_error evs (nxt s)) as [[]|].
  - unfold log_step. destruct (lg s); try (left; repeat case_match; done). by right; left.
  - unfold tstep. destruct (n <=? t); [by left|]. destruct (acked s t); [left; destruct x; try done; by destruct (cmds s t) as [|[]]|].
    destruct x as [|c|k r| |]; try (left; repeat case_match; done).
    + assert (Hen : forall v del, who (enacted a owner swap n s t v del) = who s \/ exists c', who (enacted a owner swap n s t v del) = wstep (who s) t c').
      { intros v del. unfold enacted. destruct (enact a s t v del) as [[c' k]|]; [|by left]. case_match; [|by left]. right. by eexists. }
      destruct c as [[]|[| |v l|v l|]]; cbn [loop]; cbv zeta; try (by left); try (destruct (Hen v false) as [?|(c' & ?)]; [by left|]; right; right; by eexists t, _, c'); try (destruct (Hen v true) as [?|(c' & ?)]; [by left|]; right; right; by eexists t, _, c'); try (case_match; [|by left]); try (case_match; [by left|]); right; right; eexists t, _, _; done.
    + unfold pull. case_match; [|by left]. right. right. eexists t, _, _. done.
Qed.
Definition snd_ (s : qst) : Prop := Term_Live.sound swap n (trm (who s)).
Definition fine (s : qst) (l : list (actor a)) : Prop := swap = true \/ clears a owner swap n evs ask s l.
Lemma fine_cons s x l : fine s (x :: l) -> (swap = true \/ clear s x) /\ fine (qstep s x) l.
Proof. unfold fine. cbn. naive_solver. Qed.
Lemma fine_app s l l' : fine s (l ++ l') -> fine s l /\ fine (qrun s l) l'.
Proof.
  unfold fine. intros [H|H]; [by split; left|]. revert s H. induction l as [|x l IH]; intros s H; [split; by right|]. cbn in H. destruct H as [H1 H2].
  destruct (IH _ H2) as [[?|H3] H4]; [by split; left|]. split; [by right|done].
Qed.
Lemma sound_step s x : snd_ s -> (swap = true \/ clear s x) -> snd_ (qstep s x).
Proof.
  intros H Hc. unfold snd_ in *. destruct (who_step s x) as [-> |[-> |(t & y & c & -> & ->)]]; [done|apply Term_Live.sound_start|].
  rewrite trm_step. destruct (lwork_one a owner (who s) t c) as [->|(k & ->)]; [done|]. cbn [Term_Model.exec fold_left]. by apply Term_Live.sound_step.
Qed.
Definition Inv (s : qst) : Prop := reach s /\ snd_ s.
Lemma inv_step s x : Inv s -> allowed x -> (swap = true \/ clear s x) -> Inv (qstep s x).
Proof. intros [H1 H2] Hx Hc. split; [by apply reach_step|by apply sound_step]. Qed.
Lemma inv_run l : forall s, Inv s -> (forall x, x ∈ l -> allowed x) -> fine s l -> Inv (qrun s l).
Proof.
  induction l as [|x l IH]; intros s H Hl Hf; [done|]. apply fine_cons in Hf as [Hc Hf]. cbn. apply IH; try done.
  - apply inv_step; try done. apply Hl, elem_of_list_here.
  - intros y Hy. apply Hl. by apply elem_of_list_further.
Qed.
Lemma run_mono l : forall s, reach s -> (forall x, x ∈ l -> allowed x) -> less (qrun s l) s \/ frame s (qrun s l).
Proof.
  induction l as [|x l IH]; intros s H Hl; [right; apply frame_refl|]. cbn. assert (Hx : allowed x) by (apply Hl, elem_of_list_here).
  assert (IH' := IH (qstep s x) (reach_step s x H Hx) ltac:(intros y Hy; apply Hl; by apply elem_of_list_further)). unfold QDel_Model.qrun in IH'.
  destruct (split s x H Hx) as [Hs|Hs%still_frame].
  - left. destruct IH' as [?|?]; [by eapply less_trans|by eapply less_frame].
  - destruct IH' as [?|?]; [left; by eapply frame_less|right; by eapply frame_trans].
Qed.
Lemma done_empty_sound s : snd_ s -> done_empty a n (who s).
Proof.
  intros [_ [(EE & conf & HI & _)|[D Hcalm]]] u Hu Hdn.
  - pose proof (Term_Proofs.i_pc _ _ _ _ _ HI u Hu) as Hp. unfold Term_Proofs.pcok in Hp. by rewrite Hdn in Hp.
  - by apply (Term_Live.m_quiet _ _ _ _ Hcalm).
Qed.

(** Turns. *)
Notation turnr s y := (qrun s (actors y)).
Definition goodt (y : turn a) : Prop := forall x, x ∈ actors y -> allowed x.
Record alike (s s' : qst) : Prop := Alike {
  al_frame : frame s s'; al_trm : trm (who s') = trm (who s); al_eng : eng (who s') = eng (who s); al_did : forall t, did (who s') t = did (who s) t }.
Lemma looking_at s t : looking a s t = at_look (at_ s t).
Proof. unfold looking. by destruct (at_ s t). Qed.
Lemma turn_cases s t x : Inv s -> allowed (Thread t x) -> fine s (actors (TThread t x)) ->
  less (turnr s (TThread t x)) s \/
  exists s1, alike s s1 /\ Inv s1 /\ turnr s (TThread t x) = qstep s1 (Thread t x) /\ (swap = true \/ clear s1 (Thread t x)) /\
    (t < n -> acked s t = false -> cmds s t <> [] -> receiving a s t = false) /\
    (t < n -> acked s t = false -> looking a s t = true -> nil (tq s t) && (epoch s t || finished a s) = false).
Proof.
  intros HI Hx Hf. cbn [actors] in *. apply fine_cons in Hf as [Hc1 Hf]. apply fine_cons in Hf as [Hc2 Hf]. apply fine_cons in Hf as [Hc3 _].
  set (x1 := Thread t Take) in *. set (x2 := Thread t (Loop (Ctl Term_Model.Close))) in *. set (x3 := Thread t x) in *.
  change (turnr s (TThread t x)) with (qstep (qstep (qstep s x1) x2) x3). cbn [QDel_Model.qrun fold_left].
  pose proof (inv_step s x1 HI I Hc1) as HI1. pose proof (inv_step _ x2 HI1 I Hc2) as HI2.
  assert (Hm3 : less (qstep s x1) s -> less (qstep (qstep (qstep s x1) x2) x3) s).
  { intros H. destruct (run_mono [x2; x3] (qstep s x1) (proj1 HI1)) as [?|?]; [|by eapply less_trans|by eapply less_frame]. intros y Hy. rewrite !elem_of_cons, elem_of_nil in Hy. by destruct Hy as [->|[->|[]]]. }
  destruct (split s x1 (proj1 HI) I) as [H1|H1]; [by left; apply Hm3|].
  assert (E1 : qstep s x1 = s) by (destruct H1 as [?|(? & ? & [=] & _)]; done). clear H1. rewrite E1 in *.
  destruct (split s x2 (proj1 HI) I) as [H2|H2].
  { left. destruct (run_mono [x3] (qstep s x2) (proj1 HI2)) as [?|?]; [|by eapply less_trans|by eapply less_frame]. intros y Hy. apply elem_of_list_singleton in Hy. by subst. }
  right. exists (qstep s x2).
  assert (Hcl : t < n -> acked s t = false -> qstep s x2 = if pass s t (Ctl Term_Model.Close) then on s t (Ctl Term_Model.Close) else s).
  { intros Ht Ha. unfold x2. cbn [QDel_Model.qstep]. unfold tstep. rewrite (proj2 (Nat.leb_gt n t) Ht), Ha. by apply loop_pass. }
  assert (Hlk : t < n -> acked s t = false -> looking a s t = true -> nil (tq s t) && (epoch s t || finished a s) = false).
  { intros Ht Ha Hl. destruct (nil (tq s t) && (epoch s t || finished a s)) eqn:E; [exfalso|done]. specialize (Hcl Ht Ha). cbn [pass] in Hcl. rewrite E in Hcl.
    apply still_frame in H2. destruct H2 as [_ H2]. specialize (H2 t Ht). rewrite Hcl in H2. rewrite looking_at in Hl. rewrite (proj1 (reach_placed s t (proj1 HI)) Hl) in H2.
    revert H2. cbn [QDel_Model.on set_who who]. destruct (at_ s t) eqn:Hp; try done. unfold Whole_Model.wstep. rewrite Hp. cbn. unfold Term_Model.step. cbn [fst snd]. rewrite (proj2 (Nat.ltb_lt t n) Ht). unfold Term_Model.go. rewrite Hp. cbn. by Term_Proofs.fs. }
  split_and!; try done.
  - destruct H2 as [-> |(t' & c & [= <- <-] & Ht & Ha & _ & Hp & E & Ho)]; [constructor; [apply frame_refl|done|done|done]|].
    assert (HF : frame s (qstep s x2)) by (rewrite E; split; [by eexists|done]).
    assert (Hnl : at_look (at_ s t) = false). { rewrite <- looking_at. destruct (looking a s t) eqn:El; [|done]. specialize (Hlk Ht Ha eq_refl). cbn [pass] in Hp. congruence. }
    pose proof (w_did _ _ _ (q_w _ _ _ _ _ _ _ _ (reach_inv s (proj1 HI))) t) as Hd.
    constructor; [done|..]; rewrite E; cbn [QDel_Model.on set_who who].
    + rewrite trm_step. unfold lwork. destruct (at_ s t) eqn:Hat; try done; cbn; unfold Term_Model.step; cbn [fst snd]; rewrite (proj2 (Nat.ltb_lt t n) Ht); unfold Term_Model.go; rewrite Hat; done.
    + rewrite eng_step. unfold ework. by destruct (at_ s t).
    + intros u. destruct (decide (u = t)) as [->|Hne]; [|by apply did_other]. unfold Whole_Model.wstep. destruct (at_ s t) eqn:Hat; try done; cbn; rewrite upd_eq; by destruct Hd.
  - intros Ht Ha Hcm. destruct (receiving a s t) eqn:Er; [exfalso|done]. revert E1. unfold x1. cbn [QDel_Model.qstep]. unfold tstep. rewrite (proj2 (Nat.leb_gt n t) Ht), Ha, Er.
    destruct (cmds s t) as [|c l] eqn:Ec; [done|]. intros E. apply (f_equal (fun s => length (cmds s t))) in E. cbn in E. rewrite upd_eq, Ec in E. cbn in E. lia.
Qed.

(** Rounds without end. *)
Notation rounds := (rounds a owner swap n evs ask).
Notation fair := (fair_turns a owner n evs).
Definition fairR (R : nat -> list (turn a)) : Prop := forall k, fair (R k).
Definition fineR (R : nat -> list (turn a)) (s : qst) : Prop := forall k, fine (rounds R s k) (steps_of (R k)).
Definition ev (P : qst -> Prop) (s : qst) : Prop := forall R, fairR R -> fineR R s -> exists k, P (rounds R s k).
Lemma rounds_shift R s j k : rounds R s (j + k) = rounds (fun i => R (j + i)) (rounds R s j) k.
Proof. induction k as [|k IH]; [by rewrite Nat.add_0_r|]. rewrite Nat.add_succ_r. cbn. by rewrite IH. Qed.
Lemma fineR_shift R s j : fineR R s -> fineR (fun i => R (j + i)) (rounds R s j).
Proof. intros H k. rewrite <- rounds_shift. apply H. Qed.
Lemma inv_rounds R s k : Inv s -> fairR R -> fineR R s -> Inv (rounds R s k).
Proof. intros HI HF Hf. induction k as [|k IH]; [done|]. cbn. apply inv_run; [done|apply HF|apply Hf]. Qed.
Lemma ev_now (P : qst -> Prop) s : P s -> ev P s.
Proof. intros H R _ _. by exists 0. Qed.
Lemma ev_then (P Q : qst -> Prop) s : Inv s -> ev P s -> (forall s', Inv s' -> P s' -> ev Q s') -> ev Q s.
Proof.
  intros HI HP HQ R HF Hf. destruct (HP R HF Hf) as (j & Hj). destruct (HQ _ (inv_rounds R s j HI HF Hf) Hj (fun i => R (j + i))) as (k & Hk).
  - intros i. apply HF.
  - by apply fineR_shift.
  - exists (j + k). by rewrite rounds_shift.
Qed.
Lemma ev_mono (P Q : qst -> Prop) s : ev P s -> (forall s', P s' -> Q s') -> ev Q s.
Proof. intros H HPQ R HF Hf. destruct (H R HF Hf) as (k & Hk). exists k. by apply HPQ. Qed.
Lemma steps_cons (y : turn a) l : steps_of (y :: l) = actors y ++ steps_of l.
Proof. done. Qed.

(** Something that helps, in every round. *)
Section progress.
Context (Case : qst -> Prop) (Pot : qst -> nat -> Prop) (help : qst -> turn a -> Prop) (Goal : qst -> Prop).
Hypothesis Hst : forall s m y z, Inv s -> Case s -> Pot s m -> help s z -> goodt y -> fine s (actors y) -> let s' := turnr s y in
  less s' s \/ frame s s' /\ (Goal s' \/ Case s' /\ ((exists m', m' < m /\ Pot s' m') \/ Pot s' m /\ help s' z)).
Hypothesis Hhelp : forall s m z, Inv s -> Case s -> Pot s m -> help s z -> goodt z -> fine s (actors z) -> let s' := turnr s z in
  less s' s \/ frame s s' /\ (Goal s' \/ Case s' /\ exists m', m' < m /\ Pot s' m').
Hypothesis Hex : forall s, Inv s -> Case s -> Goal s \/ exists z, help s z /\ forall l, fair l -> z ∈ l.
Hypothesis Hgoal : forall s y, Inv s -> Goal s -> goodt y -> fine s (actors y) -> less (turnr s y) s \/ frame s (turnr s y) /\ Goal (turnr s y).

Lemma goal_turns l : forall s, Inv s -> Goal s -> (forall x, x ∈ steps_of l -> allowed x) -> fine s (steps_of l) -> less (qrun s (steps_of l)) s \/ frame s (qrun s (steps_of l)) /\ Goal (qrun s (steps_of l)).
Proof.
  induction l as [|y l IH]; intros s HI HG Hl Hf; [right; split; [apply frame_refl|done]|]. rewrite steps_cons in Hl, Hf |- *. rewrite qrun_app. apply fine_app in Hf as [Hf1 Hf2].
  assert (Hy : goodt y) by (intros x Hx; apply Hl, elem_of_app; by left). assert (Hl' : forall x, x ∈ steps_of l -> allowed x) by (intros x Hx; apply Hl, elem_of_app; by right).
  assert (HI' : Inv (turnr s y)) by (by apply inv_run).
  destruct (Hgoal s y HI HG Hy Hf1) as [H|[H1 H2]].
  - left. destruct (run_mono (steps_of l) (turnr s y) (proj1 HI') Hl'); [by eapply less_trans|by eapply less_frame].
  - destruct (IH _ HI' H2 Hl' Hf2) as [H|[H3 H4]]; [left; by eapply frame_less|right; split; [by eapply frame_trans|done]].
Qed.
Definition low (s : qst) (m : nat) (s' : qst) : Prop := less s' s \/ frame s s' /\ (Goal s' \/ Case s' /\ exists m', m' < m /\ Pot s' m').
Lemma prog_turns l : forall s m z, Inv s -> Case s -> Pot s m -> help s z -> (forall x, x ∈ steps_of l -> allowed x) -> fine s (steps_of l) -> let s' := qrun s (steps_of l) in
  (low s m s' \/ frame s s' /\ Case s' /\ Pot s' m /\ help s' z) /\ (z ∈ l -> low s m s').
Proof.
  induction l as [|y l IH]; intros s m z HI HC HP Hz Hl Hf.
  { split; [|intros H; by apply elem_of_nil in H]. right. split_and!; try done. apply frame_refl. }
  cbv zeta. rewrite steps_cons in Hl, Hf |- *. rewrite qrun_app. apply fine_app in Hf as [Hf1 Hf2].
  assert (Hy : goodt y) by (intros x Hx; apply Hl, elem_of_app; by left). assert (Hl' : forall x, x ∈ steps_of l -> allowed x) by (intros x Hx; apply Hl, elem_of_app; by right).
  assert (HI' : Inv (turnr s y)) by (by apply inv_run). pose proof (Hst s m y z HI HC HP Hz Hy Hf1) as Hs1. pose proof (fun E : z = y => Hhelp s m z HI HC HP Hz) as Hh. set (s1 := turnr s y) in *. cbv zeta in Hs1.
  assert (Hless : less s1 s -> low s m (qrun s1 (steps_of l))).
  { intros H. left. destruct (run_mono (steps_of l) s1 (proj1 HI') Hl'); [by eapply less_trans|by eapply less_frame]. }
  assert (Hgl : frame s s1 -> Goal s1 -> low s m (qrun s1 (steps_of l))).
  { intros H1 H2. destruct (goal_turns l s1 HI' H2 Hl' Hf2) as [H|[H3 H4]]; [left; by eapply frame_less|right; split; [by eapply frame_trans|by left]]. }
  assert (Hlow : frame s s1 -> Case s1 -> (exists m', m' < m /\ Pot s1 m') -> low s m (qrun s1 (steps_of l))).
  { intros H1 H2 (m' & Hm & HP'). destruct (Hex s1 HI' H2) as [HG|(z' & Hz' & _)]; [by apply Hgl|].
    destruct (IH s1 m' z' HI' H2 HP' Hz' Hl' Hf2) as [[[H|[H3 H4]]|(H3 & H4 & H5 & _)] _]; [left; by eapply frame_less| |]; right; (split; [by eapply frame_trans|]).
    - destruct H4 as [?|[H4 (m'' & ? & ?)]]; [by left|right; split; [done|]]. exists m''. split; [lia|done].
    - right. split; [done|]. by exists m'. }
  assert (Hall : less s1 s \/ frame s s1 /\ (Goal s1 \/ Case s1 /\ exists m', m' < m /\ Pot s1 m') -> low s m (qrun s1 (steps_of l))).
  { intros [?|[? [?|[? ?]]]]; auto. }
  split.
  - destruct Hs1 as [?|[H1 [?|[H2 [?|[H3 H4]]]]]]; try (left; by auto).
    destruct (IH s1 m z HI' H2 H3 H4 Hl' Hf2) as [[[H|[H5 H6]]|(H5 & H6)] _]; [left; left; by eapply frame_less|left; right; split; [by eapply frame_trans|done]|right; split; [by eapply frame_trans|done]].
  - rewrite elem_of_cons. intros [E|Hin]; [subst z; apply Hall; by apply Hh|].
    destruct Hs1 as [?|[H1 [?|[H2 [?|[H3 H4]]]]]]; auto.
    destruct (IH s1 m z HI' H2 H3 H4 Hl' Hf2) as [_ H]. destruct (H Hin) as [H'|[H5 H6]]; [left; by eapply frame_less|right; split; [by eapply frame_trans|done]].
Qed.
Lemma progress_goal m : forall s, Inv s -> Case s -> Pot s m -> ev (fun s' => less s' s \/ frame s s' /\ Goal s') s.
Proof.
  induction m as [m IH] using (well_founded_induction lt_wf). intros s HI HC HP. destruct (Hex s HI HC) as [HG|(z & Hz & Hin)].
  { apply ev_now. right. split; [apply frame_refl|done]. }
  intros R HF Hf. destruct (prog_turns (R 0) s m z HI HC HP Hz (proj1 (HF 0)) (Hf 0)) as [_ H]. specialize (H (Hin _ (HF 0))).
  assert (HI1 : Inv (rounds R s 1)) by (by apply inv_rounds).
  destruct H as [H|[H1 [H2|[H2 (m' & Hm & HP')]]]]; [exists 1; by left|exists 1; right; by split|].
  destruct (IH m' Hm (rounds R s 1) HI1 H2 HP' (fun i => R (1 + i))) as (k & Hk); [intros i; apply HF|by apply fineR_shift|].
  exists (1 + k). rewrite rounds_shift. destruct Hk as [Hk|[Hk1 Hk2]]; [left; by eapply frame_less|right; split; [by eapply frame_trans|done]].
Qed.
End progress.

Lemma keep_run (P : qst -> Prop) : (forall s x, Inv s -> P s -> allowed x -> still s x -> P (qstep s x)) ->
  forall l s, Inv s -> P s -> (forall x, x ∈ l -> allowed x) -> fine s l -> less (qrun s l) s \/ frame s (qrun s l) /\ P (qrun s l).
Proof.
  intros HP l. induction l as [|x l IH]; intros s HI H Hl Hf; [right; split; [apply frame_refl|done]|]. apply fine_cons in Hf as [Hc Hf]. cbn.
  assert (Hx : allowed x) by (apply Hl, elem_of_list_here). assert (Hl' : forall y, y ∈ l -> allowed y) by (intros y Hy; apply Hl; by apply elem_of_list_further).
  assert (HI' : Inv (qstep s x)) by (by apply inv_step). destruct (split s x (proj1 HI) Hx) as [Hs|Hs].
  - left. destruct (run_mono l (qstep s x) (proj1 HI') Hl'); [by eapply less_trans|by eapply less_frame].
  - pose proof (still_frame _ _ Hs) as HF. destruct (IH (qstep s x) HI' (HP s x HI H Hx Hs) Hl' Hf) as [?|[? ?]]; [left; by eapply frame_less|right; split; [by eapply frame_trans|done]].
Qed.

(** One turn is enough. *)
Lemma immediate (Case : qst -> Prop) z :
  (forall s x, Inv s -> Case s -> allowed x -> still s x -> Case (qstep s x)) ->
  (forall s, Inv s -> Case s -> goodt z -> fine s (actors z) -> less (turnr s z) s) -> (forall l, fair l -> z ∈ l) ->
  forall s, Inv s -> Case s -> ev (fun s' => less s' s) s.
Proof.
  intros H1 H2 Hin s HI HC. apply (ev_mono (fun s' => less s' s \/ frame s s' /\ False)); [|naive_solver].
  refine (progress_goal Case (fun _ _ => True) (fun _ y => y = z) (fun _ => False) _ _ _ _ 0 s HI HC I); try done.
  - intros s1 m y z' HI1 HC1 _ -> Hy Hf. destruct (keep_run Case H1 (actors y) s1 HI1 HC1 Hy Hf) as [?|[? ?]]; [by left|]. right. split; [done|]. right. split; [done|]. by right.
  - intros s1 m z' HI1 HC1 _ -> Hy Hf. left. by apply H2.
  - intros s1 _ _. right. by exists z.
Qed.
Lemma still_same s x : still s x -> rem (qstep s x) = rem s /\ lg (qstep s x) = lg s /\ tq (qstep s x) = tq s /\ batch (qstep s x) = batch s /\ epoch (qstep s x) = epoch s /\
  acked (qstep s x) = acked s /\ cmds (qstep s x) = cmds s /\ resp (qstep s x) = resp s /\ nxt (qstep s x) = nxt s.
Proof. intros ((w & ->) & _)%still_frame. by split_and!. Qed.

Lemma ev_stream s : Inv s -> rem s = Streaming -> ev (fun s' => less s' s) s.
Proof.
  intros HI Hr. apply (immediate (fun s => rem s = Streaming) TRemit); try done.
  - intros s1 x _ E _ Hs. apply still_same in Hs as (-> & _). done.
  - intros s1 HI1 E _ _. cbn. destruct (split s1 Remitter (proj1 HI1) I) as [?|Hs]; [done|exfalso]. destruct Hs as [Hs|(? & ? & [=] & _)]. revert Hs. cbn. unfold remit. rewrite E.
    destruct (nth_error evs (nxt s1)) as [[v y]|]; intros Hs; [apply (f_equal nxt) in Hs; cbn in Hs; lia|apply (f_equal rem) in Hs; cbn in Hs; congruence].
  - by intros l (_ & ? & _).
Qed.
Definition ready (s : qst) : bool :=
  match lg s with
  | LWait | LView => true
  | LCast i | LResume i => negb (i <? n) || nil (cmds s i)
  | LAwait i => negb (i <? n) || negb (resp s i =? 0)
  end.
Lemma ev_logger s : Inv s -> rem s = Asked -> ready s = true -> ev (fun s' => less s' s) s.
Proof.
  intros HI Hr Hd. apply (immediate (fun s => rem s = Asked /\ ready s = true) TLog); try done.
  - intros s1 x _ [E1 E2] _ Hs. unfold ready. apply still_same in Hs as (-> & -> & _ & _ & _ & _ & -> & -> & _). done.
  - intros s1 HI1 [E1 E2] _ _. cbn. destruct (split s1 Logger (proj1 HI1) I) as [?|Hs]; [done|exfalso]. destruct Hs as [Hs|(? & ? & [=] & _)]. revert Hs. cbn. unfold log_step.
    unfold ready in E2. destruct (lg s1) as [|i|i| |i] eqn:El; intros Hs.
    + rewrite E1 in Hs. apply (f_equal lg) in Hs. cbn in Hs. congruence.
    + destruct (i <? n); [cbn in E2; rewrite E2 in Hs|]; apply (f_equal lg) in Hs; cbn in Hs; rewrite El in Hs; try done. injection Hs. lia.
    + destruct (i <? n); [cbn in E2; destruct (resp s1 i); [done|]|]; apply (f_equal lg) in Hs; cbn in Hs; rewrite El in Hs; try done. injection Hs. lia.
    + apply (f_equal lg) in Hs; cbn in Hs; congruence.
    + destruct (i <? n); [cbn in E2; rewrite E2 in Hs|]; apply (f_equal lg) in Hs; cbn in Hs; rewrite El in Hs; try done. injection Hs. lia.
  - by intros l (_ & _ & ? & _).
Qed.
Lemma ev_awake s t : Inv s -> t < n -> acked s t = true -> cmds s t = [Resume] -> ev (fun s' => less s' s) s.
Proof.
  intros HI Ht Ha Hc. apply (immediate (fun s => acked s t = true /\ cmds s t = [Resume]) (TThread t Awake)); try done.
  - intros s1 x _ [E1 E2] _ Hs. apply still_same in Hs as (_ & _ & _ & _ & _ & -> & -> & _). done.
  - intros s1 HI1 [E1 E2] _ Hf. destruct (turn_cases s1 t Awake HI1 I Hf) as [?|(s2 & Ha2 & HI2 & -> & _)]; [done|]. destruct (al_frame _ _ Ha2) as [(w & Ew) _].
    assert (E1' : acked s2 t = true) by (by rewrite Ew). assert (E2' : cmds s2 t = [Resume]) by (by rewrite Ew).
    apply (frame_less s1 s2); [by apply Ha2|]. destruct (split s2 (Thread t Awake) (proj1 HI2) I) as [?|Hs]; [done|exfalso]. destruct Hs as [Hs|(? & ? & [=] & _)].
    revert Hs. cbn [QDel_Model.qstep]. unfold tstep. rewrite (proj2 (Nat.leb_gt n t) Ht), E1', E2'. intros Hs. apply (f_equal (fun s => acked s t)) in Hs. cbn in Hs. rewrite upd_eq in Hs. congruence.
  - intros l (_ & _ & _ & H & _). apply H; [done|]. unfold duties. rewrite !elem_of_cons. naive_solver.
Qed.
Lemma done_keeps s x t : still s x -> at_ s t = Term_Model.Done -> at_ (qstep s x) t = Term_Model.Done.
Proof.
  intros [-> |(u & c & -> & Hu & _ & _ & _ & -> & _)] Hd; [done|]. cbn [QDel_Model.on set_who who]. destruct (decide (t = u)) as [->|Hne]; [|by rewrite (proj1 (wstep_other a owner swap n (who s) u c t Hne))].
  rewrite trm_step. unfold lwork. rewrite Hd. destruct c as [c|c]; [|done]. cbn. unfold Term_Model.step. cbn [fst snd]. destruct (u <? n); [|done]. unfold Term_Model.go. by rewrite Hd.
Qed.
Lemma ev_answer s t : Inv s -> t < n -> acked s t = false -> epoch s t = true -> resp s t = 0 -> at_ s t = Term_Model.Done -> ev (fun s' => less s' s) s.
Proof.
  intros HI Ht Ha He Hr Hd. apply (immediate (fun s => acked s t = false /\ epoch s t = true /\ resp s t = 0 /\ at_ s t = Term_Model.Done) (TThread t Answer)); try done.
  - intros s1 x _ (E1 & E2 & E3 & E4) _ Hs. split_and!; [..|by apply done_keeps]; apply still_same in Hs as (_ & _ & _ & _ & E5 & E6 & _ & E7 & _); congruence.
  - intros s1 HI1 (E1 & E2 & E3 & E4) _ Hf. destruct (turn_cases s1 t Answer HI1 I Hf) as [?|(s2 & Ha2 & HI2 & -> & _)]; [done|]. destruct (al_frame _ _ Ha2) as [(w & Ew) _].
    assert (E1' : acked s2 t = false) by (by rewrite Ew). assert (E2' : epoch s2 t = true) by (by rewrite Ew). assert (E3' : resp s2 t = 0) by (by rewrite Ew). assert (E4' : at_done a s2 t = true) by (unfold at_done; rewrite (al_trm _ _ Ha2); by rewrite E4).
    apply (frame_less s1 s2); [by apply Ha2|]. destruct (split s2 (Thread t Answer) (proj1 HI2) I) as [?|Hs]; [done|exfalso]. destruct Hs as [Hs|(? & ? & [=] & _)].
    revert Hs. cbn [QDel_Model.qstep]. unfold tstep. rewrite (proj2 (Nat.leb_gt n t) Ht), E1', E2', E3', E4'. cbn. intros Hs. apply (f_equal (fun s => acked s t)) in Hs. cbn in Hs. rewrite upd_eq in Hs. congruence.
  - intros l (_ & _ & _ & H & _). apply H; [done|]. unfold duties. rewrite !elem_of_cons. naive_solver.
Qed.

(** A step of a thread: of the engine, nothing, or of the loop. *)
Lemma wstep_kind (w : wst a) u c : winv a n w -> u < n -> plain a c -> let w' := wstep w u c in
  (exists k, c = Do k /\ k ∈ acts a /\ can a (eng w) u k = true /\ eng w' = estep a owner (eng w) u k /\
     (forall v, Term_Model.queue (trm w') v <= Term_Model.queue (trm w) v + 1)%N /\
     exists got sent own sent', Term_Model.at_ (trm w) u = Term_Model.Work got sent own /\ Term_Model.at_ (trm w') u = Term_Model.Work got sent' own) \/
  (w' = w /\ ework a w u c = [] /\ lwork a owner w u c = []) \/
  (exists k, c = Ctl k /\ w' = loop_on a swap n w u k /\
     (working (Term_Model.at_ (trm w) u) -> todo (eng w) u = [] /\ is_send k = false /\ (k = Term_Model.Finish \/ k = Term_Model.FinishCheck \/ did w u = 0%N))).
Proof.
  intros HW Hu Hc. cbv zeta. destruct (working_dec (Term_Model.at_ (trm w) u)) as [Hw|Hw].
  2: { destruct c as [k|k].
    - right. right. exists k. split_and!; try done. unfold Whole_Model.wstep. by destruct (Term_Model.at_ (trm w) u).
    - right. left. unfold Whole_Model.wstep, ework, lwork. by destruct (Term_Model.at_ (trm w) u). }
  destruct (Term_Model.at_ (trm w) u) as [got|got|got snt own| |i acc|acc|i acc| |acc|i acc|acc|acc|i|i| |i|] eqn:Hp; try done.
  pose proof (w_queue _ _ _ HW u) as Q. rewrite Hp in Q. cbn [pulled] in Q.
  unfold Whole_Model.wstep, ework, lwork. rewrite Hp. destruct c as [k|k].
  - destruct k; destruct (todo (eng w) u) eqn:Et; try (right; left; done).
    + destruct (did w u =? got)%N eqn:E; [|right; left; done]. right. right. eexists. split_and!; try done. intros _. split_and!; auto.
    + destruct (did w u =? got)%N eqn:E; [|right; left; done]. right. right. eexists. split_and!; try done. intros _. split_and!; auto.
    + destruct (did w u =? 0)%N eqn:E; [|right; left; done]. apply N.eqb_eq in E. right. right. eexists. split_and!; try done. intros _. split_and!; auto.
  - unfold plain, acts in Hc. rewrite !elem_of_cons, elem_of_nil in Hc. destruct Hc as [->|[->|[]]].
    + destruct (todo (eng w) u) as [|o l] eqn:Et; [right; left; done|]. left. exists Run. assert (Hcan : can a (eng w) u Run = true) by (unfold can; by rewrite Et).
      split_and!; try done; [unfold acts; apply elem_of_list_here| | |].
      * by destruct o.
      * intros v. destruct o; cbn; try lia. unfold Term_Model.step. cbn [fst snd]. rewrite (proj2 (Nat.ltb_lt u n) Hu). unfold Term_Model.go. rewrite Hp.
        rewrite (proj2 (Nat.ltb_lt (owner d) n) (Hown d)). cbn. unfold Term_Model.fset. destruct (Nat.eqb_spec v (owner d)) as [->|]; lia.
      * destruct o; try (exists got, snt, own, snt; split; [done|cbn; by rewrite Hp]). exists got, snt, own, (snt + 1)%N. split; [done|]. cbn. unfold Term_Model.step. cbn [fst snd].
        rewrite (proj2 (Nat.ltb_lt u n) Hu). unfold Term_Model.go. rewrite Hp. rewrite (proj2 (Nat.ltb_lt (owner d) n) (Hown d)). cbn. by Term_Proofs.fs.
    + destruct (todo (eng w) u) as [|o l] eqn:Et; [|right; left; by destruct o]. destruct (did w u <? got)%N eqn:E; [|right; left; done]. apply N.ltb_lt in E. left. exists Pop.
      split_and!; try done; [unfold acts; apply elem_of_list_further, elem_of_list_here| | |].
      * unfold can. rewrite Et. destruct (queue (eng w) u); [cbn in Q; lia|done].
      * intros v. cbn. lia.
      * exists got, snt, own, snt. split; [done|]. cbn. by rewrite Hp.
Qed.

(** A thread that is open comes to the start of an iteration, and to look for events. *)
Section open.
Context (called : bool) (t : nat).
Definition rk (p : Term_Model.pc) (q : nat) : nat :=
  if called then match p with Term_Model.Work _ _ _ => 1 | Term_Model.Look _ => 2 | _ => 0 end
  else match p with Term_Model.Look _ => 2 * q | Term_Model.Recv _ => 2 * q + 1 | Term_Model.Work _ _ _ => 2 * q + 2 | _ => 0 end.
Lemma rk_step k c : t < n -> at_check (Term_Model.at_ k t) = false -> Term_Model.open_ k t = true ->
  Term_Model.open_ (Term_Model.step swap n k (t, c)) t = true -> (working (Term_Model.at_ k t) -> is_send c = false) -> (forall x, c <> Term_Model.Own x) ->
  (if called then (forall g, Term_Model.at_ k t <> Term_Model.Recv g) else at_look (Term_Model.at_ k t) = true -> c <> Term_Model.Go) ->
  let k' := Term_Model.step swap n k (t, c) in
  rk (Term_Model.at_ k' t) (N.to_nat (Term_Model.queue k' t)) < rk (Term_Model.at_ k t) (N.to_nat (Term_Model.queue k t)) \/
  (Term_Model.at_ k' t = Term_Model.at_ k t /\ Term_Model.queue k' t = Term_Model.queue k t).
Proof.
  intros Ht Hck Ho Ho' Hs Hown' Hk. cbv zeta. revert Ho'. unfold Term_Model.step. cbn [fst snd]. rewrite (proj2 (Nat.ltb_lt t n) Ht). unfold Term_Model.go, Term_Model.received. rewrite Ho. unfold rk.
  destruct (Term_Model.at_ k t) as [got|got|got sent own| |i acc|acc|i acc| |acc|i acc|acc|acc|i|i| |i|] eqn:Hp; try discriminate Hck; destruct c; try (intros _; right; by rewrite ?Hp);
    cbn in Hk; try discriminate (Hs I); try (by destruct (Hown' k0)); cbv zeta; repeat Term_Live.ifs; cbn; Term_Proofs.fs; rewrite ?Hp; intros Ho'; try discriminate; try (by right); left; try lia; destruct called; try (by destruct (Hk got)); try lia; try (by destruct (Hk eq_refl)).
Qed.
End open.

Section opens.
Context (called : bool) (t : nat).
Definition CaseO (s : qst) : Prop := t < n /\ acked s t = false /\ open_ s t = true /\ (if called then cmds s t <> [] /\ epoch s t = false else epoch s t || finished a s = true).
Definition PotO (s : qst) (m : nat) : Prop := exists b, budget a owner (eng (who s)) b /\ m = 3 * b + rk called (at_ s t) (N.to_nat (Term_Model.queue (trm (who s)) t)).
Definition progO (s : qst) : tchoice a :=
  match at_ s t with
  | Term_Model.Work got _ _ =>
      match todo (eng (who s)) t, batch s t with
      | _ :: _, _ => Loop (Do Run)
      | [], (v, Plus _) :: _ => Loop (Do (AddEdges v []))
      | [], (v, Minus _) :: _ => Loop (Do (DelEdges v []))
      | [], [] => if (did (who s) t <? got)%N then Loop (Do Pop) else Loop (Ctl Term_Model.Finish)
      end
  | Term_Model.Look _ => if nil (tq s t) then Loop (Ctl Term_Model.Go) else Pull 1 0
  | _ => Loop (Ctl Term_Model.Go)
  end.
Definition due (s : qst) : Prop := if called then receiving a s t = false else at_look (at_ s t) = true -> nil (tq s t) = false.
Lemma case_frame s s' : frame s s' -> CaseO s -> CaseO s'.
Proof. intros ((w & ->) & Ho) (H1 & H2 & H3 & H4). split_and!; try done. by rewrite Ho. Qed.
Lemma onO s u c m : Inv s -> CaseO s -> PotO s m -> u < n -> plain a c -> pass s u c = true -> open_ (on s u c) t = true -> (u = t -> due s) ->
  (exists m', m' < m /\ PotO (on s u c) m') \/ (PotO (on s u c) m /\ progO (on s u c) = progO s /\ (u = t -> Loop c <> progO s)).
Proof.
  intros [HR _] (Ht & Ha & Ho & HC) (b & HB & ->) Hu Hc Hpass Ho' Hdue. pose proof (q_w _ _ _ _ _ _ _ _ (reach_inv s HR)) as HW. unfold QDel_Model.on in *. cbn [set_who who] in *.
  destruct (wstep_kind (who s) u c HW Hu Hc) as [(k & -> & Hk & Hcan & Ee & Hq & got & snt & own & snt' & Ew & Ew')|[(E & E1 & E2)|(k & -> & E & Hwk)]].
  - left. destruct (budget_spend a owner n Hown _ _ u k HB Hk Hcan) as (b' & -> & HB'). eexists. split; [|exists b'; split; [cbn [set_who who]; rewrite Ee; done|reflexivity]]. cbn [set_who who].
    specialize (Hq t). assert (Hrk : forall p q q', q' <= q + 1 -> rk called p q' <= rk called p q + 2) by (intros p q q' Hq'; unfold rk; destruct called, p; lia).
    destruct (decide (t = u)) as [->|Hne].
    + rewrite Ew', Ew. unfold rk. destruct called; lia.
    + rewrite (proj1 (wstep_other a owner swap n (who s) u (Do k) t Hne)). specialize (Hrk (at_ s t) (N.to_nat (Term_Model.queue (trm (who s)) t)) (N.to_nat (Term_Model.queue (trm (wstep (who s) u (Do k))) t))). lia.
  - right. rewrite E in *. assert (Es : set_who a s (who s) = s) by (by destruct s). rewrite Es. split_and!; [by exists b|done|]. intros -> Ep. unfold progO in Ep. unfold ework, lwork in E1, E2.
    pose proof (w_batch _ _ _ HW t) as Hb. destruct (at_ s t) as [got|got|got snt own| |i acc|acc|i acc| |acc|i acc|acc|acc|i|i| |i|] eqn:Hp; try (injection Ep as ->; done).
    + destruct (nil (tq s t)); [injection Ep as ->; done|done].
    + destruct (todo (eng (who s)) t) eqn:Et; [|injection Ep as ->; done]. destruct (batch s t) as [|[v [?|?]] ?].
      * cbn [pulled] in Hb. destruct (did (who s) t <? got)%N eqn:Hl; injection Ep as ->; [done|]. apply N.ltb_ge in Hl.
        rewrite (proj2 (N.eqb_eq (did (who s) t) got)) in E2 by lia. done.
      * injection Ep as ->. unfold plain, acts in Hc. rewrite !elem_of_cons, elem_of_nil in Hc. destruct Hc as [Hc|[Hc|[]]]; discriminate.
      * injection Ep as ->. unfold plain, acts in Hc. rewrite !elem_of_cons, elem_of_nil in Hc. destruct Hc as [Hc|[Hc|[]]]; discriminate.
  - rewrite E in *. cbn [loop_on trm] in Ho'.
    assert (Hsame : forall u', at_ (set_who a s (loop_on a swap n (who s) u k)) t = at_ s t -> Term_Model.queue (trm (loop_on a swap n (who s) u k)) t = Term_Model.queue (trm (who s)) t ->
      did (loop_on a swap n (who s) u k) t = did (who s) t -> (u = t -> Loop u' <> progO s) ->
      PotO (set_who a s (loop_on a swap n (who s) u k)) (3 * b + rk called (at_ s t) (N.to_nat (Term_Model.queue (trm (who s)) t))) /\ progO (set_who a s (loop_on a swap n (who s) u k)) = progO s /\ (u = t -> Loop u' <> progO s)).
    { intros u' A1 A2 A3 A4. split_and!; try done.
      - exists b. split; [done|]. cbn [set_who who] in *. by rewrite A1, A2.
      - unfold progO. rewrite A1. cbn [set_who who] in *. rewrite A3. done. }
    destruct (decide (u = t)) as [->|Hne].
    + assert (Hck : at_check (at_ s t) = false). { destruct (at_check (at_ s t)) eqn:Ec; [|done]. apply (proj2 (reach_placed s t HR)) in Ec. congruence. }
      specialize (Hdue eq_refl).
      destruct (rk_step called t (trm (who s)) k) as [Hlt|[A1 A2]]; try done.
      * intros Hw. by apply Hwk.
      * intros x ->. done.
      * unfold due in Hdue. destruct called.
        -- intros g Hg. unfold receiving in Hdue. by rewrite Hg in Hdue.
        -- intros Hl ->. cbn [pass] in Hpass. rewrite looking_at, Hl, (Hdue Hl) in Hpass. done.
      * left. eexists. split; [|exists b; split; [done|reflexivity]]. cbn [set_who who loop_on trm eng]. lia.
      * right. apply Hsame; try done.
        -- cbn. rewrite upd_eq. destruct (w_did _ _ _ HW t) as [->|Hw]; [done|]. destruct (Hwk Hw) as (_ & _ & [->|[->|Hz]]); [exfalso|exfalso|done];
           unfold Term_Model.step in A1; cbn [fst snd] in A1; rewrite (proj2 (Nat.ltb_lt t n) Ht) in A1; unfold Term_Model.go in A1; destruct (at_ s t) eqn:Hp; try done; cbn in A1; Term_Proofs.fs; congruence.
        -- intros _ Ep. unfold progO in Ep. unfold Term_Model.step in A1, A2. cbn [fst snd] in A1, A2. rewrite (proj2 (Nat.ltb_lt t n) Ht) in A1, A2. unfold Term_Model.go, Term_Model.received in A1, A2. rewrite Ho in A1, A2.
           unfold due in Hdue. destruct (at_ s t) as [got|got|got snt own| |i acc|acc|i acc| |acc|i acc|acc|acc|i|i| |i|] eqn:Hp; try discriminate Hck.
           ++ injection Ep as ->. revert A1 A2. repeat Term_Live.ifs; cbn; Term_Proofs.fs; try done; try lia; intros; try congruence; lia.
           ++ destruct (nil (tq s t)) eqn:En; [|done]. injection Ep as ->. destruct called; [|discriminate (Hdue eq_refl)]. revert A1 A2. repeat Term_Live.ifs; cbn; Term_Proofs.fs; try done; intros; congruence.
           ++ destruct (todo (eng (who s)) t); [|done]. destruct (batch s t) as [|[v [?|?]] ?]; [|done|done]. destruct (did (who s) t <? got)%N; [done|]. injection Ep as ->. revert A1 A2. cbv zeta. repeat Term_Live.ifs; cbn; Term_Proofs.fs; try done; intros; congruence.
    + right. apply Hsame; cbn.
      * apply loop_other. congruence.
      * apply queue_other; [congruence|]. intros Hw. by apply Hwk.
      * apply upd_ne. congruence.
      * done.
Qed.
Lemma alike_pot s s' m : alike s s' -> PotO s m -> PotO s' m.
Proof. intros H (b & HB & ->). exists b. rewrite (al_eng _ _ H), (al_trm _ _ H). done. Qed.
Lemma alike_prog s s' : alike s s' -> progO s' = progO s.
Proof. intros H. unfold progO. rewrite (al_eng _ _ H), (al_trm _ _ H), (al_did _ _ H). destruct (al_frame _ _ H) as [(w & ->) _]. done. Qed.
Lemma turn_due s s1 : CaseO s -> alike s s1 ->
  (t < n -> acked s t = false -> cmds s t <> [] -> receiving a s t = false) ->
  (t < n -> acked s t = false -> looking a s t = true -> nil (tq s t) && (epoch s t || finished a s) = false) -> due s1.
Proof.
  intros (Ht & Ha & Ho & HC) H H1 H2. unfold due, receiving. rewrite (al_trm _ _ H). destruct (al_frame _ _ H) as [(w & ->) _]. cbn [set_who tq]. destruct called.
  - apply H1; try done. by apply HC.
  - intros Hl. rewrite looking_at in H2. specialize (H2 Ht Ha Hl). rewrite HC, andb_true_r in H2. done.
Qed.
Lemma stepO s m y : Inv s -> CaseO s -> PotO s m -> goodt y -> fine s (actors y) -> let s' := turnr s y in
  less s' s \/ frame s s' /\ CaseO s' /\ ((exists m', m' < m /\ PotO s' m') \/ PotO s' m /\ progO s' = progO s).
Proof.
  intros HI HC HP Hy Hf. cbv zeta. destruct y as [| |u x].
  - cbn. destruct (split s Remitter (proj1 HI) I) as [?|[Hs|(? & ? & [=] & _)]]; [by left|right]. cbn in Hs. rewrite Hs. split_and!; [apply frame_refl|done|by right].
  - cbn. destruct (split s Logger (proj1 HI) I) as [?|[Hs|(? & ? & [=] & _)]]; [by left|right]. cbn in Hs. rewrite Hs. split_and!; [apply frame_refl|done|by right].
  - assert (Hx : allowed (Thread u x)) by (apply Hy; cbn; rewrite !elem_of_cons; auto).
    destruct (turn_cases s u x HI Hx Hf) as [?|(s1 & Hal & HI1 & -> & _ & T1 & T2)]; [by left|].
    pose proof (al_frame _ _ Hal) as HF. pose proof (case_frame _ _ HF HC) as HC1. pose proof (alike_pot _ _ _ Hal HP) as HP1. rewrite <- (alike_prog _ _ Hal).
    destruct (split s1 (Thread u x) (proj1 HI1) Hx) as [?|Hst]; [left; by eapply frame_less|right]. pose proof (still_frame _ _ Hst) as HF2.
    split_and!; [by eapply frame_trans|by eapply case_frame|]. destruct Hst as [->|(u' & c & [= <- ->] & Hu & Hak & Hc & Hpass & -> & Hop)]; [by right|].
    destruct (onO s1 u c m HI1 HC1 HP1 Hu Hc Hpass) as [?|(? & ? & _)]; try (by left); [| |by right].
    + rewrite Hop; [apply HC1|apply HC].
    + intros ->. by apply (turn_due s).
Qed.
Lemma helpO s m : Inv s -> CaseO s -> PotO s m -> goodt (TThread t (progO s)) -> fine s (actors (TThread t (progO s))) -> let s' := turnr s (TThread t (progO s)) in
  less s' s \/ frame s s' /\ CaseO s' /\ exists m', m' < m /\ PotO s' m'.
Proof.
  intros HI HC HP Hy Hf. cbv zeta.
  assert (Hx : allowed (Thread t (progO s))) by (apply Hy; cbn; rewrite !elem_of_cons; auto).
  destruct (turn_cases s t (progO s) HI Hx Hf) as [?|(s1 & Hal & HI1 & -> & _ & T1 & T2)]; [by left|].
  pose proof (al_frame _ _ Hal) as HF. pose proof (case_frame _ _ HF HC) as HC1. pose proof (alike_pot _ _ _ Hal HP) as HP1. rewrite <- (alike_prog _ _ Hal) in Hx |- *. clear HP Hf Hy.
  pose proof (turn_due s s1 HC Hal (T1 : _) (T2 : _)) as Hdue.
  destruct (split s1 (Thread t (progO s1)) (proj1 HI1) Hx) as [?|Hst]; [left; by eapply frame_less|]. pose proof (still_frame _ _ Hst) as HF2.
  destruct HC1 as (Ht & Ha & Ho & HCc). 
  assert (Hplain : forall c, progO s1 = Loop c -> plain a c -> pass s1 t c = true -> less (qstep s1 (Thread t (progO s1))) s \/
    frame s (qstep s1 (Thread t (progO s1))) /\ CaseO (qstep s1 (Thread t (progO s1))) /\ exists m', m' < m /\ PotO (qstep s1 (Thread t (progO s1))) m').
  { intros c Ep Hc Hpass. right. split_and!; [by eapply frame_trans|eapply case_frame; [done|by split_and!]|].
    assert (E : qstep s1 (Thread t (progO s1)) = on s1 t c).
    { cbn [QDel_Model.qstep]. unfold tstep. rewrite (proj2 (Nat.leb_gt n t) Ht), Ha, Ep. rewrite loop_pass by done. by rewrite Hpass. }
    destruct (onO s1 t c m HI1 ltac:(by split_and!) HP1 Ht Hc Hpass) as [?|(_ & _ & X)].
    - rewrite <- E. by rewrite (proj2 HF2).
    - done.
    - by rewrite E.
    - by destruct (X eq_refl). }
  assert (Hck : at_check (at_ s1 t) = false). { destruct (at_check (at_ s1 t)) eqn:Ec; [|done]. apply (proj2 (reach_placed s1 t (proj1 HI1))) in Ec. congruence. }
  assert (Hdist : progO s1 = Pull 1 0 /\ nil (tq s1 t) = false /\ at_look (at_ s1 t) = true \/ (exists v x l, progO s1 = Loop (Do (match x with Plus _ => AddEdges v [] | Minus _ => DelEdges v [] end)) /\ batch s1 t = (v, x) :: l /\ todo (eng (who s1)) t = []) \/
    exists c, progO s1 = Loop c /\ plain a c /\ pass s1 t c = true).
  { unfold progO. destruct (at_ s1 t) as [got|got|got snt own| |i acc|acc|i acc| |acc|i acc|acc|acc|i|i| |i|] eqn:Hp; try discriminate Hck.
    - right. right. eexists. split_and!; [done|done|]. cbn. by rewrite looking_at, Hp.
    - destruct (nil (tq s1 t)) eqn:En; [|by left]. right. right. eexists. split_and!; [done|done|]. cbn. rewrite looking_at, Hp, En. cbn. unfold due in Hdue. rewrite Hp in Hdue. destruct called; [|rewrite Hdue in En; done]. destruct HCc as [_ ->]. done.
    - right. destruct (todo (eng (who s1)) t) eqn:Et.
      + destruct (batch s1 t) as [|[v x] l] eqn:Eb; [right|left; exists v, x, l; by destruct x]. destruct (did (who s1) t <? got)%N; eexists; (split_and!; [done| |cbn; by rewrite Eb]); cbn; unfold acts; rewrite ?elem_of_cons; auto.
      + right. eexists. split_and!; [done| |done]. cbn. unfold acts. apply elem_of_list_here. }
  destruct Hdist as [(Ep & En & El)|[(v & x & l & Ep & Eb & Et)|(c & Ep & Hc & Hpass)]]; [exfalso|exfalso|by apply (Hplain c)].
  - apply still_same in Hst as (_ & _ & E & _). apply (f_equal (fun f => f t)) in E. revert E. cbn [QDel_Model.qstep]. unfold tstep. rewrite (proj2 (Nat.leb_gt n t) Ht), Ha, Ep. unfold pull, may_pull.
    rewrite looking_at, El, Ho. destruct (tq s1 t) as [|e q] eqn:Eq; [done|]. cbn. change (negb (1 + 0 =? 0)%N) with true. cbn. rewrite upd_eq. intros E. apply (f_equal length) in E. rewrite skipn_length in E. cbn in E. lia.
  - destruct (h_did _ (reach_tidy s1 (proj1 HI1)) t) as (Hd0 & got & snt & own & Hw & Hown0); [by rewrite Eb|]. assert (Hov : owner v = t) by (apply (h_own _ (reach_tidy s1 (proj1 HI1)) t v x); left; rewrite Eb; apply elem_of_list_here).
    apply still_same in Hst as (_ & _ & _ & E & _). apply (f_equal (fun f => f t)) in E. revert E. cbn [QDel_Model.qstep]. unfold tstep. rewrite (proj2 (Nat.leb_gt n t) Ht), Ha, Ep.
    set (del := match x with Plus _ => false | Minus _ => true end).
    assert (El : loop a owner swap n s1 t (Do (match x with Plus _ => AddEdges v [] | Minus _ => DelEdges v [] end)) = enacted a owner swap n s1 t v del) by (by destruct x). rewrite El.
    assert (Hen : exists c k, enact a s1 t v del = Some (c, k) /\ ework a (who s1) t (Do c) = [(t, c)]).
    { unfold enact, del. unfold ework. rewrite Hw, Et, Hd0, (proj2 (N.eqb_neq own 0) Hown0). cbn [orb negb]. destruct x as [e|d].
      - rewrite Eb, changes_cons. cbn [fst snd]. rewrite Nat.eqb_refl. cbn [add_run]. eexists _, _. done.
      - pose proof (no_panic s1 t v (proj1 HI1) Hov) as Hnp. rewrite Eb, changes_cons in Hnp |- *. cbn [fst snd] in Hnp |- *. rewrite Nat.eqb_refl in Hnp |- *. cbn [del_run] in Hnp |- *. destruct (gone _ _ _); [|done]. eexists _, _. done. }
    destruct Hen as (c & k & Ee & Ew). unfold enacted. rewrite Ee, Ew, Hov, Nat.eqb_refl. cbn. rewrite upd_eq. intros E. apply enact_some in Ee as [H1 H2].
    pose proof (proj2 (rest_shorter k v (batch s1 t)) H1 H2) as H3. rewrite E in H3. lia.
Qed.
Lemma ev_open s : Inv s -> CaseO s -> ev (fun s' => less s' s) s.
Proof.
  intros HI HC. destruct (Hfin s (proj1 HI)) as (b & HB). apply (ev_mono (fun s' => less s' s \/ frame s s' /\ False)); [|naive_solver].
  refine (progress_goal CaseO PotO (fun s z => z = TThread t (progO s)) (fun _ => False) _ _ _ _ _ s HI HC _); [| | |done|by exists b].
  - intros s1 m y z HI1 HC1 HP1 -> Hy Hf. destruct (stepO s1 m y HI1 HC1 HP1 Hy Hf) as [?|(? & ? & [?|[? E]])]; [by left|right; split; [done|right; split; [done|by left]]|right; split; [done|right; split; [done|right; split; [done|by rewrite E]]]].
  - intros s1 m z HI1 HC1 HP1 -> Hy Hf. destruct (helpO s1 m HI1 HC1 HP1 Hy Hf) as [?|(? & ? & ?)]; [by left|right; split; [done|right; by split]].
  - intros s1 HI1 HC1. right. eexists. split; [done|]. intros l (_ & _ & _ & H & H'). unfold progO. destruct HC1 as (Ht & _).
    assert (HD : forall x, x ∈ duties -> TThread t x ∈ l) by (intros x Hx; by apply H).
    assert (HG : TThread t (Loop (Ctl Term_Model.Go)) ∈ l) by (apply HD; unfold duties; rewrite !elem_of_cons; auto).
    destruct (at_ s1 t) as [got|got|got snt own| |i acc|acc|i acc| |acc|i acc|acc|acc|i|i| |i|]; try done.
    + destruct (nil (tq s1 t)); [done|]. apply HD; unfold duties; rewrite !elem_of_cons; auto 10.
    + destruct (todo (eng (who s1)) t); [|apply HD; unfold duties; rewrite !elem_of_cons; auto 10].
      destruct (batch s1 t) as [|[v x] q] eqn:Eb; [destruct (did (who s1) t <? got)%N; apply HD; unfold duties; rewrite !elem_of_cons; auto 10|].
      pose proof (reach_tidy s1 (proj1 HI1)) as HH. assert (Hin : (v, x) ∈ batch s1 t) by (rewrite Eb; apply elem_of_list_here).
      rewrite <- (h_own _ HH t v x (or_introl Hin)). assert (Hv : v ∈ map fst evs); [|destruct (H' v Hv); by destruct x]. apply elem_of_list_In. apply (in_map fst evs (v, x)). apply elem_of_list_In. apply (h_evs _ HH t). by left.
Qed.
End opens.

(** When every thread is closed, the algorithm comes to rest. *)
Definition CaseC (s : qst) : Prop := forall t, t < n -> open_ s t = false.
Definition PotC (s : qst) (m : nat) : Prop := exists b, budget a owner (eng (who s)) b /\ Live_Proofs.rem a n (who s) b = m.
Definition helpC (s : qst) (z : turn a) : Prop := exists t, t < n /\ at_rest (trm (who s)) t = false /\ z = TThread t (Loop (Live_Proofs.prog a (who s) t)).
Definition calm (s : qst) : Prop := Term_Proofs.quiet n (trm (who s)).
Lemma closed_frame s s' : frame s s' -> CaseC s -> CaseC s'.
Proof. intros (_ & Ho) H t Ht. by rewrite Ho, H. Qed.
Lemma closed_pass s t c : reach s -> CaseC s -> t < n -> c ∈ turns a -> pass s t c = true.
Proof.
  intros HR HC Ht Hc. pose proof (reach_inv s HR) as HQ. pose proof (q_batch_open _ _ _ _ _ _ _ _ HQ t (HC t Ht)) as Hb.
  assert (Hl : looking a s t = false). { rewrite looking_at. destruct (at_look (at_ s t)) eqn:E; [|done]. apply (proj1 (reach_placed s t HR)) in E. rewrite (HC t Ht) in E. done. }
  unfold turns in Hc. rewrite !elem_of_cons, elem_of_nil in Hc. destruct Hc as [->|[->|[->|[->|[]]]]]; cbn; rewrite ?Hl, ?Hb; done.
Qed.
Lemma closed_acked s t : reach s -> CaseC s -> t < n -> acked s t = true -> at_ s t = Term_Model.Done.
Proof.
  intros HR HC Ht Ha. destruct (q_mode _ _ _ _ _ _ _ _ (reach_inv s HR) t Ht) as (m & _ & Hm). pose proof (HC t Ht). destruct m; cbn in Hm; destruct_and?; congruence.
Qed.
Lemma alike_potC s s' m : alike s s' -> PotC s m -> PotC s' m.
Proof. intros H (b & HB & <-). exists b. unfold Live_Proofs.rem. rewrite (al_eng _ _ H), (al_trm _ _ H). done. Qed.
Lemma alike_progC s s' t : alike s s' -> Live_Proofs.prog a (who s') t = Live_Proofs.prog a (who s) t.
Proof. intros H. unfold Live_Proofs.prog. by rewrite (al_eng _ _ H), (al_trm _ _ H), (al_did _ _ H). Qed.
Lemma onC s u c m : Inv s -> CaseC s -> PotC s m -> u < n -> plain a c -> 
  exists m', m' <= m /\ PotC (on s u c) m' /\ (forall w, w < n -> at_rest (trm (who s)) w = false -> m' < m \/ at_rest (trm (who (on s u c))) w = false /\ Live_Proofs.prog a (who (on s u c)) w = Live_Proofs.prog a (who s) w) /\
    (at_rest (trm (who s)) u = false -> Live_Proofs.prog a (who s) u = c -> m' < m).
Proof.
  intros [HR HS] HC (b & HB & <-) Hu Hc. assert (HG : Live_Proofs.good a owner n (who s) b) by (constructor; [apply (q_w _ _ _ _ _ _ _ _ (reach_inv s HR))|exact HC|done]).
  destruct (step_rem a owner swap n Hown (who s) u c b HG Hc (done_empty_sound s HS)) as (b' & HG' & R1 & R2 & R3). exists (Live_Proofs.rem a n (wstep (who s) u c) b'). split_and!.
  - done.
  - exists b'. split; [apply HG'|done].
  - intros w Hw Hr. destruct (R2 w Hw Hr) as [?|Hs]; [by left|right]. apply same_prog in Hs as [E1 E2]. cbn [QDel_Model.on set_who who]. by rewrite E1, E2.
  - intros Hr Hp. by apply R3.
Qed.
Lemma alike_helpC s s' z : alike s s' -> helpC s z -> helpC s' z.
Proof. intros H (t & Ht & Hr & ->). exists t. rewrite (al_trm _ _ H), (alike_progC _ _ _ H). done. Qed.
Lemma stepC s m y z : Inv s -> CaseC s -> PotC s m -> helpC s z -> goodt y -> fine s (actors y) -> let s' := turnr s y in
  less s' s \/ frame s s' /\ CaseC s' /\ ((exists m', m' < m /\ PotC s' m') \/ PotC s' m /\ helpC s' z).
Proof.
  intros HI HC HP Hz Hy Hf. cbv zeta. destruct y as [| |u x].
  - cbn. destruct (split s Remitter (proj1 HI) I) as [?|[Hs|(? & ? & [=] & _)]]; [by left|right]. cbn in Hs. rewrite Hs. split_and!; [apply frame_refl|done|by right].
  - cbn. destruct (split s Logger (proj1 HI) I) as [?|[Hs|(? & ? & [=] & _)]]; [by left|right]. cbn in Hs. rewrite Hs. split_and!; [apply frame_refl|done|by right].
  - assert (Hx : allowed (Thread u x)) by (apply Hy; cbn; rewrite !elem_of_cons; auto).
    destruct (turn_cases s u x HI Hx Hf) as [?|(s1 & Hal & HI1 & -> & _ & _)]; [by left|].
    pose proof (al_frame _ _ Hal) as HF. pose proof (closed_frame _ _ HF HC) as HC1. pose proof (alike_potC _ _ _ Hal HP) as HP1. pose proof (alike_helpC _ _ _ Hal Hz) as Hz1.
    destruct (split s1 (Thread u x) (proj1 HI1) Hx) as [?|Hst]; [left; by eapply frame_less|right]. pose proof (still_frame _ _ Hst) as HF2.
    split_and!; [by eapply frame_trans|by eapply closed_frame|]. destruct Hst as [->|(u' & c & [= <- ->] & Hu & Hak & Hc & Hpass & -> & Hop)]; [by right|].
    destruct (onC s1 u c m HI1 HC1 HP1 Hu Hc) as (m' & H1 & H2 & H3 & _). destruct Hz1 as (t & Ht & Hr & ->). destruct (H3 t Ht Hr) as [?|[E1 E2]]; [left; by exists m'|].
    destruct (decide (m' < m)); [left; by exists m'|right]. assert (m' = m) by lia. subst m'. split; [done|]. exists t. by rewrite E1, E2.
Qed.
Lemma ev_rest s : Inv s -> CaseC s -> ev (fun s' => less s' s \/ frame s s' /\ calm s') s.
Proof.
  intros HI HC. destruct (Hfin s (proj1 HI)) as (b & HB).
  refine (progress_goal CaseC PotC helpC calm _ _ _ _ _ s HI HC _); [| | | |by exists b].
  - intros s1 m y z HI1 HC1 HP1 Hz Hy Hf. destruct (stepC s1 m y z HI1 HC1 HP1 Hz Hy Hf) as [?|(? & ? & ?)]; [by left|right; split; [done|right; by split]].
  - intros s1 m z HI1 HC1 HP1 (t & Ht & Hr & ->) Hy Hf. set (c := Live_Proofs.prog a (who s1) t) in *. cbv zeta.
    assert (Hx : allowed (Thread t (Loop c))) by (apply Hy; cbn; rewrite !elem_of_cons; auto). pose proof (Live_Proofs.prog_turns a (who s1) t : c ∈ turns a) as Hin.
    destruct (turn_cases s1 t (Loop c) HI1 Hx Hf) as [?|(s2 & Hal & HI2 & -> & _ & _)]; [by left|].
    pose proof (al_frame _ _ Hal) as HF. pose proof (closed_frame _ _ HF HC1) as HC2. pose proof (alike_potC _ _ _ Hal HP1) as HP2.
    destruct (split s2 (Thread t (Loop c)) (proj1 HI2) Hx) as [?|Hst]; [left; by eapply frame_less|right]. pose proof (still_frame _ _ Hst) as HF2.
    split; [by eapply frame_trans|]. right. split; [by eapply closed_frame|].
    assert (Hc : plain a c). { unfold turns in Hin. rewrite !elem_of_cons, elem_of_nil in Hin. unfold plain, acts. destruct Hin as [->|[->|[->|[->|[]]]]]; rewrite ?elem_of_cons; auto. }
    assert (Ha : acked s2 t = false). { destruct (acked s2 t) eqn:Ha; [|done]. apply (closed_acked s2 t (proj1 HI2) HC2 Ht) in Ha. rewrite (al_trm _ _ Hal) in Ha.
      unfold at_rest in Hr. rewrite Ha in Hr. rewrite (done_empty_sound s1 (proj2 HI1) t Ht Ha) in Hr. done. }
    assert (E : qstep s2 (Thread t (Loop c)) = on s2 t c).
    { cbn [QDel_Model.qstep]. unfold tstep. rewrite (proj2 (Nat.leb_gt n t) Ht), Ha. rewrite loop_pass by done. by rewrite (closed_pass s2 t c (proj1 HI2) HC2 Ht Hin). }
    rewrite E. destruct (onC s2 t c m HI2 HC2 HP2 Ht Hc) as (m' & H1 & H2 & _ & H4). exists m'. split; [|done]. apply H4; [by rewrite (al_trm _ _ Hal)|]. by apply (alike_progC s1 s2).
  - intros s1 HI1 HC1. destruct (rest_dec a owner n Hown (who s1)) as [Hr|(t & Ht & Hr)]; [left; by apply rest_quiet|right]. exists (TThread t (Loop (Live_Proofs.prog a (who s1) t))). split; [by exists t|].
    intros l (_ & _ & _ & H & _). apply H; [done|]. pose proof (Live_Proofs.prog_turns a (who s1) t) as Hin. unfold turns in Hin. rewrite !elem_of_cons, elem_of_nil in Hin. unfold duties. rewrite !elem_of_cons. destruct Hin as [->|[->|[->|[->|[]]]]]; auto 10.
  - intros s1 y HI1 HG Hy Hf. apply keep_run; try done. intros s2 x HI2 HG2 Hx [->|(u & c & -> & Hu & _ & _ & _ & -> & _)]; [done|].
    exact (proj1 (quiet_run a owner swap n Hown [(u, c)] (who s2) (q_w _ _ _ _ _ _ _ _ (reach_inv s2 (proj1 HI2))) HG2)).
Qed.

(** And then they leave. *)
Definition texec := Term_Model.exec swap n.
Definition ttidy (k : Term_Model.st) (l : list (nat * Term_Model.choice)) : Prop := swap = true \/ Term_Proofs.tidy swap n k l.
Lemma ttidy_app k l1 l2 : ttidy k l1 -> ttidy (texec k l1) l2 -> ttidy k (l1 ++ l2).
Proof. intros [?|H1] [?|H2]; try (by left). right. by apply Term_Live.tidy_app. Qed.
Lemma texec_app k l1 l2 : texec k (l1 ++ l2) = texec (texec k l1) l2.
Proof. unfold texec, Term_Model.exec. by rewrite fold_left_app. Qed.
Lemma calm_closed s : calm s -> CaseC s.
Proof. intros H t Ht. by apply H. Qed.
Lemma calm_step s x : Inv s -> calm s -> allowed x -> (swap = true \/ clear s x) -> less (qstep s x) s \/ frame s (qstep s x) /\ calm (qstep s x) /\
  exists tl, trm (who (qstep s x)) = texec (trm (who s)) tl /\ ttidy (trm (who s)) tl /\ forall t, t < n -> x = Thread t (Loop (Ctl Term_Model.Go)) -> (t, Term_Model.Go) ∈ tl.
Proof.
  intros HI HG Hx Hcl. destruct (split s x (proj1 HI) Hx) as [?|Hst]; [by left|right]. split; [by apply still_frame|]. pose proof (reach_inv s (proj1 HI)) as HQ.
  split. { destruct Hst as [->|(u & c & -> & Hu & _ & _ & _ & -> & _)]; [done|]. exact (proj1 (quiet_run a owner swap n Hown [(u, c)] (who s) (q_w _ _ _ _ _ _ _ _ HQ) HG)). }
  assert (Hon : forall u c, qstep s x = on s u c -> (exists y, x = Thread u y) -> exists tl, trm (who (qstep s x)) = texec (trm (who s)) tl /\ ttidy (trm (who s)) tl /\ (u < n -> c = Ctl Term_Model.Go -> (u, Term_Model.Go) ∈ tl)).
  { intros u c -> (y & ->). exists (lwork a owner (who s) u c). split_and!.
    - cbn [QDel_Model.on set_who who]. apply trm_step.
    - destruct (lwork_one a owner (who s) u c) as [->|(k & ->)]; [by right|]. destruct Hcl as [?|Hcl]; [by left|right]. cbn. by split.
    - intros Hu ->. unfold lwork. destruct (HG u Hu) as (Hi & _). destruct (at_ s u); try discriminate Hi; apply elem_of_list_here. }
  destruct Hst as [Hs|(u & c & -> & Hu & Ha & Hc & Hpass & E & _)].
  - assert (Hd : (exists t, t < n /\ x = Thread t (Loop (Ctl Term_Model.Go))) \/ ~ (exists t, t < n /\ x = Thread t (Loop (Ctl Term_Model.Go)))).
    { destruct x as [| |t [|[[]|]| | |]]; try (right; intros (? & ? & [=]); done). destruct (decide (t < n)); [left; by exists t|right]. intros (? & ? & [=]). subst. done. }
    destruct Hd as [(t & Ht & ->)|Hno].
    + destruct (acked s t) eqn:Ha.
      * exists [(t, Term_Model.Go)]. pose proof (closed_acked s t (proj1 HI) (calm_closed s HG) Ht Ha) as Hdn. rewrite Hs. split_and!.
        -- unfold texec, Term_Model.exec. cbn [fold_left]. unfold Term_Model.step. cbn [fst snd]. rewrite (proj2 (Nat.ltb_lt t n) Ht). unfold Term_Model.go. by rewrite Hdn.
        -- right. cbn. split; [|done]. intros i acc. by rewrite Hdn.
        -- intros t' _ [= ->]. apply elem_of_list_here.
      * assert (E : qstep s (Thread t (Loop (Ctl Term_Model.Go))) = on s t (Ctl Term_Model.Go)).
        { cbn [QDel_Model.qstep]. unfold tstep. rewrite (proj2 (Nat.leb_gt n t) Ht), Ha. rewrite loop_pass by done. rewrite (closed_pass s t _ (proj1 HI) (calm_closed s HG) Ht); [done|]. apply elem_of_list_here. }
        destruct (Hon t _ E ltac:(by eexists)) as (tl & H1 & H2 & H3). exists tl. split_and!; try done. intros t' Ht' [= <-]. by apply H3.
    + exists []. rewrite Hs. split_and!; [done|by right|]. intros t Ht ->. destruct Hno. by exists t.
  - destruct (Hon u _ E ltac:(by eexists)) as (tl & H1 & H2 & H3). exists tl. split_and!; try done. intros t' Ht' [= <- ->]. by apply H3.
Qed.
Lemma calm_steps l : forall s, Inv s -> calm s -> (forall x, x ∈ l -> allowed x) -> fine s l -> less (qrun s l) s \/ frame s (qrun s l) /\ calm (qrun s l) /\
  exists tl, trm (who (qrun s l)) = texec (trm (who s)) tl /\ ttidy (trm (who s)) tl /\ forall t, t < n -> Thread t (Loop (Ctl Term_Model.Go)) ∈ l -> (t, Term_Model.Go) ∈ tl.
Proof.
  induction l as [|x l IH]; intros s HI HG Hl Hf.
  { right. split_and!; [apply frame_refl|done|]. exists []. split_and!; [done|by right|]. intros t _ H. by apply elem_of_nil in H. }
  apply fine_cons in Hf as [Hc Hf]. cbn [QDel_Model.qrun fold_left].
  assert (Hx : allowed x) by (apply Hl, elem_of_list_here). assert (Hl' : forall y, y ∈ l -> allowed y) by (intros y Hy; apply Hl; by apply elem_of_list_further).
  assert (HI' : Inv (qstep s x)) by (by apply inv_step). change (fold_left qstep l (qstep s x)) with (qrun (qstep s x) l).
  destruct (calm_step s x HI HG Hx Hc) as [Hs|(HF & HG' & tl & E & Ht & Hin)].
  - left. destruct (run_mono l (qstep s x) (proj1 HI') Hl'); [by eapply less_trans|by eapply less_frame].
  - destruct (IH (qstep s x) HI' HG' Hl' Hf) as [?|(HF2 & HG2 & tl2 & E2 & Ht2 & Hin2)]; [left; by eapply frame_less|right]. split_and!; [by eapply frame_trans|done|].
    exists (tl ++ tl2). rewrite E in E2, Ht2. split_and!; [by rewrite texec_app|by apply ttidy_app|]. intros t Hn Hi. apply elem_of_app. apply elem_of_cons in Hi as [Hi|Hi]; [left; by apply Hin|right; by apply Hin2].
Qed.
Lemma calm_rounds R s : Inv s -> calm s -> fairR R -> fineR R s -> forall k, less (rounds R s k) s \/ frame s (rounds R s k) /\ calm (rounds R s k) /\
  exists trs, length trs = k /\ trm (who (rounds R s k)) = texec (trm (who s)) (concat trs) /\ ttidy (trm (who s)) (concat trs) /\ Forall (Term_Live.fair n) trs.
Proof.
  intros HI HG HF Hf k. induction k as [|k IH].
  { right. split_and!; [apply frame_refl|done|]. exists []. split_and!; try done. by right. }
  pose proof (inv_rounds R s k HI HF Hf) as HIk. cbn [Nat.add QDLive_Model.rounds]. destruct IH as [Hs|(HFr & HGk & trs & Hlen & E & Ht & Hfa)].
  - left. destruct (run_mono (steps_of (R k)) (rounds R s k) (proj1 HIk) (proj1 (HF k))); [by eapply less_trans|by eapply less_frame].
  - destruct (calm_steps (steps_of (R k)) (rounds R s k) HIk HGk (proj1 (HF k)) (Hf k)) as [?|(HF2 & HG2 & tl & E2 & Ht2 & Hin2)]; [left; by eapply frame_less|right].
    split_and!; [by eapply frame_trans|done|]. exists (trs ++ [tl]). rewrite concat_app. cbn [concat]. rewrite app_nil_r, app_length, texec_app. cbn. rewrite E in E2, Ht2. split_and!; [lia|done|by apply ttidy_app|].
    apply List.Forall_app. split; [done|]. constructor; [|done]. intros t Hn. apply Hin2; [done|]. destruct (HF k) as (_ & _ & _ & H & _).
    specialize (H t (Loop (Ctl Term_Model.Go)) Hn ltac:(apply elem_of_list_here)). apply elem_of_list_In. unfold steps_of. apply in_concat. exists (actors (TThread t (Loop (Ctl Term_Model.Go)))). split; [by apply in_map, elem_of_list_In|cbn; auto].
Qed.
Definition all_done (s : qst) : Prop := forall t, t < n -> at_ s t = Term_Model.Done.
Lemma ev_calm s : Inv s -> calm s -> ev (fun s' => less s' s \/ frame s s' /\ all_done s') s.
Proof.
  intros HI HG R HF Hf. exists (7 * (10 * n + 31)). destruct (calm_rounds R s HI HG HF Hf (7 * (10 * n + 31))) as [?|(H1 & _ & trs & Hlen & E & Ht & Hfa)]; [by left|right]. split; [done|].
  intros t Hn. rewrite E. apply Term_Live.all_leave; try done; [apply HI|lia].
Qed.
Lemma ev_closed s : Inv s -> CaseC s -> ev (fun s' => less s' s \/ frame s s' /\ all_done s') s.
Proof.
  intros HI HC. apply (ev_then _ _ s HI (ev_rest s HI HC)). intros s1 HI1 [H|[HF HG]]; [apply ev_now; by left|].
  apply (ev_mono _ _ _ (ev_calm s1 HI1 HG)). intros s2 [H|[H1 H2]]; [left; by eapply frame_less|right; split; [by eapply frame_trans|done]].
Qed.

(** Everything has come to an end. *)
Definition over (s : qst) : Prop := rem s = Finished /\ forall t, t < n -> at_ s t = Term_Model.Done /\ epoch s t = false /\ acked s t = false.
Lemma some_or_none (P : nat -> Prop) : (forall t, P t \/ ~ P t) -> (exists t, t < n /\ P t) \/ forall t, t < n -> ~ P t.
Proof.
  intros Hd. assert (G : forall k, (exists t, t < k /\ P t) \/ forall t, t < k -> ~ P t).
  { induction k as [|k [(t & Ht & H)|IH]]; [right; lia|left; exists t; split; [lia|done]|]. destruct (Hd k) as [H|H]; [left; exists k; split; [lia|done]|right]. intros t Ht. destruct (decide (t = k)) as [->|]; [done|apply IH; lia]. }
  apply G.
Qed.
Lemma onward s : Inv s -> ev (fun s' => less s' s \/ over s') s.
Proof.
  intros HI. assert (HL : ev (fun s' => less s' s) s -> ev (fun s' => less s' s \/ over s') s) by (intros H; apply (ev_mono _ _ _ H); auto).
  pose proof (reach_inv s (proj1 HI)) as HQ. pose proof (q_mode _ _ _ _ _ _ _ _ HQ) as HM.
  assert (Hst : rem s = Streaming \/ rem s <> Streaming) by (destruct (rem s); auto). destruct Hst as [Hst|Hst]; [by apply HL, ev_stream|].
  destruct (some_or_none (fun t => acked s t = true /\ cmds s t = [Resume])) as [(t & Ht & H1 & H2)|Hno1].
  { intros t. destruct (acked s t); [|right; by intros [? _]]. destruct (cmds s t) as [|[] []]; auto; right; by intros [_ ?]. }
  { by apply HL, (ev_awake s t). }
  destruct (some_or_none (fun t => acked s t = false /\ open_ s t = true /\ cmds s t <> [] /\ epoch s t = false)) as [(t & Ht & H1 & H2 & H3 & H4)|Hno2].
  { intros t. destruct (acked s t); [right; by intros [? _]|]. destruct (open_ s t); [|right; by intros (_ & ? & _)]. destruct (epoch s t); [right; by intros (_ & _ & _ & ?)|]. destruct (cmds s t); [right; by intros (_ & _ & ? & _)|left]. done. }
  { apply HL, (ev_open true t); done. }
  destruct (some_or_none (fun t => acked s t = false /\ open_ s t = true /\ epoch s t || finished a s = true)) as [(t & Ht & H1 & H2 & H3)|Hno3].
  { intros t. destruct (acked s t); [right; by intros [? _]|]. destruct (open_ s t); [|right; by intros (_ & ? & _)]. destruct (epoch s t || finished a s); [by left|right; by intros (_ & _ & ?)]. }
  { apply HL, (ev_open false t); done. }
  destruct (rem s) eqn:Er; [done| |].
  - (* the Remitter waits for the answer *)
    destruct (ready s) eqn:Erd; [by apply HL, ev_logger|]. unfold ready in Erd. destruct (lg s) as [|i|i| |i] eqn:El; try discriminate Erd.
    + exfalso. apply orb_false_iff in Erd as [E1 E2]. apply negb_false_iff, Nat.ltb_lt in E1. destruct (HM i E1) as (m & Hm & Hi). unfold modes in Hm. rewrite ?El, (proj2 (Nat.ltb_ge i i) (Nat.le_refl i)) in Hm.
      destruct Hm as [->| ->]; cbn in Hi; [destruct Hi as (_ & _ & Hi & _); by rewrite Hi in E2|]. destruct Hi as (_ & ? & ? & _). by apply (Hno1 i E1).
    + apply orb_false_iff in Erd as [E1 E2]. apply negb_false_iff, Nat.ltb_lt in E1. apply negb_false_iff, Nat.eqb_eq in E2.
      assert (HC : CaseC s).
      { intros t Ht. destruct (open_ s t) eqn:Ho; [exfalso|done]. destruct (HM t Ht) as (m & Hm & Hi). cbn -[Nat.ltb] in Hm.
        assert (Hm' : m = Taken \/ m = Called \/ m = Inside \/ m = Answered) by (destruct (t <? i); naive_solver).
        assert (Hck : at_ s t <> Term_Model.Done) by (intros Ed; pose proof (proj2 (reach_placed s t (proj1 HI))) as Hp; rewrite Ed in Hp; specialize (Hp eq_refl); congruence).
        destruct Hm' as [->|[->|[->| ->]]]; cbn in Hi; destruct_and?; try done.
        - apply (Hno2 t Ht). split_and!; try done. congruence.
        - apply (Hno3 t Ht). split_and!; try done. by destruct (epoch s t). }
      apply (ev_then _ _ s HI (ev_closed s HI HC)). intros s1 HI1 [H|[HF HD]]; [apply ev_now; by left|].
      assert (Hi1 : acked s i = false /\ epoch s i = true).
      { destruct (HM i E1) as (m & Hm & Hi). unfold modes in Hm. rewrite ?El, (proj2 (Nat.ltb_ge i i) (Nat.le_refl i)) in Hm. destruct Hm as [->|[->| ->]]; cbn in Hi; destruct_and?; try done; [|congruence].
        exfalso. destruct (q_open _ _ _ _ _ _ _ _ HQ i E1 (HC i E1)) as (_ & [?|[? _]]); congruence. }
      apply (ev_mono (fun s' => less s' s1)); [|intros s2 H; left; by eapply frame_less].
      destruct HF as [(w & Ew) _]. apply (ev_answer s1 i); try done; [by rewrite Ew; apply Hi1|by rewrite Ew; apply Hi1|by rewrite Ew|by apply HD].
    + exfalso. apply orb_false_iff in Erd as [E1 E2]. apply negb_false_iff, Nat.ltb_lt in E1. destruct (HM i E1) as (m & Hm & Hi). unfold modes in Hm. rewrite ?El, (proj2 (Nat.ltb_ge i i) (Nat.le_refl i)) in Hm. subst m.
      cbn in Hi. destruct Hi as (_ & _ & Hi & _). by rewrite Hi in E2.
  - (* all events have been sent *)
    assert (El : lg s = LWait). { destruct (lg s) eqn:El; [done| | | |]; pose proof (q_asking _ _ _ _ _ _ _ _ HQ) as Hq; rewrite El in Hq; specialize (Hq I); congruence. }
    assert (Hfree : forall t, t < n -> is_in a Free s t).
    { intros t Ht. destruct (HM t Ht) as (m & Hm & Hi). rewrite El in Hm. cbn in Hm. destruct Hm as [->| ->]; [done|]. destruct Hi as (_ & ? & ? & _). by destruct (Hno1 t Ht). }
    assert (HC : CaseC s).
    { intros t Ht. destruct (open_ s t) eqn:Ho; [exfalso|done]. destruct (Hfree t Ht) as (? & ? & _). apply (Hno3 t Ht). split_and!; try done. unfold finished. rewrite Er. apply orb_true_r. }
    apply (ev_mono _ _ _ (ev_closed s HI HC)). intros s1 [H|[HF HD]]; [by left|right]. destruct HF as [(w & Ew) _]. split; [by rewrite Ew|]. intros t Ht. destruct (Hfree t Ht) as (? & ? & _). split_and!; [by apply HD|by rewrite Ew|by rewrite Ew].
Qed.
Lemma less_wf : well_founded less.
Proof.
  assert (G : forall x1 x2 x3 x4 s, mA s = x1 -> mB s = x2 -> mD s = x3 -> mO s = x4 -> Acc less s).
  { intros x1. induction x1 as [x1 IH1] using (well_founded_induction lt_wf). intros x2. induction x2 as [x2 IH2] using (well_founded_induction lt_wf).
    intros x3. induction x3 as [x3 IH3] using (well_founded_induction lt_wf). intros x4. induction x4 as [x4 IH4] using (well_founded_induction lt_wf).
    intros s E1 E2 E3 E4. constructor. intros s' [H|(F1' & [H|(F2' & [H|(F3' & H)])])].
    - eapply (IH1 (mA s')); [lia|done..].
    - eapply (IH2 (mB s')); [lia|lia|done..].
    - eapply (IH3 (mD s')); [lia|lia|lia|done..].
    - eapply (IH4 (mO s')); [lia|lia|lia|lia|done]. }
  intros s. by eapply G.
Qed.
Lemma ev_over s : Inv s -> ev over s.
Proof.
  induction s as [s IH] using (well_founded_induction less_wf). intros HI. apply (ev_then _ _ s HI (onward s HI)). intros s1 HI1 [H|H]; [by apply IH|by apply ev_now].
Qed.
End live.
