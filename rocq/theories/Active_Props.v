(** C32: active notification counting. *)
From Verif Require Import Base Active_Spec Active_Model Active_Proofs.

(** The activity counter of a vertex is the number of its queued notifications, plus those whose
    send is under way, plus those taken from the queue and not yet counted. *)
Theorem C32_activity_counts (a : aalg) owner n p es sched v : (forall v, owner v < n)%nat -> notes_by_threads a n sched ->
  let s := arun a owner (astart a p es) sched in
  aact s v = count (fun '(d, _) => (d =? v)%nat) (aqueue s (owner v))
    + sumt (fun t => count (fun o => match o with APut d _ => (d =? v)%nat | _ => false end) (atodo s t)) n
    + sumt (fun t => count (fun o => match o with ADec d _ => (d =? v)%nat | _ => false end) (atodo s t)) n.
Proof. intros Hown Hn s. exact (i_act _ _ _ _ (ainv_arun a owner n sched _ Hown Hn (ainv_start a owner n p es)) v). Qed.

(** Every handled notification is told how many others were under way or waiting. *)
Definition told_right (l : list aevent) : Prop :=
  forall l1 v k l2, l = l1 ++ Handled v k :: l2 -> began v l1 = k + S (handled v l1).

Lemma told_right_step l e : told_right l -> (forall v k, e = Handled v k -> began v l = k + S (handled v l)) -> told_right (l ++ [e]).
Proof.
  intros H He l1 v k l2 E. destruct l2 as [|x l2] using rev_ind.
  - apply app_inj_tail in E. destruct E as [-> ->]. by apply He.
  - rewrite app_comm_cons, app_assoc in E. apply app_inj_tail in E. destruct E as [-> _]. by eapply H.
Qed.

Lemma told_right_run (a : aalg) owner n sched : forall s, (forall v, owner v < n)%nat -> notes_by_threads a n sched -> ainv a owner n s ->
  told_right (alog s) -> told_right (alog (arun a owner s sched)).
Proof.
  induction sched as [|[t c] l IH]; intros s Hown Hn HI HT; [done|]. cbn.
  assert (Hn' : notes_by_threads a n l) by (intros t' v x Hin; apply (Hn t' v x); by apply elem_of_list_further).
  apply IH; [done|done| |].
  - apply ainv_astep; [done| |done]. intros v x ->. apply (Hn t v x), elem_of_list_here.
  - unfold astep. destruct (atodo s t) as [|o rest] eqn:Ht0.
    + destruct c as [| |v es|v x|v u]; try done.
      * destruct (aqueue s t) as [|[v x] q]; done.
      * by destruct (owner v =? t)%nat.
      * by destruct (owner v =? t)%nat.
    + destruct c; try done. destruct o as [d x|d x|v x|v x k|v st]; cbn [aexec].
      * apply told_right_step; [done|]. discriminate.
      * apply told_right_step; [done|]. discriminate.
      * apply told_right_step; [done|]. intros w k [= <- <-].
        pose proof (i_began _ _ _ _ HI v) as Hb. pose proof (i_act _ _ _ _ HI v) as Ha.
        assert (Ht : (t < n)%nat) by (apply (i_mine _ _ _ _ HI t (ADec v x)); rewrite Ht0; apply elem_of_list_here).
        pose proof (sumt_ge (fun t => popped a v (atodo s t)) n t Ht) as H2. simpl in H2. rewrite Ht0 in H2. unfold popped in H2 at 1. simpl in H2.
        rewrite Nat.eqb_refl in H2. lia.
      * by destruct (areact a v (KNote x) k (aprop s v) (aedges s v)).
      * by destruct (areact a v (KAdded st) (aact s v) (aprop s v) (aedges s v)).
Qed.

Theorem C32_told_what_remains (a : aalg) owner n p es sched l1 v k l2 : (forall v, owner v < n)%nat -> notes_by_threads a n sched ->
  alog (arun a owner (astart a p es) sched) = l1 ++ Handled v k :: l2 -> began v l1 = k + S (handled v l1).
Proof.
  intros Hown Hn. apply (told_right_run a owner n sched); [done|done|apply ainv_start|].
  intros l1' v' k' l2' E. by destruct l1'.
Qed.

(** When a vertex is told zero, every notification to it whose send had begun - in particular every
    one whose send was complete - has been handled, counting the present one. *)
Theorem C32_zero_is_last (a : aalg) owner n p es sched l1 v l2 : (forall v, owner v < n)%nat -> notes_by_threads a n sched ->
  alog (arun a owner (astart a p es) sched) = l1 ++ Handled v 0 :: l2 ->
  began v l1 = handled v (l1 ++ [Handled v 0]) /\ (ended v l1 <= handled v (l1 ++ [Handled v 0]))%nat.
Proof.
  intros Hown Hn E. pose proof (C32_told_what_remains a owner n p es sched l1 v 0 l2 Hown Hn E) as Hb.
  assert (Hh : handled v (l1 ++ [Handled v 0]) = S (handled v l1)).
  { unfold handled. rewrite count_app. simpl. rewrite Nat.eqb_refl. lia. }
  rewrite Hh. split; [lia|]. clear Hh.
  assert (Hle : forall sched s, notes_by_threads a n sched -> ainv a owner n s -> (forall l1 l2, alog s = l1 ++ l2 -> ended v l1 <= began v l1)%nat ->
     forall l1 l2, alog (arun a owner s sched) = l1 ++ l2 -> (ended v l1 <= began v l1)%nat).
  { clear - Hown. induction sched as [|[t c] l IH]; intros s Hn HI Hs; [done|]. cbn.
    assert (HI' : ainv a owner n (astep a owner s t c)) by (apply ainv_astep; [done|intros v' x ->; apply (Hn t v' x), elem_of_list_here|done]).
    apply IH; [intros t' v' x Hin; apply (Hn t' v' x); by apply elem_of_list_further|done|].
    assert (Hcur : (ended v (alog (astep a owner s t c)) <= began v (alog (astep a owner s t c)))%nat) by (pose proof (i_ended _ _ _ _ HI' v); lia).
    assert (Hlog : alog (astep a owner s t c) = alog s \/ exists e, alog (astep a owner s t c) = alog s ++ [e]).
    { unfold astep. destruct (atodo s t) as [|o rest].
      - destruct c as [| |w es|w x|w u]; try (by left).
        + destruct (aqueue s t) as [|[w x] q]; by left.
        + destruct (owner w =? t)%nat; by left.
        + destruct (owner w =? t)%nat; by left.
      - destruct c; try (by left). destruct o as [d x|d x|w x|w x k|w st]; cbn [aexec]; try (right; eexists; reflexivity); left.
        + by destruct (areact a w (KNote x) k (aprop s w) (aedges s w)).
        + by destruct (areact a w (KAdded st) (aact s w) (aprop s w) (aedges s w)). }
    intros l1 l2 E. destruct Hlog as [Hl|[e Hl]]; rewrite Hl in *; [by eapply Hs|].
    destruct l2 as [|x l2] using rev_ind; [rewrite app_nil_r in E; by subst l1|].
    rewrite app_assoc in E. apply app_inj_tail in E. destruct E as [E _]. by eapply Hs. }
  eapply Nat.le_trans; [eapply (Hle sched (astart a p es) Hn (ainv_start a owner n p es))|lia]; [|exact E].
  intros l1' l2' E'. destruct l1'; [done|]. discriminate.
Qed.

(** Numbers travel along edges and are added up; a vertex passes its sum on when told zero. *)
Definition adder : aalg := {|
  p_t := nat; n_t := nat; e_t := unit; u_t := unit; touch _ p := p;
  areact v k act p es := match k with
    | KNote x => (p + x, if (act =? 0)%nat then map (fun e => (fst e, p + x)) es else [])
    | KAdded _ => (p, []) end%nat |}.
Definition adder_sched : list (nat * achoice adder) :=
  let run t k : list (nat * achoice adder) := repeat (t, ARun) k in
  ([(0, ANote (a := adder) 1 5)] ++ run 0 2 ++ [(0, ANote (a := adder) 1 7)] ++ run 0 1 (* counted, not yet queued *) ++
   [(1, APop)] ++ run 1 2 ++ run 0 1 ++ [(1, APop)] ++ run 1 4 ++ [(0, APop)] ++ run 0 3)%nat.
Example C32_case :
  let s := arun adder (fun v => v mod 2)%nat (astart adder (fun _ => 0)%nat (fun v => if (v =? 1)%nat then [(2%nat, tt)] else [])) adder_sched in
  map (aprop s) [1; 2]%nat = [12; 12]%nat /\
  alog s = [Began_send 1; Ended_send 1; Began_send 1; Handled 1 1; Ended_send 1; Handled 1 0; Began_send 2; Ended_send 2; Handled 2 0]%nat.
Proof. vm_compute. done. Qed.
Print Assumptions C32_activity_counts.
Print Assumptions C32_told_what_remains.
Print Assumptions C32_zero_is_last.
