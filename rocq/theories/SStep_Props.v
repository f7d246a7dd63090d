(** C65: super-steps.  A schedule is any list of steps; [q] and [c] are what has been sent, and counted, before
    the threads start; [swap] is the order of the two writes of termination.go:44-45 ([false] is the code). *)
From Verif Require Import Base Term_Model Term_Proofs SStep_Model SStep_Proofs.
Open Scope nat_scope.

(** While OnSuperStepConverged runs, only thread 0 runs it, every other thread sleeps in the barrier, no thread
    has anything of its own to do, and the messages in the queues are the [k] that this very call sent. *)
Theorem C65_alone swap n own q c sched t k : t < n ->
  let s := srun swap n (sstart own q c) sched in
  ph s t = Super k ->
  t = 0 /\ (forall j, 0 < j < n -> ph s j = Asleep) /\ (forall j, j < n -> at_ (trm s) j = Done /\ open_ (trm s) j = false) /\
  sumf (queue (trm s)) n = k.
Proof.
  intros Ht s Hp. assert (Hn : 0 < n) by lia. pose proof (sinv_run swap n Hn sched _ (sinv_start swap n Hn own q c)) as H. fold s in H.
  destruct H as [(P & f & R)|[(k' & W)|[(i & j & W)|E]]].
  - exfalso. destruct (P t) eqn:HP.
    + destruct (r_pend _ _ _ _ _ R t Ht HP) as (_ & H1 & H2). destruct (decide (t = 0)) as [->|H0]; [|by rewrite H1 in Hp].
      destruct (H2 eq_refl) as (i & _ & Ei). by rewrite Ei in Hp.
    + pose proof (r_ph _ _ _ _ _ R t Ht HP) as H. by rewrite Hp in H.
  - pose proof (s_alone _ _ _ W) as A. destruct (decide (t = 0)) as [->|H0]; [|rewrite (a_ph _ _ A) in Hp by lia; done].
    rewrite (s_ph _ _ _ W) in Hp. injection Hp as <-. split_and!; [done|apply A| |apply W]. intros j Hj. split; by apply A.
  - exfalso. pose proof (w_alone _ _ _ _ W) as A. destruct (decide (t = 0)) as [->|H0]; [|rewrite (a_ph _ _ A) in Hp by lia; done].
    by rewrite (w_ph _ _ _ _ W) in Hp.
  - pose proof (e_ph _ _ E t Ht) as H. by rewrite Hp in H.
Qed.

(** The termination check that follows decides for all threads alike: if one thread has left, nothing is left to
    be done, and whatever happens no thread goes back to its loop and nothing is sent. *)
Theorem C65_out swap n own q c sched more t : t < n ->
  ph (srun swap n (sstart own q c) sched) t = Out ->
  let s := srun swap n (sstart own q c) (sched ++ more) in
  quiet n (trm s) /\ forall j, j < n -> match ph s j with Asleep | Free _ | Last | Out => True | _ => False end.
Proof.
  intros Ht Hp s. assert (Hn : 0 < n) by lia. pose proof (sinv_run swap n Hn sched _ (sinv_start swap n Hn own q c)) as H.
  assert (E : ending n (srun swap n (sstart own q c) sched)).
  { revert Hp H. generalize (srun swap n (sstart own q c) sched). clear s. intros s Hp [(P & f & R)|[(k' & W)|[(i & j & W)|E]]]; [exfalso..|done].
    - destruct (P t) eqn:HP.
      + destruct (r_pend _ _ _ _ _ R t Ht HP) as (_ & H1 & H2). destruct (decide (t = 0)) as [->|H0]; [|by rewrite H1 in Hp].
        destruct (H2 eq_refl) as (i & _ & Ei). by rewrite Ei in Hp.
      + pose proof (r_ph _ _ _ _ _ R t Ht HP) as H. by rewrite Hp in H.
    - destruct (decide (t = 0)) as [->|H0]; [by rewrite (s_ph _ _ _ W) in Hp|]. rewrite (a_ph _ _ (s_alone _ _ _ W)) in Hp by lia. done.
    - destruct (decide (t = 0)) as [->|H0]; [by rewrite (w_ph _ _ _ _ W) in Hp|]. rewrite (a_ph _ _ (w_alone _ _ _ _ W)) in Hp by lia. done. }
  assert (E' : ending n s). { unfold s. rewrite srun_app. by apply ending_run. }
  split.
  - intros j Hj. split_and!; by apply E'.
  - intros j Hj. pose proof (e_ph _ _ E' j Hj) as Hj'. by destruct (ph s j).
Qed.

(** If OnSuperStepConverged sends nothing, all threads leave: it takes a fixed number of rounds in which every
    thread gets its turns, whatever else is in them. *)
Theorem C65_all_leave swap n own q c sched : 0 < n ->
  let s := srun swap n (sstart own q c) sched in
  ph s 0 = Super 0 ->
  exists enough, forall rounds, enough <= length rounds ->
    Forall (fun r => forall t, t < n -> (t, Act) ∈ r /\ (t, Ctl Go) ∈ r) rounds ->
    forall t, t < n -> ph (srun swap n s ((0, Act) :: concat rounds)) t = Out.
Proof.
  intros Hn s Hp. pose proof (sinv_run swap n Hn sched _ (sinv_start swap n Hn own q c)) as H. fold s in H.
  assert (W : stepping n s 0).
  { destruct H as [(P & f & R)|[(k' & W)|[(i & j & W)|E]]].
    - exfalso. destruct (P 0) eqn:HP.
      + destruct (r_pend _ _ _ _ _ R 0 Hn HP) as (_ & _ & H2). destruct (H2 eq_refl) as (i & _ & Ei). by rewrite Ei in Hp.
      + pose proof (r_ph _ _ _ _ _ R 0 Hn HP) as H. by rewrite Hp in H.
    - pose proof (s_ph _ _ _ W) as H. rewrite Hp in H. injection H as <-. done.
    - pose proof (w_ph _ _ _ _ W) as H. by rewrite Hp in H.
    - pose proof (e_ph _ _ E 0 Hn) as H. by rewrite Hp in H. }
  pose proof (stepping_ends swap n Hn s W) as E.
  exists (wsum n (sgo swap n s 0 Act) n). intros rounds Hl HF t Ht.
  cbn [srun fold_left]. rewrite (sstep_in swap n) by done. by apply (ending_all swap n Hn).
Qed.

(** Nobody waits for ever: as long as a thread has not left, some thread has a step that takes it on. *)
Theorem C65_no_deadlock swap n own q c sched : 0 < n ->
  let s := srun swap n (sstart own q c) sched in
  (exists t, t < n /\ ph s t <> Out) ->
  exists t x, t < n /\ (ph (sstep swap n s (t, x)) t <> ph s t \/ at_ (trm (sstep swap n s (t, x))) t <> at_ (trm s) t).
Proof.
  intros Hn s Hex. pose proof (sinv_run swap n Hn sched _ (sinv_start swap n Hn own q c)) as H. fold s in H.
  destruct (no_deadlock swap n Hn s H Hex) as (t & x & Ht & Hm). exists t, x. split; [done|]. by rewrite sstep_in.
Qed.

(** The barrier by itself: even if threads come to it as they like, all of them are in it when thread 0 is alone. *)
Theorem C65_barrier n sched r t :
  bp (brun n bstart sched) 0 = Alone r -> 0 < t < n -> exists r', bp (brun n bstart sched) t = In r'.
Proof.
  intros Hp Ht. assert (Hn : 0 < n) by lia. pose proof (barrier_run n Hn sched bstart (barrier_start n)) as [B1 B2 B3 B4]. rewrite Hp in B1. cbn in B1.
  pose proof (num_most (fun j => negb (j =? 0) && inside_ (bp (brun n bstart sched) j)) n eq_refl ltac:(lia) t Ht) as H. cbn in H.
  apply andb_true_iff in H as [_ H]. destruct (bp (brun n bstart sched) t); try done. eauto.
Qed.
(** But it does not keep the rounds apart: a thread that is freed and comes again can take the token of a thread
    that still sleeps, which then sleeps through a super-step without having been at work in between.  (In the
    program the threads do not come as they like, and [C65_alone] and [C65_no_deadlock] hold.) *)
Theorem C65_barrier_rounds_refuted : ~ (forall n sched r t,
  bp (brun n bstart sched) 0 = Alone r -> 0 < t < n -> bp (brun n bstart sched) t = In r).
Proof.
  intros H. specialize (H 3 [1; 2; 0; 0; 0; 0; 0; 0; 0; 0; 1; 1; 1; 1; 0; 0; 0; 0] 1 2 ltac:(by vm_compute) ltac:(lia)).
  vm_compute in H. done.
Qed.

(** Two threads, one message for thread 0 at the start; the first super-step sends one message to thread 1, the
    second sends none, and both threads leave. *)
Definition turns (k : nat) : list (nat * schoice) :=
  concat (repeat (concat (map (fun t => [(t, Ctl Go); (t, Ctl Finish); (t, Act)]) [0; 1])) k).
Definition one_super : list (nat * schoice) := turns 41 ++ [(0, Give 1)].
Definition case_start : sst := sstart (fun _ => false) (fun t => if t =? 0 then 1%N else 0%N) (fun _ => 0%N).
Example C65_case :
  let at_super := srun false 2 case_start one_super in
  let again := srun false 2 at_super (turns 14) in
  let end_ := srun false 2 at_super (turns 100) in
  ph at_super 0 = Super 1 /\ queue (trm at_super) 1 = 1%N /\ ph at_super 1 = Asleep /\
  ph again 0 = Loop /\ ph again 1 = Loop /\
  ph end_ 0 = Out /\ ph end_ 1 = Out /\ queue (trm end_) 1 = 0%N /\ cnt (trm end_) 0 = 2%N /\ cnt (trm end_) 1 = 1%N.
Proof. by vm_compute. Qed.

Print Assumptions C65_alone.
Print Assumptions C65_out.
Print Assumptions C65_all_leave.
Print Assumptions C65_no_deadlock.
Print Assumptions C65_barrier.
Print Assumptions C65_barrier_rounds_refuted.
