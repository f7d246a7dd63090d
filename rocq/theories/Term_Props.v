(** Claim about the termination check (C30).  The code's check can answer yes too early: a
    162-step schedule of two threads ends with one thread gone and a message waiting for the
    other.  The cause is one pair of writes: a thread that changes its view publishes the view
    (line 44) before it withdraws its vote (line 45).  With the two writes exchanged the check is
    right for every number of threads and every schedule, and the code as it is is right on every
    schedule in which no vote is read (line 64) between those two writes. *)
From Verif Require Import Base Term_Model Term_Proofs.
Open Scope N_scope.

(** Nothing is under way: no message is waiting for a thread, no thread is in the middle of a
    batch, and none waits for topology events. *)
Definition nothing_left (n : nat) (s : st) : Prop :=
  forall u, (u < n)%nat ->
    queue s u = 0 /\ open_ s u = false /\
    (forall got, at_ s u = Recv got -> got = 0) /\ (forall got, at_ s u = Look got -> got = 0) /\
    (forall got sent own, at_ s u <> Work got sent own).

Lemma quiet_nothing_left n s : quiet n s -> nothing_left n s.
Proof.
  intros H u Hu. destruct (H u Hu) as (Hi & Hq & Ho). split_and!; try done.
  - intros got E. rewrite E in Hi. by apply N.eqb_eq.
  - intros got E. rewrite E in Hi. by apply N.eqb_eq.
  - intros got sent own E. by rewrite E in Hi.
Qed.
Lemma quiet_exec swap n sched : forall s, quiet n s -> quiet n (exec swap n s sched).
Proof. induction sched as [|x l IH]; intros s H; [done|]. cbn. apply IH. by apply quiet_step. Qed.

(** With the vote withdrawn before the view is published. *)
Theorem C30_sound_when_vote_goes_first n own q c sched later t : (t < n)%nat ->
  at_ (exec true n (start own q c) sched) t = Done ->
  nothing_left n (exec true n (start own q c) (sched ++ later)).
Proof.
  intros Ht Hd. unfold exec. rewrite fold_left_app. apply quiet_nothing_left, (quiet_exec true n later).
  apply (done_quiet true n own q c sched t); [by left|done|done].
Qed.

(** The code, when no vote is read between the two writes of its owner. *)
Theorem C30_sound_without_torn_reads n own q c sched later t : (t < n)%nat ->
  tidy false n (start own q c) sched ->
  at_ (exec false n (start own q c) sched) t = Done ->
  nothing_left n (exec false n (start own q c) (sched ++ later)).
Proof.
  intros Ht Hti Hd. unfold exec. rewrite fold_left_app. apply quiet_nothing_left, (quiet_exec false n later).
  apply (done_quiet false n own q c sched t); [by right|done|done].
Qed.

(** The code answers yes while a message waits for the other thread. *)
Definition goes (t k : nat) : list (nat * choice) := repeat (t, Go) k.
Definition racy_schedule : list (nat * choice) :=
  (* 0 works; 1 finds its queue empty; 0 sends to 1 and votes 1 *)
  goes 0 2 ++ goes 1 1 ++ [(0%nat, Send 1); (0%nat, Finish)] ++ goes 0 5 ++ goes 1 4 ++ goes 0 20 ++
  (* 1 works; 0 finds its queue empty; 1 sends to 0 and, 0 being between its writes, votes 2 *)
  goes 1 2 ++ goes 0 1 ++ [(1%nat, Send 0); (1%nat, Finish)] ++ goes 1 5 ++ goes 0 3 ++ goes 1 21 ++
  (* the same with the roles exchanged: 0 votes 3 *)
  goes 0 3 ++ goes 1 1 ++ [(0%nat, Send 1); (0%nat, Finish)] ++ goes 0 5 ++ goes 1 3 ++ goes 0 40 ++
  (* and again: 1 votes 3 and sees 3 *)
  goes 1 3 ++ goes 0 1 ++ [(1%nat, Send 0); (1%nat, Finish)] ++ goes 1 5 ++ goes 0 3 ++ goes 1 26.
Definition one_message : st :=
  start (fun _ => false) (fun t => if (t =? 0)%nat then 1 else 0) (fun t => if (t =? 0)%nat then 1 else 0).
Theorem C30_early_yes_refuted :
  at_ (exec false 2 one_message racy_schedule) 1%nat = Done /\ queue (exec false 2 one_message racy_schedule) 0%nat = 1.
Proof. vm_compute. done. Qed.

(** Concrete runs: two threads exchange two messages and leave, with both orders of the writes. *)
Fixpoint alternate (k : nat) : list (nat * choice) := match k with O => [] | S k => goes 0 20 ++ goes 1 20 ++ alternate k end.
Example C30_case :
  let sched := goes 0 2 ++ [(0%nat, Send 1); (0%nat, Send 1); (0%nat, Finish)] ++ goes 1 3 ++ [(1%nat, Send 0); (1%nat, Finish)] ++
    goes 0 2 ++ [(0%nat, Finish)] ++ alternate 6 in
  forall swap, map (at_ (exec swap 2 one_message sched)) [0%nat; 1%nat] = [Done; Done]
  /\ map (queue (exec swap 2 one_message sched)) [0%nat; 1%nat] = [0; 0]
  /\ map (cnt (exec swap 2 one_message sched)) [0%nat; 1%nat] = [5; 3].
Proof. intros sched []; vm_compute; done. Qed.

(** Such schedules are [tidy]. *)
Fixpoint tidyb (swap : bool) (n : nat) (s : st) (sched : list (nat * choice)) : bool :=
  match sched with
  | [] => true
  | x :: rest =>
      match at_ s (fst x) with KSeen i _ => match at_ s i with KReset _ => false | _ => true end | _ => true end
      && tidyb swap n (step swap n s x) rest
  end.
Lemma tidyb_tidy swap n sched : forall s, tidyb swap n s sched = true -> tidy swap n s sched.
Proof.
  induction sched as [|x l IH]; intros s H; [done|]. cbn in *. apply andb_prop in H. destruct H as [H1 H2]. split; [|by apply IH].
  intros i acc E a Ha. by rewrite E, Ha in H1.
Qed.
Example C30_tidy_case : tidy false 2 one_message (goes 0 2 ++ [(0%nat, Send 1); (0%nat, Finish)] ++ goes 1 2 ++ [(1%nat, Finish)] ++ alternate 6)
  /\ ~ tidy false 2 one_message racy_schedule.
Proof.
  split; [apply tidyb_tidy; by vm_compute|]. intros H.
  pose proof (done_quiet false 2 _ _ _ racy_schedule 1%nat (or_intror H) ltac:(lia) (proj1 C30_early_yes_refuted) 0%nat ltac:(lia)) as (_ & Hq & _).
  pose proof (proj2 C30_early_yes_refuted) as E. unfold one_message in E. rewrite Hq in E. discriminate.
Qed.

Print Assumptions C30_sound_when_vote_goes_first.
Print Assumptions C30_sound_without_torn_reads.
Print Assumptions C30_early_yes_refuted.
