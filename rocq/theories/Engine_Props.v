(** C31: unique notifications lose no wake-up. *)
From Verif Require Import Base Engine_Spec Engine_Model Engine_Proofs.

(** No thread has anything to do and no notification is queued. *)
Definition idle {a} (s : est a) : Prop := forall t, todo s t = [] /\ queue s t = [].

(** Whatever the algorithm, the threads, the graph changes and the schedule: once everything is
    quiet, every mailbox update reported as new was followed by an update cycle of its vertex.
    Mailboxes are read after [Began], so that cycle sees the update. *)
Theorem C31_no_lost_wakeup (a : alg) owner n b p es sched : (forall v, owner v < n)%nat ->
  idle (erun a owner (estart a b p es) sched) -> answered (elog (erun a owner (estart a b p es) sched)).
Proof.
  intros Hown Hidle l1 v l2 E.
  pose proof (wake_erun a owner n sched _ Hown (wake_start a owner n b p es)) as HW.
  destruct (decide (Began v ∈ l2)) as [|Hn]; [done|]. exfalso.
  destruct (w_told _ _ _ _ HW v ltac:(exists l1, l2; done)) as [Ha|(t & _ & Hw)].
  - rewrite (w_act _ _ _ _ HW v) in Ha. rewrite (proj2 (Hidle _)), sumt_zero in Ha; [simpl in Ha; lia|].
    intros k _. by rewrite (proj1 (Hidle k)).
  - rewrite (proj1 (Hidle t)) in Hw. destruct Hw as [Hw|[? Hw]]; by apply elem_of_nil in Hw.
Qed.

(** At any time before that: a vertex whose news is unanswered is queued, or some thread is about
    to queue it, to notify it, or to begin its update. *)
Theorem C31_wakeup_pending (a : alg) owner n b p es sched l1 v l2 : (forall v, owner v < n)%nat ->
  elog (erun a owner (estart a b p es) sched) = l1 ++ Told v :: l2 -> Began v ∉ l2 ->
  v ∈ queue (erun a owner (estart a b p es) sched) (owner v) \/
  exists t, Put v ∈ todo (erun a owner (estart a b p es) sched) t \/ Cas v ∈ todo (erun a owner (estart a b p es) sched) t
    \/ exists k, Begin v k ∈ todo (erun a owner (estart a b p es) sched) t.
Proof.
  intros Hown E Hn. set (s := erun _ _ _ _) in *.
  pose proof (wake_erun a owner n sched _ Hown (wake_start a owner n b p es)) as HW. fold s in HW.
  destruct (w_told _ _ _ _ HW v ltac:(exists l1, l2; done)) as [Ha|(t & _ & Hw)].
  - rewrite (w_act _ _ _ _ HW v) in Ha. destruct (decide (0 < occ v (queue s (owner v)))%nat) as [Hq|Hq]; [left; by apply occ_in|].
    destruct (sumt_pos (fun t => tokens a v (todo s t)) n) as (t & _ & Ht); [lia|]. right. exists t.
    assert (H : Put v ∈ todo s t \/ Dec v ∈ todo s t).
    { revert Ht. clear. induction (todo s t) as [|o l IH]; simpl; [lia|]. intros H. rewrite !elem_of_cons.
      destruct o; simpl in H; try (destruct IH as [?|?]; [lia|by left; right|by right; right]).
      - destruct (Nat.eqb_spec d v) as [->|]; [by left; left|]. destruct IH as [?|?]; [lia|by left; right|by right; right].
      - destruct (Nat.eqb_spec v0 v) as [->|]; [by right; left|]. destruct IH as [?|?]; [lia|by left; right|by right; right]. }
    destruct H as [H|H]; [by left|]. right. right. exists KUpd. rewrite (w_dec _ _ _ _ HW t v H).
    apply elem_of_list_further, elem_of_list_here.
  - right. exists t. destruct Hw as [Hw|Hw]; [by right; left|by right; right].
Qed.

(** At any time, a vertex has at most one queued notification, and only in the queue of the
    thread that owns it. *)
Theorem C31_one_notification (a : alg) owner n b p es sched t : (forall v, owner v < n)%nat ->
  NoDup (queue (erun a owner (estart a b p es) sched) t) /\
  forall v, v ∈ queue (erun a owner (estart a b p es) sched) t -> owner v = t.
Proof.
  intros Hown. set (s := erun _ _ _ _).
  pose proof (wake_erun a owner n sched _ Hown (wake_start a owner n b p es)) as HW. fold s in HW.
  split; [|apply (w_queue _ _ _ _ HW)].
  assert (H : forall v, (occ v (queue s t) <= 1)%nat).
  { intros v. destruct (decide (v ∈ queue s t)) as [Hin|Hin].
    - pose proof (w_queue _ _ _ _ HW t v Hin) as <-. pose proof (w_act _ _ _ _ HW v). pose proof (w_one _ _ _ _ HW v). lia.
    - rewrite occ_in in Hin. lia. }
  revert H. clear. induction (queue s t) as [|x l IH]; intros H; constructor.
  - rewrite occ_in. specialize (H x). simpl in H. rewrite Nat.eqb_refl in H. lia.
  - apply IH. intros v. specialize (H v). simpl in H. lia.
Qed.

(** A small algorithm: mailboxes keep the smallest number sent; a vertex passes on improvements. *)
Definition toy : alg := {|
  prop_t := nat; cell_t := nat; msg_t := nat; edge_t := unit;
  merge m _ _ b := match b with c :: _ => ([Nat.min m c], (m <? c)%nat) | [] => ([], false) end;
  take c := (c, c);
  react v k p es cs := match cs with c :: _ => if (c <? p)%nat then (c, map (fun e => (fst e, c)) es, []) else (p, [], []) | [] => (p, [], []) end |}.
Definition toy_edges (v : nat) : list (nat * unit) := match v with 0 => [(1, tt); (2, tt)] | 1 => [(2, tt)] | _ => [] end%nat.
Definition toy_start : est toy := estart toy (fun _ => [9%nat]) (fun _ => 9%nat) toy_edges.
Definition toy_owner (v : nat) : nat := (v mod 2)%nat.
(** Thread 0 owns 0 and 2, thread 1 owns 1.  While 1 is being told, thread 1 already reads its mail. *)
Definition runs (t k : nat) : list (nat * choice toy) := repeat (t, Run) k.
Definition toy_sched : list (nat * choice toy) :=
  ([(0, SendInit (a := toy) 0 3)] ++ runs 0 6 ++
   [(1, AddEdges (a := toy) 1 [])] ++ runs 1 9 ++    (* thread 1 reads the mailbox of 1 before it is notified *)
   runs 0 20 ++ [(1, Pop)] ++ runs 1 20 ++ [(0, Pop)] ++ runs 0 20)%nat.
Example C31_case :
  let s := erun toy toy_owner toy_start toy_sched in
  map (prop s) [0; 1; 2]%nat = [3; 3; 3]%nat /\ map (queue s) [0; 1]%nat = [[]; []] /\ map (todo s) [0; 1]%nat = [[]; []]
  /\ elog s = [Told 0; Began 0; Told 1; Began 1; Told 2; Began 1; Began 2]%nat.

Proof. vm_compute. done. Qed.
Print Assumptions C31_no_lost_wakeup.
Print Assumptions C31_wakeup_pending.
Print Assumptions C31_one_notification.
