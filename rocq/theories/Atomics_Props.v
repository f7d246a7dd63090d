(** C16: compare-and-swap helpers. *)
From Verif Require Import Base Atomics_Spec Atomics_Model Atomics_Proofs.

(** C16.  For every loop body [write], every number of threads and programs, and
    every schedule: the completed calls, in the order in which they complete, are a
    legal sequential history of indivisible operations ending in the present value
    of the cell, and each thread's completed calls are a prefix of its program. *)
Theorem C16_cas_loops_linearizable :
  forall (V Op : Type) (eqb : V -> V -> bool) (write : Op -> V -> option V),
    (forall a b, eqb a b = true -> a = b) ->
  forall (v0 : V) (progs : list (list Op)) (sched : list nat),
    let s := run eqb write (start v0 progs) sched in
    sequential (fun o v => match write o v with Some v' => v' | None => v end) v0 (log s) (cell s) /\
    (forall t p, progs !! t = Some p -> exists rest, p = ops_of t (log s) ++ rest).
Proof.
  intros V Op eqb write He v0 progs sched s.
  pose proof (inv_run eqb write He v0 progs sched _ (inv_start write v0 progs)) as Hi. fold s in Hi.
  split; [exact (iv_seq _ _ _ _ Hi)|].
  intros t p Hp. destruct (lookup_lt_is_Some_2 (threads s) t) as [th Hth].
  { rewrite (iv_len _ _ _ _ Hi). by eapply lookup_lt_Some. }
  exists (pending th). by apply (iv_prog _ _ _ _ Hi).
Qed.
Print Assumptions C16_cas_loops_linearizable.

(** Real-time order: the log of completed calls only ever grows at the end, so a
    call completed before another one starts precedes it. *)
Theorem C16_completion_order_append_only :
  forall (V Op : Type) (eqb : V -> V -> bool) (write : Op -> V -> option V) s sched1 sched2,
    exists more, log (run eqb write (run eqb write s sched1) sched2)
            = log (run eqb write s sched1) ++ more.
Proof. intros. apply run_log_prefix. Qed.
Print Assumptions C16_completion_order_append_only.

Lemma finished_log {V Op} (eqb : V -> V -> bool) (write : Op -> V -> option V)
    (He : forall a b, eqb a b = true -> a = b) v0 progs sched :
  let s := run eqb write (start v0 progs) sched in
  all_done s ->
  Permutation (map (fun c => snd (fst c)) (log s)) (concat progs) /\
  cell s = fold_left (fun v o => effect write o v) (map (fun c => snd (fst c)) (log s)) v0.
Proof.
  intros s Hd.
  pose proof (inv_run eqb write He v0 progs sched _ (inv_start write v0 progs)) as Hi. fold s in Hi.
  split.
  - apply log_is_all_ops; [exact (iv_log _ _ _ _ Hi)|]. by eapply done_ops.
  - rewrite (sequential_fold _ _ _ _ (iv_seq _ _ _ _ Hi)) at 1.
    generalize (log s). intros lg. generalize v0. induction lg as [|c lg IH]; intros v; simpl; [done|].
    apply IH.
Qed.

Lemma fold_left_ext {A B} (f g : A -> B -> A) l a :
  (forall a b, f a b = g a b) -> fold_left f l a = fold_left g l a.
Proof. intros H. revert a. induction l; intros; simpl; [done|]. by rewrite H. Qed.

Lemma fold_left_perm {A B} (f : A -> B -> A) l l' :
  (forall a b c, f (f a b) c = f (f a c) b) -> Permutation l l' ->
  forall a, fold_left f l a = fold_left f l' a.
Proof.
  intros Hc P. induction P; intros a; simpl; auto.
  - by rewrite Hc.
  - rewrite IHP1. apply IHP2.
Qed.

(** C16.  AtomicMin by any number of threads, once all calls are done: the cell is the
    minimum of the initial value and of all arguments. *)
Theorem C16_atomic_min_result : forall v0 progs sched,
  let s := run N.eqb min_write (start v0 progs) sched in
  all_done s -> cell s = fold_left N.min (concat progs) v0.
Proof.
  intros v0 progs sched s Hd.
  destruct (finished_log N.eqb min_write (fun a b => proj1 (N.eqb_eq a b)) v0 progs sched Hd) as [P Hc]; fold s in P, Hc; rewrite Hc.
  rewrite (fold_left_ext _ N.min).
  2:{ intros a b. unfold effect, min_write. destruct (a <=? b)%N eqn:E; lia. }
  apply fold_left_perm; [intros; lia|exact P].
Qed.
Print Assumptions C16_atomic_min_result.

(** C16.  AtomicMax likewise. *)
Theorem C16_atomic_max_result : forall v0 progs sched,
  let s := run N.eqb max_write (start v0 progs) sched in
  all_done s -> cell s = fold_left N.max (concat progs) v0.
Proof.
  intros v0 progs sched s Hd.
  destruct (finished_log N.eqb max_write (fun a b => proj1 (N.eqb_eq a b)) v0 progs sched Hd) as [P Hc]; fold s in P, Hc; rewrite Hc.
  rewrite (fold_left_ext _ N.max).
  2:{ intros a b. unfold effect, max_write. destruct (b <=? a)%N eqn:E; lia. }
  apply fold_left_perm; [intros; lia|exact P].
Qed.
Print Assumptions C16_atomic_max_result.

(** C16.  AtomicAdd: the cell is the sum, in exact arithmetic (integers here; for
    rounding floats the linearizability theorem still gives the sum in completion
    order). *)
Theorem C16_atomic_add_result : forall (v0 : Z) (progs : list (list Z)) sched,
  let s := run Z.eqb (add_write Z.add) (start v0 progs) sched in
  all_done s -> cell s = fold_left Z.add (concat progs) v0.
Proof.
  intros v0 progs sched s Hd.
  destruct (finished_log Z.eqb (add_write Z.add) (fun a b => proj1 (Z.eqb_eq a b)) v0 progs sched Hd)
    as [P Hc]; fold s in P, Hc; rewrite Hc.
  rewrite (fold_left_ext _ Z.add).
  2:{ intros a b. unfold effect, add_write. done. }
  apply fold_left_perm; [intros; lia|exact P].
Qed.
Print Assumptions C16_atomic_add_result.

(** Two threads adding 3, 4 and 5: a schedule with a failed CAS. *)
Example C16_case :
  let s := run Z.eqb (add_write Z.add) (start 10%Z [[3; 4]; [5]]%Z) [0; 1; 1; 0; 0; 0; 0; 0] in
  all_done s /\ log s = [(1, 5%Z, 10%Z); (0, 3%Z, 15%Z); (0, 4%Z, 18%Z)] /\ cell s = 22%Z.
Proof. vm_compute. repeat constructor. Qed.
