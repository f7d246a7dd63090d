(** C07 and C50: the deque. *)
From Verif Require Import Base Deque_Spec Deque_Model Deque_Proofs.

(** C07: after [Init], any sequence of operations returns, step by step, what the list does,
    and never panics. *)
Theorem C07_deque_refines_list {T} (zero : T) : forall os : list (dq_op T),
  option_map snd (dq_run zero dq_init os) = Some (dq_spec_run [] os).
Proof.
  intros os. destruct (run_ok zero dq_init os) as (d & -> & _); [by left|]. done.
Qed.
Print Assumptions C07_deque_refines_list.

(** Two orders at once: what goes in at one end comes out at that end last and at the other
    first. Stated on any reachable deque, over the results only. *)
Theorem C07_fifo_and_lifo {T} (zero : T) : forall (os : list (dq_op T)) (vs : list T),
  exists pre,
    option_map snd (dq_run zero dq_init (os ++ map PushBack vs ++ repeat PopBack (length vs)))
      = Some (pre ++ map (fun _ => Done) vs ++ map Elem (rev vs)) /\
    option_map snd (dq_run zero dq_init (os ++ map PushFront vs ++ repeat PopFront (length vs)))
      = Some (pre ++ map (fun _ => Done) vs ++ map Elem (rev vs)) /\
    option_map snd (dq_run zero dq_init os) = Some pre.
Proof.
  intros os vs. exists (dq_spec_run [] os). rewrite !C07_deque_refines_list.
  assert (Happ : forall (l : list T) a b, exists l', dq_spec_run l (a ++ b) = dq_spec_run l a ++ dq_spec_run l' b).
  { intros l a b. revert l. induction a as [|o a IH]; intros l; simpl; [by exists l|].
    destruct (dq_spec l o) as [l1 r]. destruct (IH l1) as (l' & ->). by exists l'. }
  split; [|split; [|done]].
  - f_equal. destruct (Happ [] os (map PushBack vs ++ repeat PopBack (length vs))) as (l & ->). f_equal.
    revert l. induction vs as [|v vs IH] using rev_ind; intros l; [done|].
    assert (Hpb : forall (l : list T) ws b, dq_spec_run l (map PushBack ws ++ b) =
              map (fun _ => Done) ws ++ dq_spec_run (l ++ ws) b).
    { intros l0 ws b. revert l0. induction ws as [|w ws IHw]; intros l0; simpl; [by rewrite app_nil_r|].
      rewrite IHw, <- app_assoc. done. }
    rewrite Hpb in *. f_equal. rewrite app_length, Nat.add_comm, rev_app_distr. simpl.
    unfold last_opt. rewrite app_assoc, rev_app_distr. simpl.
    rewrite removelast_app by done. simpl. rewrite app_nil_r. f_equal.
    specialize (IH l). rewrite Hpb in IH. by apply app_inv_head in IH.
  - f_equal. destruct (Happ [] os (map PushFront vs ++ repeat PopFront (length vs))) as (l & ->). f_equal.
    assert (Hpf : forall (l : list T) ws b, dq_spec_run l (map PushFront ws ++ b) =
              map (fun _ => Done) ws ++ dq_spec_run (rev ws ++ l) b).
    { intros l0 ws b. revert l0. induction ws as [|w ws IHw]; intros l0; simpl; [done|].
      rewrite IHw, <- app_assoc. done. }
    rewrite Hpf. f_equal. rewrite <- (rev_length vs). generalize (rev vs). intros ws.
    induction ws as [|w ws IH]; simpl; [done|]. by rewrite IH.
Qed.
Print Assumptions C07_fifo_and_lifo.

(** Without [Init] the accessors on an empty deque dereference a nil pointer. *)
Theorem C07_zero_value_panics {T} (zero : T) : forall o : dq_op T,
  (dq_exec zero dq_zero o = None <->
   o = PopFront \/ o = TryUpdatePopFront \/ o = PopBack \/ o = Front \/ o = Back).
Proof.
  intros o. split.
  - destruct o; simpl; try done; tauto.
  - intros [-> | [-> | [-> | [-> | ->]]]]; done.
Qed.
Print Assumptions C07_zero_value_panics.

(** C50: without [PushFront], the spare nodes kept are exactly [spareLinks] many, never more
    than 5. *)
Theorem C50_spare_bounded {T} (zero : T) : forall (os : list (dq_op T)) d rs,
  Forall (fun o => match o with PushFront _ => False | _ => True end) os ->
  dq_run zero dq_init os = Some (d, rs) ->
  Z.of_nat (length (spare d)) = spareLinks d /\ length (spare d) <= 5.
Proof.
  intros os d rs Hn H. destruct (run_spare zero _ _ _ _ (or_introl eq_refl) H Hn) as [H1 H2]; [done|].
  split; [done|]. lia.
Qed.
Print Assumptions C50_spare_bounded.

(** With [PushFront] both the count and the bound fail. [PushFront] on an empty deque whose
    head index is 0 takes the previous node as its (only) one and puts the old one back among
    the spare nodes, but still decrements [spareLinks] (utils/deque.go:143-156). *)
Definition spare_leak (n : nat) : list (dq_op nat) :=
  repeat (PushBack 0) 1600 ++ repeat PopBack 1280 ++ repeat PopFront 320 ++
  repeat (PushFront 0) 255 ++ repeat PopBack 255 ++
  concat (repeat (repeat (PushFront 1) 256 ++ repeat PopBack 256) n).
Theorem C50_spare_bound_refuted :
  let counts os := option_map (fun r => (length (spare (fst r)), spareLinks (fst r))) (dq_run 0 dq_init os) in
  counts (spare_leak 10) = Some (5, (-5)%Z) /\
  counts (spare_leak 10 ++ repeat (PushBack 0) 4000 ++ repeat PopFront 4000) = Some (15, 5%Z).
Proof. vm_compute. done. Qed.
Print Assumptions C50_spare_bound_refuted.

(** A run through every kind of block: the first slices 4, 16, 64, then 256, wrapping from
    spare nodes at both ends. *)
Example C07_case :
  option_map snd (dq_run 0 dq_init [PushBack 1; PushFront 2; FastSlowPushBack 3; Front; Back; Len; PopBack;
                                    TryUpdatePopFront; PopFront; PopFront; PopBack; Len])
  = Some [Done; Done; Done; Elem 2; Elem 3; Size 3; Elem 3; Elem 2; Elem 1; Empty; Empty; Size 0].
Proof. vm_compute. done. Qed.
Example C07_case_long :
  option_map (fun r => last_opt (snd r))
    (dq_run 0 dq_init (map PushBack (seq 0 1000) ++ repeat PopFront 900 ++ map PushFront (seq 0 600) ++
                       map FastSlowPushBack (seq 5000 700) ++ repeat PopBack 1300 ++ [Front])) = Some (Some (Elem 599)).
Proof. vm_compute. done. Qed.
