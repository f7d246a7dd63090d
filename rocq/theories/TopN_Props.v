(** C06 and C48: index priority queue and top-N selection. *)
From Verif Require Import Base Heap_Spec Heap_Model Heap_Proofs TopN_Spec TopN_Model TopN_Proofs.

(** C06.  For every array and n >= 1 (or an empty array). *)
Theorem C06_top_n_correct :
  forall (A : Type) (lt : A -> A -> bool) (d : A), weak_order lt ->
  forall (arr : list A) (n : nat), 0 < n \/ arr = [] ->
    exists res, find_top_n lt d arr n = Some res /\ top_n lt arr n res.
Proof. intros A lt d W. exact (find_top_n_ok lt W d). Qed.
Print Assumptions C06_top_n_correct.

(** C06.  n = 0 on a non-empty array panics ([Peek] of an empty queue). *)
Theorem C06_top_zero_panics :
  forall (A : Type) (lt : A -> A -> bool) (d : A) (arr : list A),
    arr <> [] -> find_top_n lt d arr 0 = None.
Proof. intros A lt d arr. exact (find_top_zero_panics lt d arr). Qed.
Print Assumptions C06_top_zero_panics.

Example C06_case :
  find_top_n Nat.ltb 0 [3; 9; 1; 9; 7; 2] 4 = Some [(1, 9); (3, 9); (4, 7); (0, 3)].
Proof. vm_compute. reflexivity. Qed.

(** C48.  "A value inserted into the index queue is delivered (its index in the
    input is among those extracted)" is false for every non-empty queue: the index
    recorded is that of another element. *)
Theorem C48_inserted_value_never_indexed :
  forall (A : Type) (lt : A -> A -> bool) (d : A), weak_order lt ->
  forall (arr : list A) (v : A), arr <> [] ->
    let s := sf_insert lt d arr (sf_init lt d arr (length arr)) v in
    nth_error (fst s) (length arr) = Some v /\
    ~ In (length arr) (snd s) /\ ~ NoDup (snd s).
Proof.
  intros A lt d W arr v Ha s.
  pose proof (sf_insert_index lt W d arr v Ha) as P. fold s in P.
  assert (length arr <> 0) by (destruct arr; [done|simpl; lia]).
  split; [|split].
  - unfold s, sf_insert. simpl. rewrite nth_error_app2 by lia. by rewrite Nat.sub_diag.
  - intros Hin. eapply Permutation_in in Hin; [|exact P].
    destruct Hin as [Hin|Hin]; [lia|]. apply in_seq in Hin. lia.
  - rewrite P. intros Hnd. inversion_clear Hnd as [|? ? Hx _]. apply Hx.
    apply elem_of_list_In, in_seq. lia.
Qed.
Print Assumptions C48_inserted_value_never_indexed.

Example C48_case :
  sf_insert Nat.ltb 0 [5; 6] (sf_init Nat.ltb 0 [5; 6] 2) 4 = ([5; 6; 4], [0; 1; 1]).
Proof. vm_compute. reflexivity. Qed.
