(** C17, C47 and C49: medians, shuffling, result comparison. *)
From Verif Require Import Base Helpers_Spec Helpers_Model Helpers_Proofs.
Open Scope Z_scope.

(** C17, full statement ([Median l] is the median) refuted, for an odd and an even
    length. *)
Theorem C17_median_refuted :
  (exists l, length l = 3%nat /\ ~ median_of l (median l)) /\
  (exists l, length l = 4%nat /\ ~ median_of l (median l)).
Proof.
  split.
  - exists [1; 2; 4]. split; [done|]. intros [(k & Hk & Hm)|[(k & lo & hi & Hk & _) _]].
    + simpl in Hk. assert (k = 1%nat) as -> by lia. apply kth_sorted_copy in Hm.
      vm_compute in Hm. congruence.
    + simpl in Hk. lia.
  - exists [1; 2; 4; 8]. split; [done|]. intros [(k & Hk & Hm)|[_ H]].
    + simpl in Hk. lia.
    + specialize (H 1%nat 2 4 eq_refl).
      assert (kth [1; 2; 4; 8] 1 2) as H1 by (apply kth_sorted_copy; reflexivity).
      assert (kth [1; 2; 4; 8] (1 + 1) 4) as H2 by (apply kth_sorted_copy; reflexivity).
      specialize (H H1 H2). vm_compute in H. congruence.
Qed.
Print Assumptions C17_median_refuted.

(** C17, what is returned: with lo and hi the entries of rank n/2 - 1 and n/2, the
    upper one for even n and their mean for odd n. *)
Theorem C17_median_characterised : forall l lo hi, (2 <= length l)%nat ->
  kth l (length l / 2 - 1) lo -> kth l (length l / 2) hi ->
  median l = if (length l mod 2 =? 0)%nat then hi
             else if lo =? hi then hi else Z.quot (lo + hi) 2.
Proof. intros l lo hi Hl. exact (median_value l _ Hl eq_refl lo hi). Qed.
Print Assumptions C17_median_characterised.

(** C17, the weaker guarantee that does hold: it lies between those two entries. *)
Theorem C17_median_between : forall l lo hi, (2 <= length l)%nat ->
  kth l (length l / 2 - 1) lo -> kth l (length l / 2) hi -> lo <= median l <= hi.
Proof. exact median_between. Qed.
Print Assumptions C17_median_between.

Example C17_case : median [4; 1; 2] = 1 /\ median [9; 1; 7; 3] = 7 /\ median [5; 5; 1] = 3.
Proof. vm_compute. auto. Qed.

(** C47.  Shuffle permutes, whatever the random numbers. *)
Theorem C47_shuffle_permutes : forall (A : Type) (js : nat -> nat) (l : list A),
  Permutation (shuffle js l) l.
Proof. intros A js l. exact (shuffle_loop_perm (length l) js l 0). Qed.
Print Assumptions C47_shuffle_permutes.

(** C47.  Every permutation is the outcome of some legal random numbers
    (0 <= js i <= i), so no arrangement is excluded. *)
Theorem C47_shuffle_reaches_every_permutation : forall (A : Type) (l t : list A),
  Permutation t l -> exists js, (forall i, (js i <= i)%nat) /\ shuffle js l = t.
Proof. intros A l t. exact (shuffle_reaches l t). Qed.
Print Assumptions C47_shuffle_reaches_every_permutation.

(** C47.  RemoveRandomElement returns the chosen element and a slice with exactly
    the others. *)
Theorem C47_remove_random : forall (A : Type) (l : list A) (idx : nat),
  (idx < length l)%nat ->
  exists x l', remove_random l idx = Some (x, l') /\ nth_error l idx = Some x /\
          Permutation l (x :: l').
Proof. intros A l idx. exact (remove_random_ok l idx). Qed.
Print Assumptions C47_remove_random.

Example C47_case :
  shuffle (fun i => i / 2)%nat [1; 2; 3; 4] = [2; 4; 1; 3] /\
  remove_random [1; 2; 3; 4] 1 = Some (2, [1; 4; 3]).
Proof. vm_compute. auto. Qed.

(** C49.  ResultCompare (ignoreSize 0) panics exactly for one-element slices and
    when the second slice is shorter. *)
Theorem C49_result_compare_panics_exactly : forall w a b,
  result_compare w a b = None <->
  a <> [] /\ ((length b < length a)%nat \/ length a = 1%nat).
Proof. exact result_compare_panics. Qed.
Print Assumptions C49_result_compare_panics_exactly.

(** C49.  On unsigned values the reported total difference is the sum of |b - a|
    when b >= a everywhere ... *)
Theorem C49_unsigned_difference_one_sided : forall w a b s m p,
  Forall2 (fun x y => 0 <= x /\ x <= y /\ y < 2 ^ Z.of_N w) a b ->
  result_compare w a b = Some (s, m, p) -> s = l1_sum a b.
Proof.
  intros w a b s m p HF Hr. rewrite <- (zip_sum_exact w a b HF).
  destruct a as [|x a]; simpl in Hr; [inversion HF; subst; simpl; congruence|].
  unfold result_compare in Hr. repeat case_match; try done; simplify_eq; done.
Qed.
Print Assumptions C49_unsigned_difference_one_sided.

(** ... and not in general: the subtraction wraps. *)
Theorem C49_unsigned_difference_refuted : exists a b s m p,
  Forall2 (fun x y => 0 <= x < 2 ^ 32 /\ 0 <= y < 2 ^ 32) a b /\
  result_compare 32 a b = Some (s, m, p) /\ s <> l1_sum a b.
Proof.
  exists [1; 0], [0; 0], 4294967295, 8589934590, 4294967295.
  split; [repeat constructor; lia|]. vm_compute. split; [reflexivity|discriminate].
Qed.
Print Assumptions C49_unsigned_difference_refuted.

Example C49_case : result_compare 32 [1; 5; 2] [4; 5; 9] = Some (10, 3, 7).
Proof. vm_compute. reflexivity. Qed.
