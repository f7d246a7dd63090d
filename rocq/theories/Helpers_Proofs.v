(** Proofs about the slice helpers. *)
From Verif Require Import Base Helpers_Spec Helpers_Model Heap_Proofs.
From stdpp Require Import sorting.
Open Scope Z_scope.

Lemma sorted_copy_perm n : Permutation (sorted_copy n) n.
Proof. apply merge_sort_Permutation. Qed.
Lemma sorted_copy_sorted n : Sorted Z.le (sorted_copy n).
Proof. apply Sorted_merge_sort. apply _. Qed.
Lemma sorted_copy_length n : length (sorted_copy n) = length n.
Proof. apply Permutation_length, sorted_copy_perm. Qed.

Lemma kth_sorted_copy l k x : kth l k x <-> nth_error (sorted_copy l) k = Some x.
Proof.
  split.
  - intros (s & P & Hs & Hk).
    assert (s = sorted_copy l) as <-; [|done].
    apply (Sorted_unique Z.le); [done|apply sorted_copy_sorted|].
    by rewrite P, sorted_copy_perm.
  - intros Hk. exists (sorted_copy l).
    split; [apply sorted_copy_perm|split; [apply sorted_copy_sorted|done]].
Qed.

Lemma kth_nth l k : (k < length l)%nat -> kth l k (nth k (sorted_copy l) 0).
Proof.
  intros Hk. apply kth_sorted_copy. apply nth_error_nth'. by rewrite sorted_copy_length.
Qed.
Lemma kth_fun l k x y : kth l k x -> kth l k y -> x = y.
Proof. rewrite !kth_sorted_copy. congruence. Qed.

Lemma kth_mono l j k x y : (j <= k)%nat -> kth l j x -> kth l k y -> x <= y.
Proof.
  intros Hjk Hx Hy. rewrite kth_sorted_copy in Hx, Hy.
  assert (Hs : StronglySorted Z.le (sorted_copy l)).
  { apply Sorted_StronglySorted; [intros ? ? ?; lia|apply sorted_copy_sorted]. }
  revert j k Hjk Hx Hy. induction Hs as [|a s Hs IH Hf]; intros j k Hjk Hx Hy.
  - by destruct j.
  - destruct j as [|j], k as [|k]; simpl in *; [|  |lia|].
    + injection Hx as ->. injection Hy as ->. lia.
    + injection Hx as ->. rewrite List.Forall_forall in Hf. apply Hf.
      by eapply nth_error_In.
    + eapply IH; [|done|done]. lia.
Qed.

(** What [Median] really returns. *)
Lemma median_value l k : (2 <= length l)%nat -> (k = length l / 2)%nat ->
  forall lo hi, kth l (k - 1) lo -> kth l k hi ->
  median l = if (length l mod 2 =? 0)%nat then hi
             else if lo =? hi then hi else Z.quot (lo + hi) 2.
Proof.
  intros Hl -> lo hi Hlo Hhi.
  assert (median l =
    let c := sorted_copy l in
      let idx := (length c / 2)%nat in
      if (length c mod 2 =? 0)%nat || (idx =? 0)%nat then nth idx c 0
      else if nth (idx - 1) c 0 =? nth idx c 0 then nth idx c 0
      else Z.quot (nth (idx - 1) c 0 + nth idx c 0) 2) as ->.
  { destruct l as [|x [|y l]]; simpl in Hl; [lia|lia|done]. }
  cbv zeta. rewrite sorted_copy_length.
  assert ((length l / 2)%nat <> 0)%nat as Hne by lia.
  apply Nat.eqb_neq in Hne. rewrite Hne, orb_false_r.
  rewrite (kth_fun _ _ _ _ Hlo (kth_nth l (length l / 2 - 1) ltac:(lia))).
  rewrite (kth_fun _ _ _ _ Hhi (kth_nth l (length l / 2) ltac:(lia))). done.
Qed.

Lemma median_between l lo hi : (2 <= length l)%nat ->
  kth l (length l / 2 - 1) lo -> kth l (length l / 2) hi -> lo <= median l <= hi.
Proof.
  intros Hl Hlo Hhi. rewrite (median_value l _ Hl eq_refl lo hi Hlo Hhi).
  assert (lo <= hi) by (eapply kth_mono; [|exact Hlo|exact Hhi]; lia).
  destruct (length l mod 2 =? 0)%nat; [lia|]. destruct (lo =? hi) eqn:E; [lia|].
  apply Z.eqb_neq in E. pose proof (Z.quot_rem' (lo + hi) 2).
  pose proof (Z.rem_bound_abs (lo + hi) 2 ltac:(lia)). lia.
Qed.

(** ** Shuffle *)
Section shuffle_proofs.
  Context {A : Type}.
  Implicit Types l : list A.

  Lemma swap2_swap l i j : swap2 l i j = Heap_Model.swap l i j.
  Proof. reflexivity. Qed.

  Lemma shuffle_loop_perm fuel js : forall l i, Permutation (shuffle_loop fuel js l i) l.
  Proof.
    induction fuel as [|f IH]; intros l i; simpl; [done|].
    rewrite IH, swap2_swap. apply swap_perm.
  Qed.

  Lemma swap2_length l i j : length (swap2 l i j) = length l.
  Proof. rewrite swap2_swap. apply swap_length. Qed.

  Lemma swap2_invol l i j : (i < length l)%nat -> (j < length l)%nat ->
    swap2 (swap2 l i j) i j = l.
  Proof.
    intros Hi Hj. apply list_eq. intros k. rewrite !swap2_swap.
    destruct (decide (k = i)) as [->|Hki].
    { rewrite swap_lookup_l by (rewrite swap_length; done). by apply swap_lookup_r. }
    destruct (decide (k = j)) as [->|Hkj].
    { rewrite swap_lookup_r by (rewrite swap_length; done). by apply swap_lookup_l. }
    by rewrite !swap_lookup_ne.
  Qed.

  (** The loop on a list with a tail it does not touch. *)
  Lemma shuffle_loop_app fuel js : forall l r i,
    (i + fuel <= length l)%nat -> (forall k, js k <= k)%nat ->
    shuffle_loop fuel js (l ++ r) i = shuffle_loop fuel js l i ++ r.
  Proof.
    induction fuel as [|f IH]; intros l r i Hi Hj; simpl; [done|].
    assert (swap2 (l ++ r) i (js i) = swap2 l i (js i) ++ r) as ->.
    { specialize (Hj i). unfold swap2. rewrite !lookup_app_l by lia.
      destruct (l !! i), (l !! js i); try done.
      rewrite (insert_app_l l) by lia. rewrite insert_app_l; [done|]. rewrite insert_length. lia. }
    apply IH; [rewrite swap2_length; lia|done].
  Qed.

  Lemma shuffle_loop_snoc fuel js : forall l i,
    shuffle_loop (S fuel) js l i = swap2 (shuffle_loop fuel js l i) (i + fuel) (js (i + fuel)%nat).
  Proof.
    induction fuel as [|f IH]; intros l i.
    - simpl. by rewrite Nat.add_0_r.
    - change (shuffle_loop (S (S f)) js l i)
        with (shuffle_loop (S f) js (swap2 l i (js i)) (S i)).
      rewrite IH. simpl. by replace (i + S f)%nat with (S (i + f)) by lia.
  Qed.

  Lemma shuffle_loop_ext fuel js js' : forall l i,
    (forall k, (i <= k < i + fuel)%nat -> js k = js' k) ->
    shuffle_loop fuel js l i = shuffle_loop fuel js' l i.
  Proof.
    induction fuel as [|f IH]; intros l i H; simpl; [done|].
    rewrite (H i) by lia. apply IH. intros k Hk. apply H. lia.
  Qed.

  Lemma shuffle_reaches l : forall t, Permutation t l ->
    exists js, (forall k, js k <= k)%nat /\ shuffle js l = t.
  Proof.
    induction l as [|x l IH] using rev_ind; intros t P.
    - apply Permutation_sym, Permutation_nil in P as ->. exists (fun _ => 0%nat). split; [lia|done].
    - set (n := length l).
      assert (Hlen : length t = S n).
      { rewrite (Permutation_length P), app_length. simpl. lia. }
      assert (Hx : x ∈ t).
      { rewrite P. apply elem_of_app. right. by left. }
      apply elem_of_list_lookup in Hx as [j Hj].
      assert (Hjn : (j < S n)%nat) by (rewrite <- Hlen; by eapply lookup_lt_Some).
      set (s := swap2 t n j).
      assert (Hsl : length s = S n) by (unfold s; by rewrite swap2_length).
      assert (Hsn : s !! n = Some x).
      { unfold s. rewrite swap2_swap, swap_lookup_l by lia. done. }
      assert (Hs : s = take n s ++ [x]).
      { rewrite <- (take_drop_middle s n x Hsn) at 1. rewrite (drop_ge s (S n)); [done|lia]. }
      assert (Ps : Permutation (take n s) l).
      { apply (Permutation_app_inv_r [x]). rewrite <- Hs. unfold s.
        rewrite swap2_swap, swap_perm. done. }
      destruct (IH _ Ps) as (js & Hjs & Hrun).
      exists (fun k => if (k =? n)%nat then j else js k). split.
      { intros k. destruct (k =? n)%nat eqn:E; [lia|apply Hjs]. }
      unfold shuffle. rewrite app_length. simpl length. rewrite Nat.add_1_r. fold n.
      rewrite shuffle_loop_snoc. simpl. rewrite Nat.eqb_refl.
      rewrite (shuffle_loop_ext _ _ js).
      2:{ intros k Hk. rewrite (proj2 (Nat.eqb_neq k n)); [done|lia]. }
      rewrite shuffle_loop_app by (try done; lia).
      change (shuffle_loop n js l 0) with (shuffle js l). rewrite Hrun, <- Hs. unfold s.
      apply swap2_invol; lia.
  Qed.

  Lemma remove_random_ok l idx : (idx < length l)%nat ->
    exists x l', remove_random l idx = Some (x, l') /\ nth_error l idx = Some x /\
            Permutation l (x :: l').
  Proof.
    intros Hi. unfold remove_random.
    destruct (lookup_lt_is_Some_2 l idx Hi) as [x Hx]. rewrite Hx.
    destruct (last l) as [z|] eqn:Hz; [|apply last_None in Hz; subst; simpl in *; lia].
    exists x, (take (length l - 1) (<[idx:=z]> l)). split; [done|].
    split; [by rewrite <- Hx, nth_error_lookup|].
    apply last_Some in Hz as [l0 ->]. rewrite app_length in *. simpl in *.
    replace (length l0 + 1 - 1)%nat with (length l0) by lia.
    destruct (decide (idx = length l0)) as [->|Hne].
    - rewrite list_lookup_middle in Hx by done. injection Hx as ->.
      rewrite list_insert_id by (by rewrite list_lookup_middle).
      rewrite take_app. by rewrite Permutation_app_comm.
    - assert (idx < length l0)%nat by lia.
      rewrite lookup_app_l in Hx by lia.
      rewrite insert_app_l by lia. rewrite take_app_alt by (by rewrite insert_length).
      destruct (insert_perm l0 idx x z Hx) as (r & P1 & P2).
      rewrite P2, P1, Permutation_app_comm. simpl. constructor.
  Qed.
End shuffle_proofs.

(** ** ResultCompare *)
Lemma result_compare_panics w a b :
  result_compare w a b = None <->
  a <> [] /\ ((length b < length a)%nat \/ length a = 1%nat).
Proof.
  unfold result_compare. destruct a as [|x a]; [split; [done|tauto]|].
  destruct (length b <? length (x :: a))%nat eqn:E.
  { split; [|done]. intros _. split; [done|]. left. by apply Nat.ltb_lt in E. }
  apply Nat.ltb_ge in E. rewrite sorted_copy_length, zip_with_length.
  rewrite Nat.min_l by done.
  destruct (length (x :: a) mod 2 =? 1)%nat eqn:Eo.
  - destruct (length (x :: a) / 2 =? 0)%nat eqn:Em.
    + split; [|done]. intros _. split; [done|]. right. cbn [length] in *. lia.
    + split; [done|]. intros [_ [H|H]]; [lia|]. rewrite H in Em. done.
  - split; [done|]. intros [_ [H|H]]; [lia|]. rewrite H in Eo. done.
Qed.

Lemma fold_left_add l z : fold_left Z.add l z = z + fold_left Z.add l 0.
Proof.
  revert z. induction l as [|x l IH]; intros z; simpl; [lia|].
  rewrite (IH (z + x)), (IH (0 + x)). lia.
Qed.

Lemma zip_sum_exact w a b :
  Forall2 (fun x y => 0 <= x /\ x <= y /\ y < 2 ^ Z.of_N w) a b ->
  fold_left Z.add (zip_with (l1_delta w) a b) 0 = l1_sum a b.
Proof.
  induction 1 as [|x y a b (H1 & H2 & H3) _ IH]; simpl; [done|].
  rewrite fold_left_add, IH. f_equal.
  change (0 + l1_delta w x y) with (l1_delta w x y). unfold l1_delta.
  rewrite Z.mod_small by lia. done.
Qed.
