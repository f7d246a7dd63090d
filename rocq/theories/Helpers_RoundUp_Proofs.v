(** Proofs about [round_up_pow]. *)
From Verif Require Import Base Helpers_RoundUp.
Open Scope N_scope.

(** [x] has bit [k] exactly when [n] has a bit among [k .. k+a-1]. *)
Definition smeared (n a x : N) : Prop :=
  forall k, N.testbit x k = true <-> exists t, t < a /\ N.testbit n (k + t) = true.

Lemma smeared_start n : smeared n 1 n.
Proof.
  intros k. split.
  - intros H. exists 0. rewrite N.add_0_r. split; [lia|done].
  - intros (t & Ht & H). assert (t = 0) as -> by lia. by rewrite N.add_0_r in H.
Qed.

Lemma smeared_step n a x :
  smeared n a x -> smeared n (2 * a) (N.lor x (N.shiftr x a)).
Proof.
  intros Hx k. rewrite N.lor_spec, N.shiftr_spec by lia.
  rewrite orb_true_iff. unfold smeared in Hx. rewrite !Hx. split.
  - intros [(t & Ht & H)|(t & Ht & H)].
    + exists t. split; [lia|done].
    + exists (a + t). split; [lia|]. by rewrite N.add_assoc.
  - intros (t & Ht & H). destruct (decide (t < a)).
    + left. by exists t.
    + right. exists (t - a). split; [lia|].
      replace (k + a + (t - a)) with (k + t) by lia. done.
Qed.

Lemma smeared_final n x :
  n < w64 -> smeared n 64 x -> x = N.ones (N.size n).
Proof.
  intros Hn Hx. apply N.bits_inj. intros k.
  apply eq_true_iff_eq. rewrite (Hx k).
  destruct (decide (n = 0)) as [->|Hn0].
  { change (N.size 0) with 0. rewrite N.ones_spec_high by lia.
    split; [|done]. intros (t & _ & H). by rewrite N.bits_0 in H. }
  rewrite N.size_log2 by done.
  destruct (decide (k <= N.log2 n)) as [Hk|Hk].
  - rewrite N.ones_spec_low by lia. split; [done|]. intros _.
    exists (N.log2 n - k). split.
    + assert (N.log2 n < 64); [|lia]. apply N.log2_lt_pow2; [lia|]. exact Hn.
    + replace (k + (N.log2 n - k)) with (N.log2 n) by lia. by apply N.bit_log2.
  - rewrite N.ones_spec_high by lia. split; [|done]. intros (t & _ & H).
    rewrite N.bits_above_log2 in H by lia. done.
Qed.

(** Closed form for the whole function. *)
Lemma round_up_pow_closed i :
  1 <= i -> i <= w64 -> round_up_pow i = 2 ^ N.size (i - 1) mod w64.
Proof.
  intros H1 H2. unfold round_up_pow.
  assert (E : (i + (w64 - 1)) mod w64 = i - 1).
  { replace (i + (w64 - 1)) with ((i - 1) + 1 * w64) by wordlia.
    rewrite N.mod_add by done. apply N.mod_small. lia. }
  rewrite E. clear E.
  set (n := i - 1). assert (Hn : n < w64) by (unfold n; lia). clearbody n.
  cbv zeta.
  match goal with |- (?x + 1) mod _ = _ => rewrite (smeared_final n x Hn) end.
  { rewrite N.ones_equiv.
    assert (Hp : 2 ^ N.size n <> 0) by (apply N.pow_nonzero; lia).
    rewrite N.add_1_r, N.succ_pred by done. done. }
  change 64 with (2 * 32) at 1. apply smeared_step.
  change 32 with (2 * 16) at 1. apply smeared_step.
  change 16 with (2 * 8) at 1. apply smeared_step.
  change 8 with (2 * 4) at 1. apply smeared_step.
  change 4 with (2 * 2) at 1. apply smeared_step.
  change 2 with (2 * 1) at 1. apply smeared_step.
  apply smeared_start.
Qed.

Lemma size_pow_bounds n : n < 2 ^ N.size n /\ (n <> 0 -> 2 ^ (N.size n - 1) <= n).
Proof.
  split; [apply N.size_gt|]. intros Hn. rewrite N.size_log2 by done.
  replace (N.succ (N.log2 n) - 1) with (N.log2 n) by lia.
  apply N.log2_spec. lia.
Qed.

(** In range: the least power of two that is at least [i]. *)
Lemma round_up_pow_in_range i :
  1 <= i -> i <= 2 ^ 63 ->
  exists k, round_up_pow i = 2 ^ k /\ k <= 63 /\ i <= 2 ^ k /\
            forall j, i <= 2 ^ j -> 2 ^ k <= 2 ^ j.
Proof.
  intros H1 H2.
  assert (Hsz : N.size (i - 1) <= 63).
  { destruct (decide (i - 1 = 0)) as [->|Hn]; [done|].
    rewrite N.size_log2 by done.
    assert (N.log2 (i - 1) < 63); [|lia]. apply N.log2_lt_pow2; lia. }
  exists (N.size (i - 1)).
  destruct (size_pow_bounds (i - 1)) as [B1 B2].
  split; [|split; [done|split; [lia|]]].
  - rewrite round_up_pow_closed by wordlia. apply N.mod_small.
    apply N.le_lt_trans with (2 ^ 63); [|done]. apply N.pow_le_mono_r; lia.
  - intros j Hj. apply N.pow_le_mono_r; [lia|].
    destruct (decide (i - 1 = 0)) as [->|Hn]; [cbn; lia|].
    specialize (B2 Hn).
    assert (2 ^ (N.size (i - 1) - 1) < 2 ^ j) as Hlt by lia.
    apply N.pow_lt_mono_r_iff in Hlt; lia.
Qed.

(** Out of range (0, or above 2^63): the result wraps to 0. *)
Lemma round_up_pow_out_of_range i :
  i < w64 -> (i = 0 \/ 2 ^ 63 < i) -> round_up_pow i = 0.
Proof.
  intros Hi [->|Hb]; [by vm_compute|].
  rewrite round_up_pow_closed by lia.
  assert (Hs : N.size (i - 1) = 64).
  { rewrite N.size_log2 by lia.
    assert (N.log2 (i - 1) = 63); [|lia].
    apply N.log2_unique; unfold w64 in Hi; cbn in *; lia. }
  rewrite Hs. by vm_compute.
Qed.
