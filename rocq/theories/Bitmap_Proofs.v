(** Proofs about the bitmap model. *)
From Verif Require Import Base Helpers_RoundUp Helpers_RoundUp_Proofs Bitmap_Spec Bitmap_Model.
Open Scope N_scope.

Definition bit_at (ws : list N) (x : N) : Prop :=
  exists w, ws !! word_idx x = Some w /\ N.testbit w (bit_idx x) = true.

Record bm_inv (b : bitmap) (S : N -> Prop) : Prop := {
  inv_len : (len b <= length (mem b))%nat;
  inv_small : forall i w, mem b !! i = Some w -> w < w64;
  inv_tail : forall i w, (len b <= i)%nat -> mem b !! i = Some w -> w = 0;
  inv_nil : isnil b = true -> mem b = [];
  inv_set : forall x, S x <-> bit_at (mem b) x }.

Lemma bm_inv_empty : bm_inv bm_empty empty_set.
Proof.
  split; simpl; try done.
  intros x. split; [done|]. by intros (w & Hw & _).
Qed.

Lemma bit_at_app_zeros ws n x :
  bit_at (ws ++ replicate n 0) x <-> bit_at ws x.
Proof.
  unfold bit_at. split; intros (w & Hw & Hb).
  - apply lookup_app_Some in Hw as [Hw|[_ Hw]]; [by exists w|].
    apply lookup_replicate in Hw as [-> _]. by rewrite N.bits_0 in Hb.
  - exists w. split; [|done]. by apply lookup_app_l_Some.
Qed.

Lemma bit_at_take b S x : bm_inv b S -> bit_at (words b) x <-> bit_at (mem b) x.
Proof.
  intros Hi. unfold bit_at, words. split; intros (w & Hw & Hb).
  - apply lookup_take_Some in Hw as [Hw _]. by exists w.
  - exists w. split; [|done]. apply lookup_take_Some. split; [done|].
    destruct (decide (word_idx x < len b)%nat); [done|].
    assert (w = 0) as -> by (eapply inv_tail; [done| |done]; lia).
    by rewrite N.bits_0 in Hb.
Qed.

Lemma resize_loop_ge fuel c v :
  256 <= c -> v + 1 - c <= 256 * N.of_nat fuel -> v + 1 <= resize_loop fuel c v.
Proof.
  revert c. induction fuel as [|f IH]; intros c Hc Hf; simpl; [lia|].
  destruct ((0 <? c) && (c <? v + 1)) eqn:E.
  - apply IH; lia.
  - lia.
Qed.

Lemma resize_ge c v : v <= 2 ^ 26 + 1 -> v <= resize c v.
Proof.
  intros Hv. unfold resize. destruct (v <? 256) eqn:E.
  - destruct (round_up_pow_in_range (v + 1)) as (k & -> & _ & Hk & _); [lia| |lia].
    change (2 ^ 63) with 9223372036854775808. lia.
  - assert (v + 1 <= resize_loop (N.to_nat (v + 1)) (if c <? 256 then 256 else c) v);
      [|lia].
    apply resize_loop_ge; destruct (c <? 256) eqn:E2; lia.
Qed.

Lemma word_idx_le x : x < 2 ^ 32 -> (N.of_nat (word_idx x) < 2 ^ 26).
Proof.
  intros Hx. unfold word_idx. rewrite N2Nat.id, N.shiftr_div_pow2.
  apply N.div_lt_upper_bound; [done|]. exact Hx.
Qed.

Lemma grow_to_inv b S idx :
  bm_inv b S -> (N.of_nat idx < 2 ^ 26) -> (len b <= idx)%nat ->
  bm_inv (grow_to b idx) S /\ len (grow_to b idx) = Datatypes.S idx /\
  isnil (grow_to b idx) = false.
Proof.
  intros Hi Hidx Hlen. unfold grow_to.
  destruct (idx <? length (mem b))%nat eqn:E.
  - split; [|done]. destruct Hi as [H1 H2 H3 H4 H5]. split; simpl; try done.
    + lia.
    + intros i w Hge. apply H3. lia.
  - split; [|done].
    set (newcap := N.to_nat _).
    assert (Hcap : (Datatypes.S idx <= newcap)%nat).
    { unfold newcap.
      assert (N.of_nat (Datatypes.S idx) <=
              resize (N.of_nat (length (mem b))) (N.of_nat (Datatypes.S idx))); [|lia].
      apply resize_ge. change (2 ^ 26) with 67108864 in *. lia. }
    destruct Hi as [H1 H2 H3 H4 H5].
    assert (Hwl : length (words b) = len b).
    { unfold words. rewrite take_length. lia. }
    split; simpl; try done.
    + rewrite app_length, Hwl, replicate_length. lia.
    + intros i w Hw. apply lookup_app_Some in Hw as [Hw|[_ Hw]].
      * apply lookup_take_Some in Hw as [Hw _]. by eapply H2.
      * apply lookup_replicate in Hw as [-> _]. done.
    + intros i w Hge Hw. apply lookup_app_Some in Hw as [Hw|[_ Hw]].
      * apply lookup_lt_Some in Hw. lia.
      * by apply lookup_replicate in Hw as [-> _].
    + intros x. rewrite H5, bit_at_app_zeros. symmetry.
      eapply bit_at_take. by split.
Qed.

Lemma word_bit_inj x y : word_idx x = word_idx y -> bit_idx x = bit_idx y -> x = y.
Proof.
  unfold word_idx, bit_idx. rewrite !N.shiftr_div_pow2.
  change (2 ^ 6) with 64. intros H1 H2. apply N2Nat.inj in H1. lia.
Qed.

Lemma or_bit_inv b S x :
  bm_inv b S -> (word_idx x < len b)%nat ->
  bm_inv (or_bit b (word_idx x) (bit_idx x)) (add_elem S x).
Proof.
  intros [H1 H2 H3 H4 H5] Hlt. unfold or_bit.
  assert (Hbit : bit_idx x < 64) by (unfold bit_idx; lia).
  split; simpl.
  - by rewrite alter_length.
  - intros i w Hw. destruct (decide (i = word_idx x)) as [->|Hne].
    + rewrite list_lookup_alter in Hw.
      destruct (mem b !! word_idx x) as [w0|] eqn:E; [|done].
      simpl in Hw. injection Hw as <-. specialize (H2 _ _ E).
      destruct (decide (N.lor w0 (N.shiftl 1 (bit_idx x)) = 0)) as [->|Hn0]; [done|].
      apply N.log2_lt_pow2; [lia|]. rewrite N.log2_lor.
      apply N.max_lub_lt.
      * destruct (decide (w0 = 0)) as [->|]; [by vm_compute|].
        apply N.log2_lt_pow2; [lia|done].
      * rewrite N.shiftl_1_l, N.log2_pow2 by lia. done.
    + rewrite list_lookup_alter_ne in Hw by done. by eapply H2.
  - intros i w Hge Hw. rewrite list_lookup_alter_ne in Hw by lia. by eapply H3.
  - intros Hn. rewrite (H4 Hn) in H1. simpl in H1. lia.
  - intros y. unfold add_elem. rewrite H5. unfold bit_at. split.
    + intros [->|(w & Hw & Hb)].
      * assert (is_Some (mem b !! word_idx x)) as [w0 Hw0].
        { apply lookup_lt_is_Some. lia. }
        exists (N.lor w0 (N.shiftl 1 (bit_idx x))). split.
        { by rewrite list_lookup_alter, Hw0. }
        rewrite N.lor_spec, N.shiftl_1_l, N.pow2_bits_true. apply orb_true_r.
      * destruct (decide (word_idx y = word_idx x)) as [He|Hne].
        { exists (N.lor w (N.shiftl 1 (bit_idx x))). split.
          - rewrite He, list_lookup_alter. rewrite He in Hw. by rewrite Hw.
          - by rewrite N.lor_spec, Hb. }
        { exists w. rewrite list_lookup_alter_ne by done. done. }
    + intros (w & Hw & Hb).
      destruct (decide (word_idx y = word_idx x)) as [He|Hne].
      * rewrite He, list_lookup_alter in Hw.
        destruct (mem b !! word_idx x) as [w0|] eqn:E; [|done].
        simpl in Hw. injection Hw as <-.
        rewrite N.lor_spec in Hb. apply orb_true_iff in Hb as [Hb|Hb].
        { right. exists w0. by rewrite He. }
        { left. rewrite N.shiftl_1_l in Hb.
          destruct (decide (bit_idx x = bit_idx y)) as [Heb|Hneb].
          - by apply word_bit_inj.
          - by rewrite N.pow2_bits_false in Hb. }
      * rewrite list_lookup_alter_ne in Hw by done. right. by exists w.
Qed.

Lemma set_inv b S x :
  bm_inv b S -> x < 2 ^ 32 -> bm_inv (set b x) (add_elem S x).
Proof.
  intros Hi Hx. unfold set. destruct (len b <=? word_idx x)%nat eqn:E.
  - destruct (grow_to_inv b S (word_idx x)) as (Hg & Hl & _);
      [done|by apply word_idx_le|lia|]. apply or_bit_inv; [done|lia].
  - apply or_bit_inv; [done|lia].
Qed.

Lemma grow_inv b S x : bm_inv b S -> x < 2 ^ 32 -> bm_inv (grow b x) S.
Proof.
  intros Hi Hx. unfold grow.
  destruct ((len b <? word_idx x)%nat || isnil b) eqn:E; [|done].
  apply grow_to_inv; [done|by apply word_idx_le|].
  apply orb_true_iff in E as [E|E]; [lia|].
  destruct Hi as [H1 _ _ H4 _]. rewrite (H4 E) in H1. simpl in H1. lia.
Qed.

Lemma zeroes_inv b S : bm_inv b S -> bm_inv (zeroes b) empty_set.
Proof.
  intros Hi. destruct Hi as [H1 H2 H3 H4 H5]. unfold zeroes.
  assert (Hz : forall i w, (replicate (length (words b)) 0 ++ drop (len b) (mem b)) !! i = Some w
                      -> w = 0).
  { intros i w Hw. apply lookup_app_Some in Hw as [Hw|[_ Hw]].
    - by apply lookup_replicate in Hw as [-> _].
    - rewrite lookup_drop in Hw. eapply H3; [|done]. lia. }
  split; simpl.
  - rewrite app_length, replicate_length, drop_length. unfold words.
    rewrite take_length. lia.
  - intros i w Hw. by rewrite (Hz _ _ Hw).
  - intros i w _ Hw. by eapply Hz.
  - intros Hn. unfold words. by rewrite (H4 Hn), take_nil, drop_nil.
  - intros x. split; [done|]. intros (w & Hw & Hb).
    rewrite (Hz _ _ Hw), N.bits_0 in Hb. done.
Qed.

(** Trailing ones. *)
Lemma trailing_ones_spec fuel w :
  (forall k, k < trailing_ones fuel w -> N.testbit w k = true) /\
  trailing_ones fuel w <= N.of_nat fuel /\
  (trailing_ones fuel w < N.of_nat fuel -> N.testbit w (trailing_ones fuel w) = false).
Proof.
  revert w. induction fuel as [|f IH]; intros w; simpl trailing_ones.
  - split; [lia|split; lia].
  - destruct (N.odd w) eqn:E.
    + destruct (IH (N.div2 w)) as (I1 & I2 & I3). split; [|split].
      * intros k Hk. destruct (decide (k = 0)) as [->|].
        { by rewrite N.bit0_odd. }
        { replace k with (N.succ (k - 1)) by lia.
          rewrite N.testbit_succ_r_div2 by lia. apply I1. lia. }
      * lia.
      * intros Hlt. rewrite N.add_1_l, N.testbit_succ_r_div2 by lia. apply I3. lia.
    + split; [lia|split; [lia|]]. intros _. by rewrite N.bit0_odd.
Qed.

Lemma trailing_ones_lt_64 w : w < w64 -> w <> full_word -> trailing_ones 64 w < 64.
Proof.
  intros Hw Hne. destruct (trailing_ones_spec 64 w) as (T1 & T2 & _).
  change (N.of_nat 64) with 64 in T2.
  destruct (decide (trailing_ones 64 w = 64)) as [E|]; [|lia].
  exfalso. apply Hne. change full_word with (N.ones 64). apply N.bits_inj.
  intros k. destruct (decide (k < 64)).
  - rewrite N.ones_spec_low by done. apply T1. lia.
  - rewrite N.ones_spec_high by lia.
    destruct (decide (w = 0)) as [->|]; [apply N.bits_0|].
    apply N.bits_above_log2. apply N.lt_le_trans with 64; [|lia].
    apply N.log2_lt_pow2; [lia|done].
Qed.

Lemma full_word_bits k : k < 64 -> N.testbit full_word k = true.
Proof. intros H. change full_word with (N.ones 64). by apply N.ones_spec_low. Qed.

Lemma word_idx_shift i t : t < 64 -> word_idx (N.shiftl i 6 + t) = N.to_nat i.
Proof.
  intros Ht. unfold word_idx. f_equal.
  rewrite N.shiftl_mul_pow2, N.shiftr_div_pow2. change (2 ^ 6) with 64. lia.
Qed.
Lemma bit_idx_shift i t : t < 64 -> bit_idx (N.shiftl i 6 + t) = t.
Proof.
  intros Ht. unfold bit_idx. rewrite N.shiftl_mul_pow2. change (2 ^ 6) with 64. lia.
Qed.

(** [first_unused_from] scans [ws] as the words from index [i] on. *)
Lemma first_unused_from_spec pre ws :
  (forall w, w ∈ pre -> w = full_word) ->
  (forall w, w ∈ ws -> w < w64) ->
  exists m, least_unused (bit_at (pre ++ ws)) m /\
            first_unused_from (N.of_nat (length pre)) ws = m mod 2 ^ 32.
Proof.
  revert pre. induction ws as [|w ws IH]; intros pre Hpre Hws;
    cbn [first_unused_from].
  - exists (N.shiftl (N.of_nat (length pre)) 6). split; [|done].
    rewrite app_nil_r. split.
    + intros (w & Hw & _).
      replace (N.shiftl (N.of_nat (length pre)) 6)
        with (N.shiftl (N.of_nat (length pre)) 6 + 0) in Hw by lia.
      rewrite word_idx_shift in Hw by lia. apply lookup_lt_Some in Hw. lia.
    + intros k Hk. unfold bit_at.
      assert ((word_idx k < length pre)%nat) as Hlt.
      { unfold word_idx. rewrite N.shiftr_div_pow2. rewrite N.shiftl_mul_pow2 in Hk.
        change (2 ^ 6) with 64 in *. lia. }
      apply lookup_lt_is_Some in Hlt as [w Hw]. exists w. split; [done|].
      rewrite (Hpre w) by (by eapply elem_of_list_lookup_2). apply full_word_bits.
      unfold bit_idx. lia.
  - destruct (w =? full_word) eqn:E.
    + apply N.eqb_eq in E. subst w.
      destruct (IH (pre ++ [full_word])) as (m & Hm & Hr).
      * intros w Hw. apply elem_of_app in Hw as [Hw|Hw]; [by apply Hpre|].
        by apply elem_of_list_singleton in Hw.
      * intros w Hw. apply Hws. by right.
      * exists m. rewrite <- app_assoc in Hm. split; [done|].
        rewrite app_length in Hr. simpl in Hr. rewrite <- Hr. f_equal. lia.
    + apply N.eqb_neq in E.
      assert (Hw64 : w < w64) by (apply Hws; by left).
      pose proof (trailing_ones_lt_64 w Hw64 E) as Hlt.
      destruct (trailing_ones_spec 64 w) as (T1 & _ & T3).
      change (N.of_nat 64) with 64 in T3. specialize (T3 Hlt).
      exists (N.shiftl (N.of_nat (length pre)) 6 + trailing_ones 64 w). split; [|done].
      split.
      * intros (w' & Hw' & Hb). rewrite word_idx_shift in Hw' by done.
        rewrite bit_idx_shift in Hb by done. rewrite Nat2N.id in Hw'.
        rewrite list_lookup_middle in Hw' by done. injection Hw' as <-.
        by rewrite T3 in Hb.
      * intros k Hk. unfold bit_at.
        destruct (decide (word_idx k < length pre)%nat) as [Hkl|Hkl].
        { pose proof Hkl as Hkl'. apply lookup_lt_is_Some in Hkl' as [w' Hw'].
          exists w'. rewrite lookup_app_l by done. split; [done|].
          rewrite (Hpre w') by (by eapply elem_of_list_lookup_2).
          apply full_word_bits. unfold bit_idx. lia. }
        assert (word_idx k = length pre) as Hwk.
        { unfold word_idx in *. rewrite N.shiftr_div_pow2 in *.
          rewrite N.shiftl_mul_pow2 in Hk. change (2 ^ 6) with 64 in *. lia. }
        exists w. rewrite Hwk, list_lookup_middle by done. split; [done|].
        apply T1. unfold word_idx in Hwk. unfold bit_idx.
        rewrite N.shiftr_div_pow2 in *. rewrite N.shiftl_mul_pow2 in Hk.
        change (2 ^ 6) with 64 in *. lia.
Qed.

Lemma first_unused_spec b S :
  bm_inv b S -> exists m, least_unused S m /\ first_unused b = m mod 2 ^ 32.
Proof.
  intros Hi. destruct (first_unused_from_spec [] (words b)) as (m & [M1 M2] & Hr).
  - intros w Hw. by apply elem_of_nil in Hw.
  - intros w Hw. unfold words in Hw. apply elem_of_list_lookup in Hw as [i Hw].
    apply lookup_take_Some in Hw as [Hw _]. by eapply (inv_small _ _ Hi).
  - exists m. split; [|exact Hr]. simpl in M1, M2. split.
    + intros HS. apply M1. eapply bit_at_take; [done|]. by apply (inv_set _ _ Hi).
    + intros k Hk. apply (inv_set _ _ Hi). eapply bit_at_take; [done|]. by apply M2.
Qed.

Lemma bm_exec_refines b S o b' r :
  bm_inv b S -> op_ok o -> bm_exec b o = (b', r) ->
  exists S', bm_step S o r S' /\ bm_inv b' S'.
Proof.
  intros Hi Ho He. destruct o as [x|x|x| |]; simpl in *.
  - injection He as <- <-. exists (add_elem S x). split; [constructor|by apply set_inv].
  - unfold quick_set in He. destruct (len b <=? word_idx x)%nat eqn:E;
      injection He as <- <-.
    + exists S. split; [constructor|done].
    + exists (add_elem S x). split; [constructor|]. apply or_bit_inv; [done|lia].
  - injection He as <- <-. exists S. split; [constructor|by apply grow_inv].
  - injection He as <- <-. exists empty_set. split; [constructor|by eapply zeroes_inv].
  - injection He as <- <-. exists S. split; [|done].
    destruct (first_unused_spec b S Hi) as (m & Hm & ->). by constructor.
Qed.

Lemma bm_run_refines b S os b' rs :
  bm_inv b S -> Forall op_ok os -> bm_run b os = (b', rs) ->
  exists S', bm_steps S os rs S' /\ bm_inv b' S'.
Proof.
  revert b S b' rs. induction os as [|o os IH]; intros b S b' rs Hi Ho Hr; simpl in Hr.
  - injection Hr as <- <-. exists S. split; [constructor|done].
  - inversion_clear Ho as [|? ? Ho1 Ho2].
    destruct (bm_exec b o) as [b1 r] eqn:E1.
    destruct (bm_run b1 os) as [b2 rs'] eqn:E2. injection Hr as <- <-.
    destruct (bm_exec_refines _ _ _ _ _ Hi Ho1 E1) as (S1 & Hs1 & Hi1).
    destruct (IH _ _ _ _ Hi1 Ho2 E2) as (S2 & Hs2 & Hi2).
    exists S2. split; [by econstructor|done].
Qed.

Lemma bm_run_from_empty os b' rs :
  Forall op_ok os -> bm_run bm_empty os = (b', rs) ->
  exists S', bm_steps empty_set os rs S'.
Proof.
  intros Ho Hr.
  destruct (bm_run_refines _ _ _ _ _ bm_inv_empty Ho Hr) as (S' & Hs & _). by exists S'.
Qed.

(** Reservation. *)
Lemma grow_len b x :
  len (grow b x) =
  if (len b <? word_idx x)%nat || isnil b then S (word_idx x) else len b.
Proof.
  unfold grow. destruct ((len b <? word_idx x)%nat || isnil b); [|done].
  unfold grow_to. by destruct (word_idx x <? length (mem b))%nat.
Qed.

Lemma grow_then_quick b x :
  snd (quick_set (grow b x) x) = true <->
  ~ (isnil b = false /\ len b = N.to_nat (x / 64)).
Proof.
  unfold quick_set. rewrite grow_len.
  assert (word_idx x = N.to_nat (x / 64)) as ->.
  { unfold word_idx. by rewrite N.shiftr_div_pow2. }
  destruct ((len b <? N.to_nat (x / 64))%nat || isnil b) eqn:E.
  - rewrite (proj2 (Nat.leb_gt _ _)) by lia. simpl. split; [|done]. intros _ [H1 H2].
    apply orb_true_iff in E as [E|E]; [lia|congruence].
  - apply orb_false_iff in E as [E1 E2]. rewrite E2.
    destruct (len b <=? N.to_nat (x / 64))%nat eqn:E3; simpl; split; try done; try lia.
Qed.

(** After [Set x] every smaller-or-equal word is reserved. *)
Lemma len_set b x : len (set b x) = Nat.max (len b) (S (word_idx x)).
Proof.
  unfold set. destruct (len b <=? word_idx x)%nat eqn:E; simpl.
  - unfold grow_to. destruct (word_idx x <? length (mem b))%nat; simpl; lia.
  - lia.
Qed.

Lemma set_then_quick b x y :
  y <= x -> snd (quick_set (set b x) y) = true.
Proof.
  intros Hy. unfold quick_set. rewrite len_set.
  assert ((word_idx y <= word_idx x)%nat).
  { unfold word_idx. rewrite !N.shiftr_div_pow2. change (2 ^ 6) with 64. lia. }
  rewrite (proj2 (Nat.leb_gt _ _)) by lia. done.
Qed.
