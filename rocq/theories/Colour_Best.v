(** The colour a vertex picks. *)
From Verif Require Import Base Bitmap_Spec Bitmap_Model Bitmap_Proofs Vertex_Model Engine_Model Colour_Spec Colour_Model.
Open Scope N_scope.

Lemma bm_inv_ext b S S' : bm_inv b S -> (forall x, S x <-> S' x) -> bm_inv b S'.
Proof. intros [H1 H2 H3 H4 H5] HS. split; try done. intros x. rewrite <- HS. apply H5. Qed.

Lemma msb_mask_val : MSB_MASK = N.ones 31. Proof. reflexivity. Qed.
Lemma empty_val : EMPTY_VAL = 2147483647. Proof. reflexivity. Qed.
Lemma msb_val : MSB = 2147483648. Proof. reflexivity. Qed.
Lemma colour_of_lt c : colour_of c < 2 ^ 31.
Proof. unfold colour_of. rewrite msb_mask_val, N.land_ones. by apply N.mod_lt. Qed.
Lemma colour_of_plain c : c < 2 ^ 31 -> colour_of c = c.
Proof. intros H. unfold colour_of. rewrite msb_mask_val, N.land_ones. by apply N.mod_small. Qed.
Lemma colour_of_msb c : c < 2 ^ 31 -> colour_of (N.lor c MSB) = c.
Proof.
  intros H. unfold colour_of. rewrite N.land_lor_distr_l. change (N.land MSB MSB_MASK) with 0.
  rewrite N.lor_0_r. by apply colour_of_plain.
Qed.
Definition has_msb (c : N) : bool := negb (N.land c MSB =? 0).
Lemma has_msb_lor c : has_msb (N.lor c MSB) = true.
Proof.
  unfold has_msb. destruct (N.eqb_spec (N.land (N.lor c MSB) MSB) 0) as [E|]; [|done].
  exfalso. assert (N.testbit (N.land (N.lor c MSB) MSB) 31 = true) as Hb.
  { rewrite N.land_spec, N.lor_spec. change (N.testbit MSB 31) with true. by destruct (N.testbit c 31). }
  by rewrite E in Hb.
Qed.
Lemma has_msb_plain c : c < 2 ^ 31 -> has_msb c = false.
Proof.
  intros H. unfold has_msb. apply negb_false_iff, N.eqb_eq. change MSB with (2 ^ 31).
  apply N.bits_inj. intros k. rewrite N.land_spec, N.bits_0.
  destruct (N.eq_dec k 31) as [->|Hk].
  - rewrite <- (N.mod_small c (2 ^ 31)) by done. rewrite N.mod_pow2_bits_high by done. done.
  - rewrite (N.pow2_bits_false 31 k) by done. apply andb_false_r.
Qed.

(** The colours marked when reading [ns]. *)
Definition marked (ns : list N) (y : N) : Prop := exists c, c ∈ ns /\ y = colour_of c /\ y <= N.of_nat (length ns).

Lemma mark_inv n b S c : bm_inv b S -> bm_inv (mark n b c) (fun y => (y = colour_of c /\ y <= n) \/ S y).
Proof.
  intros Hb. unfold mark. pose proof (colour_of_lt c) as Hc.
  destruct (N.leb_spec (colour_of c) n) as [Hle|Hgt].
  - unfold quick_set. destruct (Nat.leb_spec (len b) (word_idx (colour_of c))).
    + eapply bm_inv_ext; [apply set_inv; [exact Hb|lia]|]. intros y. unfold add_elem. split; intros [H1|H1]; try tauto.
      left. subst. lia.
    + eapply bm_inv_ext; [apply or_bit_inv; [exact Hb|lia]|]. intros y. unfold add_elem. split; intros [H1|H1]; try tauto.
      left. subst. lia.
  - eapply bm_inv_ext; [exact Hb|]. intros y. split; [tauto|]. intros [[-> H1]|H1]; [lia|done].
Qed.
Lemma marks_inv n ns : forall b S, bm_inv b S ->
  bm_inv (fold_left (mark n) ns b) (fun y => (exists c, c ∈ ns /\ y = colour_of c /\ y <= n) \/ S y).
Proof.
  induction ns as [|c ns IH]; intros b S Hb; cbn [fold_left].
  - eapply bm_inv_ext; [exact Hb|]. intros y. split; [tauto|]. intros [(c & H%elem_of_nil & _)|H]; done.
  - eapply bm_inv_ext; [apply IH, mark_inv, Hb|]. intros y. cbn. split.
    + intros [(c' & H1 & H2)|[H|H]]; [left; exists c'; rewrite elem_of_cons; tauto|left; exists c; rewrite elem_of_cons; tauto|tauto].
    + intros [(c' & [->|H1]%elem_of_cons & H2)|H]; [tauto|left; by exists c'|tauto].
Qed.
Lemma retrieve_inv ns p S : bm_inv (snd p) S -> bm_inv (snd (mail_retrieve ns p)) (marked ns).
Proof.
  intros H. unfold mail_retrieve. cbn [snd]. eapply bm_inv_ext; [eapply marks_inv, zeroes_inv, H|].
  intros y. unfold marked, empty_set. split; [|tauto]. by intros [?|[]].
Qed.

Lemma marked_least_le ns m : least_unused (marked ns) m -> m <= N.of_nat (length ns).
Proof.
  intros [_ H].
  assert (Hi : incl (map N.of_nat (seq 0 (N.to_nat m))) (map colour_of ns)).
  { intros y Hy. apply in_map_iff in Hy. destruct Hy as (k & <- & Hk). apply in_seq in Hk.
    destruct (H (N.of_nat k)) as (c & Hc & E & _); [lia|]. apply in_map_iff. exists c. split; [done|].
    by apply elem_of_list_In. }
  apply NoDup_incl_length in Hi.
  - rewrite !map_length, seq_length in Hi. lia.
  - apply FinFun.Injective_map_NoDup; [|apply seq_NoDup]. intros x y E. lia.
Qed.

(** The new colour: the smallest one that is not marked. *)
Definition picks (ns : list N) (c : N) : Prop := smallest_unused (marked ns) c.
Lemma update_ok ns p S es : bm_inv (snd p) S -> N.of_nat (length ns) < 2 ^ 31 - 1 ->
  forall p' ms, on_update (mail_retrieve ns p) es = (p', ms) ->
  picks ns (fst p') /\ bm_inv (snd p') (marked ns) /\ fst p' <= N.of_nat (length ns) /\
  ((fst p' = fst p /\ ms = []) \/ ms = map (fun '(d, pos) => (d, (fst p', pos))) es).
Proof.
  intros Hb Hn p' ms. pose proof (retrieve_inv ns p S Hb) as Hr.
  destruct (first_unused_spec _ _ Hr) as (m & Hm & Em). pose proof (marked_least_le ns m Hm) as Hle.
  rewrite N.mod_small in Em by lia. unfold on_update. rewrite Em.
  assert (Hs : picks ns m) by (by split; apply Hm).
  destruct (N.eqb_spec (fst (mail_retrieve ns p)) m) as [E|E]; intros [= <- <-].
  - rewrite E. split_and!; try done. left. split; [|done]. clear Em Hr. unfold mail_retrieve in E. cbn [fst] in E.
    destruct (existsb _ _); [|done]. rewrite empty_val in E. lia.
  - cbn [fst snd]. split_and!; try done. by right.
Qed.
Lemma picks_ne ns c c' : picks ns c -> c <= N.of_nat (length ns) -> c' ∈ ns -> colour_of c' <> c.
Proof. intros [H _] Hle Hin E. apply H. by exists c'. Qed.
