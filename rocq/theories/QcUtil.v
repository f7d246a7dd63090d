(** Exact rationals with Leibniz equality: small toolkit. *)
From Verif Require Import Base RBO_Spec.
From Coq Require Import QArith Qcanon Lqa.
Open Scope Qc_scope.

(** Move a (non-)linear Qc comparison to Q and call lra / nra there. *)
Lemma Qc_eq_this (a b : Qc) : a = b <-> Qeq (this a) (this b).
Proof. split; [intros ->; reflexivity|apply Qc_is_canon]. Qed.
Lemma Qcle_this a b : a <= b <-> Qle (this a) (this b).
Proof. reflexivity. Qed.
Lemma Qclt_this a b : a < b <-> Qlt (this a) (this b).
Proof. reflexivity. Qed.
Lemma this_add a b : Qeq (this (a + b)) (Qplus (this a) (this b)).
Proof. apply Qred_correct. Qed.
Lemma this_mul a b : Qeq (this (a * b)) (Qmult (this a) (this b)).
Proof. apply Qred_correct. Qed.
Lemma this_opp a : Qeq (this (- a)) (Qopp (this a)).
Proof. apply Qred_correct. Qed.
Lemma this_sub a b : Qeq (this (a - b)) (Qminus (this a) (this b)).
Proof. unfold Qcminus. rewrite this_add, this_opp. reflexivity. Qed.
Lemma this_Q2Qc q : Qeq (this (Q2Qc q)) q.
Proof. apply Qred_correct. Qed.
Ltac qc2q :=
  rewrite ?Qc_eq_this, ?Qcle_this, ?Qclt_this in *;
  repeat (setoid_rewrite this_add || setoid_rewrite this_sub || setoid_rewrite this_mul
          || setoid_rewrite this_opp || setoid_rewrite this_Q2Qc);
  repeat match goal with
  | H : context [this (_ + _)] |- _ => setoid_rewrite this_add in H
  | H : context [this (_ - _)] |- _ => setoid_rewrite this_sub in H
  | H : context [this (_ * _)] |- _ => setoid_rewrite this_mul in H
  | H : context [this (- _)] |- _ => setoid_rewrite this_opp in H
  | H : context [this (Q2Qc _)] |- _ => setoid_rewrite this_Q2Qc in H
  end.
Ltac qclra := qc2q; lra.
Ltac qcnra := qc2q; nra.

Lemma inj_eq (a b : nat) : inject_nat a = inject_nat b -> a = b.
Proof.
  intros H. apply Qc_eq_this in H. unfold inject_nat in H. cbn [this Q2Qc] in H.
  rewrite !Qred_correct in H. unfold Qeq in H. simpl in H. lia.
Qed.
Lemma inj_add a b : inject_nat (a + b) = inject_nat a + inject_nat b.
Proof.
  unfold inject_nat. apply Qc_is_canon. simpl. rewrite !Qred_correct.
  rewrite Nat2Z.inj_add, inject_Z_plus. reflexivity.
Qed.
Lemma inj_mul a b : inject_nat (a * b) = inject_nat a * inject_nat b.
Proof.
  unfold inject_nat. apply Qc_is_canon. simpl. rewrite !Qred_correct.
  rewrite Nat2Z.inj_mul, inject_Z_mult. reflexivity.
Qed.
Lemma inj_0 : inject_nat 0 = 0.
Proof. apply Qc_is_canon. reflexivity. Qed.
Lemma inj_1 : inject_nat 1 = 1.
Proof. apply Qc_is_canon. reflexivity. Qed.
Lemma inj_nz a : (0 < a)%nat -> inject_nat a <> 0.
Proof. intros H. rewrite <- inj_0. intros E. apply inj_eq in E. lia. Qed.
Lemma inj_le a b : (a <= b)%nat -> inject_nat a <= inject_nat b.
Proof.
  intros H. unfold Qcle, inject_nat. simpl. rewrite !Qred_correct.
  rewrite <- Zle_Qle. lia.
Qed.
Lemma inj_nonneg a : 0 <= inject_nat a.
Proof. rewrite <- inj_0. apply inj_le. lia. Qed.
Lemma inj_pos a : (0 < a)%nat -> 0 < inject_nat a.
Proof.
  intros H. destruct (Qcle_lt_or_eq _ _ (inj_nonneg a)) as [H'|H']; [done|].
  symmetry in H'. by apply inj_nz in H'.
Qed.
Lemma inj_sub a b : (b <= a)%nat -> inject_nat (a - b) = inject_nat a - inject_nat b.
Proof.
  intros H. replace a with ((a - b) + b)%nat at 2 by lia. rewrite inj_add. ring.
Qed.

Lemma frac_nonneg a b : 0 <= a -> 0 < b -> 0 <= a / b.
Proof.
  intros Ha Hb. apply Qcmult_lt_0_le_reg_r with b; [done|].
  unfold Qcdiv. rewrite <- Qcmult_assoc, (Qcmult_comm (/ b)), Qcmult_inv_r.
  - rewrite Qcmult_0_l, Qcmult_1_r. done.
  - intros ->. by apply Qclt_not_eq in Hb.
Qed.
Lemma frac_le_1 a b : a <= b -> 0 < b -> a / b <= 1.
Proof.
  intros Ha Hb. apply Qcmult_lt_0_le_reg_r with b; [done|].
  unfold Qcdiv. rewrite <- Qcmult_assoc, (Qcmult_comm (/ b)), Qcmult_inv_r.
  - rewrite Qcmult_1_l, Qcmult_1_r. done.
  - intros ->. by apply Qclt_not_eq in Hb.
Qed.
