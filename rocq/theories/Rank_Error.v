(** How far PageRank results can be from the exact solution. *)
From Verif Require Import Base RBO_Spec QcUtil Rank_Spec Rank_Model Rank_Proofs Rank_Wake.
From Coq Require Import QArith Qcanon.
Open Scope nat_scope.

Lemma qabs_nonneg x : (0 <= qabs x)%Qc.
Proof. unfold qabs. destruct (Qclt_le_dec x 0); [|done]. qclra. Qed.
Lemma qabs_le x y : (x <= y -> - x <= y -> qabs x <= y)%Qc.
Proof. unfold qabs. by destruct (Qclt_le_dec x 0). Qed.
Lemma qabs_ge x : (x <= qabs x)%Qc /\ (- x <= qabs x)%Qc.
Proof. unfold qabs. destruct (Qclt_le_dec x 0); split; qclra. Qed.
Lemma qabs_add x y : (qabs (x + y) <= qabs x + qabs y)%Qc.
Proof. pose proof (qabs_ge x) as [H1 H2]. pose proof (qabs_ge y) as [H3 H4]. apply qabs_le; qclra. Qed.
Lemma qabs_opp x : qabs (- x)%Qc = qabs x.
Proof. pose proof (qabs_ge x) as [H1 H2]. pose proof (qabs_ge (- x)%Qc) as [H3 H4]. apply Qcle_antisym; apply qabs_le; qclra. Qed.
Lemma qabs_case x : (qabs x = x \/ qabs x = - x)%Qc.
Proof. unfold qabs. case_match; [by right|by left] || (case_match; [by left|by right]). Qed.
Lemma qabs_scale c x : (0 <= c -> qabs (c * x) <= c * qabs x)%Qc.
Proof.
  intros Hc. pose proof (qabs_ge x) as [H1 H2]. rewrite (Qcmult_comm c x), (Qcmult_comm c (qabs x)). apply qabs_le.
  - by apply Qcmult_le_compat_r.
  - replace (- (x * c))%Qc with (- x * c)%Qc by ring. by apply Qcmult_le_compat_r.
Qed.

Lemma qsum_le f g n : (forall k, k < n -> (f k <= g k)%Qc) -> (qsum f n <= qsum g n)%Qc.
Proof.
  induction n as [|n IH]; intros H; cbn [qsum]; [apply Qcle_refl|]. apply Qcplus_le_compat; [apply IH; intros; apply H; lia|apply H; lia].
Qed.
Lemma qsum_scale c f n : qsum (fun k => c * f k)%Qc n = (c * qsum f n)%Qc.
Proof. induction n as [|n IH]; cbn [qsum]; [ring|]. rewrite IH. ring. Qed.
Lemma qsum_swap f n m : qsum (fun i => qsum (f i) m) n = qsum (fun j => qsum (fun i => f i j) n) m.
Proof.
  induction n as [|n IH]; cbn [qsum]; [by rewrite qsum_zero|]. by rewrite IH, qsum_add.
Qed.
Lemma qsum_abs f n : (qabs (qsum f n) <= qsum (fun k => qabs (f k)) n)%Qc.
Proof.
  induction n as [|n IH]; cbn [qsum]; [rewrite qabs_0; apply Qcle_refl|]. eapply Qcle_trans; [apply qabs_add|]. apply Qcplus_le_compat; [done|apply Qcle_refl].
Qed.
Lemma qsum_const c n : qsum (fun _ => c) n = (inject_nat n * c)%Qc.
Proof. induction n as [|n IH]; cbn [qsum]; [rewrite QcUtil.inj_0; ring|]. rewrite IH. replace (S n) with (n + 1) by lia. rewrite QcUtil.inj_add, QcUtil.inj_1. ring. Qed.
Lemma copies_sum l N : (qsum (fun v => inject_nat (copies v l)) N <= inject_nat (length l))%Qc.
Proof.
  induction l as [|x l IH].
  - rewrite qsum_zero; [cbn [length]; rewrite QcUtil.inj_0; apply Qcle_refl|]. intros k _. apply QcUtil.inj_0.
  - rewrite (qsum_ext _ (fun v => inject_nat (copies v [x]) + inject_nat (copies v l))%Qc) by (intros k _; rewrite copies_cons; apply QcUtil.inj_add).
    rewrite qsum_add. replace (length (x :: l)) with (1 + length l) by done. rewrite QcUtil.inj_add. apply Qcplus_le_compat; [|done].
    clear IH. rewrite QcUtil.inj_1. assert (H : (qsum (fun v => inject_nat (copies v [x])) N <= 1)%Qc /\ (N <= x -> qsum (fun v => inject_nat (copies v [x])) N = 0%Qc)).
    { induction N as [|N [IH1 IH2]]; cbn [qsum]; [done|]. unfold copies at 2 4. cbn [List.filter]. destruct (Nat.eqb_spec N x) as [->|Hne]; cbn [length].
      - rewrite QcUtil.inj_1, (IH2 (Nat.le_refl _)). split; [done|lia].
      - rewrite QcUtil.inj_0, Qcplus_0_r. split; [done|]. intros. apply IH2. lia. }
    apply H.
Qed.

Lemma damp_nonneg : (0 <= DAMP * idx)%Qc. Proof. done. Qed.
Lemma inv_nonneg x : (0 <= x -> 0 <= / x)%Qc.
Proof.
  intros H. apply Qcle_lt_or_eq in H. destruct H as [H|<-]; [|done]. destruct (Qclt_le_dec (/ x) 0) as [H'|]; [|done]. exfalso.
  assert (Hx : (x * / x = 1)%Qc). { apply Qcmult_inv_r. intros ->. by apply Qclt_not_eq in H. }
  assert (Hl : (/ x * x <= 0 * x)%Qc) by (apply Qcmult_le_compat_r; apply Qclt_le_weak; done).
  rewrite Qcmult_comm, Hx, Qcmult_0_l in Hl. by apply Qcle_not_lt in Hl.
Qed.

(** What is handed on shrinks by the damping factor in total. *)
Lemma handed_small N out e : (qsum (fun v => qabs (handed DAMP N out e v)) N <= DAMP * idx * qsum (fun v => qabs (e v)) N)%Qc.
Proof.
  eapply Qcle_trans. { apply qsum_le. intros v _. apply qsum_abs. }
  rewrite qsum_swap, <- qsum_scale. apply qsum_le. intros w _.
  set (c := (DAMP * idx * qabs (e w))%Qc). assert (Hc : (0 <= c)%Qc).
  { unfold c. pose proof (Qcmult_le_compat_r 0 (DAMP * idx) (qabs (e w)) damp_nonneg (qabs_nonneg _)) as H. by rewrite Qcmult_0_l in H. }
  set (i := (/ inject_nat (length (out w)))%Qc). assert (Hi : (0 <= i)%Qc) by apply inv_nonneg, inj_nonneg.
  apply Qcle_trans with (qsum (fun v => i * c * inject_nat (copies v (out w)))%Qc N).
  - apply qsum_le. intros v _. eapply Qcle_trans; [apply qabs_scale, inj_nonneg|]. rewrite (Qcmult_comm (i * c)). rewrite !(Qcmult_comm (inject_nat _)).
    apply Qcmult_le_compat_r; [|apply inj_nonneg]. rewrite part_eq. fold i. replace (DAMP * idx * e w * i)%Qc with ((DAMP * idx * i) * e w)%Qc by ring.
    replace (i * c)%Qc with ((DAMP * idx * i) * qabs (e w))%Qc by (unfold c; ring). apply qabs_scale.
    pose proof (Qcmult_le_compat_r 0 (DAMP * idx) i damp_nonneg Hi) as H. by rewrite Qcmult_0_l in H.
  - rewrite qsum_scale. pose proof (copies_sum (out w) N) as Hs.
    destruct (out w) as [|x l] eqn:E.
    + assert (H0 : qsum (fun v => inject_nat (copies v [])) N = 0%Qc) by (apply qsum_zero; intros k _; apply QcUtil.inj_0). rewrite H0, Qcmult_0_r. done.
    + assert (Hl : (i * inject_nat (length (x :: l)) = 1)%Qc). { unfold i. rewrite Qcmult_comm. apply Qcmult_inv_r, inj_nz. cbn. lia. }
      replace c with (i * inject_nat (length (x :: l)) * c)%Qc at 2 by (rewrite Hl; ring).
      replace (i * c * qsum (fun v => inject_nat (copies v (x :: l))) N)%Qc with (qsum (fun v => inject_nat (copies v (x :: l))) N * (i * c))%Qc by ring.
      replace (i * inject_nat (length (x :: l)) * c)%Qc with (inject_nat (length (x :: l)) * (i * c))%Qc by ring.
      apply Qcmult_le_compat_r; [done|]. pose proof (Qcmult_le_compat_r 0 i c Hi Hc) as H. by rewrite Qcmult_0_l in H.
Qed.

Lemma handed_sub N out e e' v : (handed DAMP N out (fun w => e w - e' w) v = handed DAMP N out e v - handed DAMP N out e' v)%Qc.
Proof.
  unfold handed. transitivity (qsum (fun w => inject_nat (copies v (out w)) * part DAMP (e w) (out w) + - (1) * (inject_nat (copies v (out w)) * part DAMP (e' w) (out w)))%Qc N).
  - apply qsum_ext. intros w _. rewrite !part_eq. ring.
  - rewrite qsum_add, qsum_scale. ring.
Qed.

(** Masses that balance up to residues [r] are, in total, no further from the exact masses. *)
Lemma error_bound N out init m m' r :
  (forall v, v < N -> (r v + m v * idx = init v + handed DAMP N out m v)%Qc) ->
  (forall v, v < N -> (m' v * idx = init v + handed DAMP N out m' v)%Qc) ->
  (qsum (fun v => qabs (m v - m' v)) N <= qsum (fun v => qabs (r v)) N)%Qc.
Proof.
  intros H H'. set (e := fun v => (m v - m' v)%Qc).
  assert (He : forall v, v < N -> (qabs (e v) * idx <= qabs (handed DAMP N out e v) + qabs (r v))%Qc).
  { intros v Hv. assert (Ee : (e v * idx = handed DAMP N out e v + - r v)%Qc).
    { unfold e at 1. transitivity ((r v + m v * idx) - m' v * idx - r v)%Qc; [ring|]. rewrite H, H' by done. unfold e. rewrite handed_sub. ring. }
    destruct (qabs_case (e v)) as [Hq|Hq]; rewrite Hq.
    - rewrite Ee. eapply Qcle_trans; [apply (qabs_ge (handed DAMP N out e v + - r v)%Qc)|]. eapply Qcle_trans; [apply qabs_add|]. rewrite qabs_opp. apply Qcle_refl.
    - replace (- e v * idx)%Qc with (- (e v * idx))%Qc by ring. rewrite Ee. eapply Qcle_trans; [apply (qabs_ge (handed DAMP N out e v + - r v)%Qc)|]. eapply Qcle_trans; [apply qabs_add|]. rewrite qabs_opp. apply Qcle_refl. }
  pose proof (qsum_le _ _ N He) as Hs. rewrite qsum_add in Hs. pose proof (handed_small N out e) as Hh.
  rewrite (qsum_ext _ (fun v => idx * qabs (e v))%Qc) in Hs by (intros; ring). rewrite qsum_scale in Hs. fold e.
  change (qsum (fun v => qabs (m v - m' v)%Qc) N) with (qsum (fun v => qabs (e v)) N).
  set (E := qsum (fun v => qabs (e v)) N) in *. set (R := qsum (fun v => qabs (r v)) N) in *. set (Hd := qsum (fun v => qabs (handed DAMP N out e v)) N) in *.
  assert (Hi : (idx * E - DAMP * idx * E = E)%Qc). { transitivity ((1 - DAMP) * idx * E)%Qc; [ring|]. rewrite idx_ok. ring. }
  assert (Hx : (idx * E <= DAMP * idx * E + R)%Qc). { eapply Qcle_trans; [exact Hs|]. apply Qcplus_le_compat; [done|apply Qcle_refl]. }
  rewrite <- Hi. clear -Hx. set (x := (idx * E)%Qc) in *. set (y := (DAMP * idx * E)%Qc) in *. clearbody x y. qclra.
Qed.
