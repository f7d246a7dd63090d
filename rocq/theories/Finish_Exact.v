(** What OnFinish computes: the ranks of the graph in which every sink leads to all others. *)
From Verif Require Import Base RBO_Spec QcUtil Rank_Spec Finish_Spec Rank_Model Rank_Proofs Rank_Wake Rank_Error Finish_Model Finish_Proofs.
From Coq Require Import QArith Qcanon.
Open Scope nat_scope.

Lemma lsum_qsum {A : Type} (p : A -> bool) f g N : lsum (map f (List.filter p (map g (seq 0 N)))) = qsum (fun v => if p (g v) then f (g v) else 0%Qc) N.
Proof.
  induction N as [|N IH]; [done|]. rewrite seq_S, map_app. rewrite filter_app, map_app, lsum_app, IH. cbn [qsum plus]. f_equal. cbn [map List.filter].
  destruct (p (g N)); cbn [map lsum]; ring.
Qed.
Lemma copies_all l N : (forall x, In x l -> x < N) -> qsum (fun v => inject_nat (copies v l)) N = inject_nat (length l).
Proof.
  induction l as [|x l IH]; intros H.
  - rewrite qsum_zero; [symmetry; apply QcUtil.inj_0|]. intros k _. apply QcUtil.inj_0.
  - rewrite (qsum_ext _ (fun v => inject_nat (copies v [x]) + inject_nat (copies v l))%Qc) by (intros k _; rewrite copies_cons; apply QcUtil.inj_add).
    rewrite qsum_add, IH by (intros; apply H; by right). replace (length (x :: l)) with (1 + length l) by done. rewrite QcUtil.inj_add. f_equal.
    assert (Hx : x < N) by (apply H; by left). clear -Hx. rewrite QcUtil.inj_1.
    assert (Hz : forall M, M <= x -> qsum (fun v => inject_nat (copies v [x])) M = 0%Qc).
    { intros M HM. apply qsum_zero. intros k Hk. unfold copies. cbn [List.filter]. destruct (Nat.eqb_spec k x); [lia|]. apply QcUtil.inj_0. }
    induction N as [|N IH]; [lia|]. cbn [qsum]. unfold copies at 2. cbn [List.filter]. destruct (Nat.eqb_spec N x) as [->|Hne]; cbn [length].
    + rewrite QcUtil.inj_1, Hz by lia. ring.
    + rewrite QcUtil.inj_0, IH by lia. ring.
Qed.

(** All the vertices with edges hand on is received. *)
Lemma handed_total N out m : (forall w x, w < N -> In x (out w) -> x < N) ->
  qsum (handed DAMP N out m) N = qsum (fun w => if length (out w) =? 0 then 0%Qc else (DAMP * idx * m w)%Qc) N.
Proof.
  intros H. unfold handed. rewrite qsum_swap. apply qsum_ext. intros w Hw.
  rewrite (qsum_ext _ (fun v => part DAMP (m w) (out w) * inject_nat (copies v (out w)))%Qc) by (intros; ring). rewrite qsum_scale, copies_all by (intros x Hx; by apply (H w)).
  destruct (Nat.eqb_spec (length (out w)) 0) as [E|E]; [rewrite E, QcUtil.inj_0; ring|]. rewrite part_eq.
  transitivity (DAMP * idx * m w * (inject_nat (length (out w)) * / inject_nat (length (out w))))%Qc; [ring|]. rewrite Qcmult_inv_r by (apply QcUtil.inj_nz; lia). ring.
Qed.

Lemma handed_ext N out m m' v : (forall w, w < N -> m w = m' w) -> handed DAMP N out m v = handed DAMP N out m' v.
Proof. intros H. unfold handed. apply qsum_ext. intros w Hw. by rewrite H. Qed.
Lemma part_le x y l : (x <= y)%Qc -> (part DAMP x l <= part DAMP y l)%Qc.
Proof.
  intros H. rewrite !part_eq. replace (DAMP * idx * x * / inject_nat (length l))%Qc with (x * (DAMP * idx * / inject_nat (length l)))%Qc by ring.
  replace (DAMP * idx * y * / inject_nat (length l))%Qc with (y * (DAMP * idx * / inject_nat (length l)))%Qc by ring. apply Qcmult_le_compat_r; [done|].
  pose proof (Qcmult_le_compat_r 0 (DAMP * idx) (/ inject_nat (length l)) damp_nonneg (inv_nonneg _ (inj_nonneg _))) as H0. by rewrite Qcmult_0_l in H0.
Qed.
Lemma handed_le N out m m' v : (forall w, w < N -> (m w <= m' w)%Qc) -> (handed DAMP N out m v <= handed DAMP N out m' v)%Qc.
Proof.
  intros H. unfold handed. apply qsum_le. intros w Hw. rewrite !(Qcmult_comm (inject_nat _)). apply Qcmult_le_compat_r; [|apply inj_nonneg]. by apply part_le, H.
Qed.
Lemma handed_0 N out v : handed DAMP N out (fun _ => 0%Qc) v = 0%Qc.
Proof. unfold handed. apply qsum_zero. intros k _. rewrite part_eq. ring. Qed.
Lemma qsum_nonneg f n : (forall k, k < n -> (0 <= f k)%Qc) -> (0 <= qsum f n)%Qc.
Proof. intros H. rewrite <- (qsum_zero n (fun _ => 0%Qc)) by done. by apply qsum_le. Qed.
Lemma qsum_one f n k : (forall k, k < n -> (0 <= f k)%Qc) -> k < n -> (f k <= qsum f n)%Qc.
Proof.
  intros H Hk. induction n as [|n IH]; [lia|]. cbn [qsum]. destruct (decide (k = n)) as [->|Hne].
  - assert (Hp : (0 <= qsum f n)%Qc) by (apply qsum_nonneg; intros; apply H; lia). set (y := qsum _ _) in *. clearbody y. qclra.
  - assert (Hl : k < n) by lia. specialize (IH ltac:(intros; apply H; lia) Hl). assert (Hq : (0 <= f n)%Qc) by (apply H; lia). set (y := qsum _ _) in *. clearbody y. qclra.
Qed.

(** Exact masses are at least what each vertex keeps of its own. *)
Lemma exact_pos N out m : exact_ranks DAMP N out (fun _ => 1%Qc) m -> forall v, v < N -> (1 - DAMP <= m v)%Qc.
Proof.
  intros H. set (e := fun w => (qabs (m w) - m w)%Qc).
  assert (He0 : forall w, (0 <= e w)%Qc). { intros w. unfold e. pose proof (qabs_ge (m w)) as [H1 _]. set (z := qabs _) in *. clearbody z. qclra. }
  assert (Hea : forall w, qabs (e w) = e w). { intros w. unfold qabs. specialize (He0 w). destruct (Qclt_le_dec (e w) 0); [|done]. exfalso. qclra. }
  assert (Hie : forall w, w < N -> (idx * e w <= qabs (handed DAMP N out e w))%Qc).
  { intros w Hw. specialize (H w Hw). unfold Qcdiv in H. fold idx in H. eapply Qcle_trans; [|apply (proj1 (qabs_ge _))]. unfold e at 2. rewrite handed_sub.
    assert (Hm : (qabs (m w) * idx <= 1 + handed DAMP N out (fun w => qabs (m w)) w)%Qc).
    { assert (Hu : (handed DAMP N out m w <= handed DAMP N out (fun w => qabs (m w)) w)%Qc) by (apply handed_le; intros; apply qabs_ge).
      assert (Hd : (handed DAMP N out (fun w => - m w) w <= handed DAMP N out (fun w => qabs (m w)) w)%Qc) by (apply handed_le; intros; apply qabs_ge).
      assert (Hn : (handed DAMP N out (fun w => - m w) w = - handed DAMP N out m w)%Qc).
      { rewrite (handed_ext _ _ _ (fun w => 0 - m w)%Qc) by (intros; ring). rewrite (handed_sub N out (fun _ => 0%Qc)), handed_0. ring. }
      rewrite Hn in Hd. destruct (qabs_case (m w)) as [E|E]; rewrite E.
      - rewrite H. set (a := handed _ _ _ m _) in *. set (b := handed _ _ _ _ _) in *. clearbody a b. qclra.
      - replace (- m w * idx)%Qc with (- (m w * idx))%Qc by ring. rewrite H. set (a := handed _ _ _ m _) in *. set (b := handed _ _ _ _ _) in *. clearbody a b. qclra. }
    unfold e. replace (idx * (qabs (m w) - m w))%Qc with (qabs (m w) * idx - m w * idx)%Qc by ring. rewrite H.
    set (a := handed _ _ _ m _) in *. set (b := handed _ _ _ _ _) in *. set (c := (qabs _ * idx)%Qc) in *. clearbody a b c. qclra. }
  pose proof (qsum_le _ _ N Hie) as Hs. rewrite qsum_scale in Hs. pose proof (handed_small N out e) as Hh. rewrite (qsum_ext (fun v => qabs (e v)) e) in Hh by (intros; apply Hea).
  set (E := qsum e N) in *. assert (Hi : (idx * E - DAMP * idx * E = E)%Qc). { transitivity ((1 - DAMP) * idx * E)%Qc; [ring|]. rewrite idx_ok. ring. }
  assert (HE : (E <= 0)%Qc). { rewrite <- Hi. set (x := (idx * E)%Qc) in *. set (y := (DAMP * idx * E)%Qc) in *. set (z := qsum _ _) in *. clearbody x y z. qclra. }
  assert (Hm : forall w, w < N -> (0 <= m w)%Qc).
  { intros w Hw. pose proof (qsum_one e N w ltac:(intros; apply He0) Hw) as H1. fold E in H1. assert (H2 : (e w <= 0)%Qc) by (eapply Qcle_trans; done).
    unfold e in H2. pose proof (qabs_nonneg (m w)) as H3. set (z := qabs _) in *. clearbody z. qclra. }
  intros v Hv. assert (H0 : (0 <= handed DAMP N out m v)%Qc). { rewrite <- (handed_0 N out v). apply handed_le. intros w Hw. by apply Hm. }
  assert (Hv' : (m v = (1 - DAMP) * (1 + handed DAMP N out m v))%Qc). { rewrite <- (H v Hv). field. exact one_damp_nz. }
  rewrite Hv'. set (h := handed _ _ _ _ _) in *. clearbody h. unfold DAMP. qclra.
Qed.

(** The vertices below [N] with given flows, masses and edges. *)
Definition states (N : nat) (out : nat -> list nat) (fl m : nat -> Qc) : list fin :=
  map (fun v => Fin (fl v) (m v) (length (out v)) false) (seq 0 N).

Section States.
Variables (N : nat) (out : nat -> list nat) (fl m : nat -> Qc).
Let l := states N out fl m.
Let m1 v := (m v + (1 - DAMP) * fl v)%Qc.
Let bare v := length (out v) =? 0.
Lemma st_gone : List.filter gone l = [].
Proof.
  unfold l, states. induction (seq 0 N) as [|v r IH]; [done|]. cbn [map List.filter]. unfold gone at 1. cbn [f_late]. by rewrite andb_false_r.
Qed.
Lemma st_nV : nV l = inject_nat N.
Proof. unfold nV. rewrite st_gone. unfold l, states. rewrite map_length, seq_length. f_equal. cbn. lia. Qed.
Lemma st_sinks : sinkSum l = qsum (fun v => if bare v then m1 v else 0%Qc) N.
Proof.
  unfold sinkSum, l, states. rewrite lsum_qsum. apply qsum_ext. intros v _. unfold lasting, mass1, gone, sink. cbn [f_deg f_late f_mass f_in]. fold (bare v).
  rewrite andb_true_r, andb_false_r. done.
Qed.
Lemma st_others : nonSinkSum l = qsum (fun v => if bare v then 0%Qc else m1 v) N.
Proof.
  unfold nonSinkSum, l, states. rewrite lsum_qsum. apply qsum_ext. intros v _. unfold mass1, gone, sink. cbn [f_deg f_late f_mass f_in]. fold (bare v).
  rewrite andb_false_r. by destruct (bare v).
Qed.
Lemma st_count : numSinks l = qsum (fun v => if bare v then 1%Qc else 0%Qc) N.
Proof.
  unfold numSinks. transitivity (lsum (map (fun _ => 1%Qc) (List.filter lasting l))).
  - induction (List.filter lasting l) as [|x r IH]; cbn [map lsum length]; [apply QcUtil.inj_0|]. rewrite <- IH. replace (S (length r)) with (1 + length r) by lia. by rewrite QcUtil.inj_add, QcUtil.inj_1.
  - unfold l, states. rewrite lsum_qsum. apply qsum_ext. intros v _. unfold lasting, sink. cbn [f_deg f_late]. fold (bare v). by rewrite andb_true_r.
Qed.
Lemma st_in x : In x l <-> exists v, v < N /\ x = Fin (fl v) (m v) (length (out v)) false.
Proof.
  unfold l, states. rewrite in_map_iff. split.
  - intros (v & <- & H). apply in_seq in H. exists v. split; [lia|done].
  - intros (v & H & ->). exists v. split; [done|]. apply in_seq. lia.
Qed.
Lemma st_mass1 v : mass1 (Fin (fl v) (m v) (length (out v)) false) = m1 v.
Proof. unfold mass1, gone. cbn [f_late]. by rewrite andb_false_r. Qed.
Lemma st_bare : (nV l - numSinks l = qsum (fun v => if bare v then 0 else 1) N)%Qc.
Proof.
  rewrite st_nV, st_count. transitivity (qsum (fun v => 1 + - (1) * (if bare v then 1 else 0))%Qc N).
  - rewrite qsum_add, qsum_const, qsum_scale. ring.
  - apply qsum_ext. intros v _. destruct (bare v); ring.
Qed.
Lemma no_bare : nV l = numSinks l <-> forall v, v < N -> out v = [].
Proof.
  split.
  - intros E v Hv. assert (H0 : (qsum (fun v => if bare v then 0 else 1) N = 0)%Qc) by (rewrite <- st_bare, E; ring).
    destruct (bare v) eqn:Eb; [apply Nat.eqb_eq in Eb; by apply nil_length_inv|]. exfalso.
    pose proof (qsum_one (fun v => if bare v then 0 else 1)%Qc N v ltac:(intros k _; cbv beta; by destruct (bare k)) Hv) as H1. rewrite H0 in H1. cbv beta in H1. rewrite Eb in H1. by apply H1.
  - intros H. assert (E : (nV l - numSinks l = 0)%Qc). { rewrite st_bare. apply qsum_zero. intros k Hk. unfold bare. by rewrite (H k Hk). }
    rewrite <- (Qcplus_0_r (numSinks l)), <- E. ring.
Qed.
End States.

Section Exact.
Variables (N : nat) (out : nat -> list nat) (m : nat -> Qc).
Hypothesis (Hin : forall w x, w < N -> In x (out w) -> x < N) (Hm : exact_ranks DAMP N out (fun _ => 1%Qc) m).
Let l := states N out (fun _ => 0%Qc) m.
Let bare v := length (out v) =? 0.
Lemma m1_m v : (m v + (1 - DAMP) * 0 = m v)%Qc. Proof. ring. Qed.
Lemma ex_sinks : sinkSum l = qsum (fun v => if bare v then m v else 0%Qc) N.
Proof. unfold l. rewrite st_sinks. apply qsum_ext. intros v _. fold (bare v). destruct (bare v); [apply m1_m|done]. Qed.
Lemma ex_others : nonSinkSum l = qsum (fun v => if bare v then 0%Qc else m v) N.
Proof. unfold l. rewrite st_others. apply qsum_ext. intros v _. fold (bare v). destruct (bare v); [done|apply m1_m]. Qed.
Lemma m_pos v : v < N -> (0 < m v)%Qc.
Proof. intros Hv. eapply Qclt_le_trans; [|by apply (exact_pos N out m Hm)]. done. Qed.
Lemma kept : (nonSinkSum l + sinkSum l / (1 - DAMP) = inject_nat N)%Qc.
Proof.
  assert (H : (qsum (fun v => m v * idx) N = qsum (fun v => 1 + handed DAMP N out m v) N)%Qc) by (apply qsum_ext; intros v Hv; by apply Hm).
  rewrite (qsum_add (fun _ => 1%Qc)), qsum_const, handed_total in H by done. rewrite Qcmult_1_r in H.
  rewrite ex_sinks, ex_others. unfold Qcdiv. fold idx. rewrite Qcmult_comm, <- qsum_scale, <- qsum_add.
  assert (E : (inject_nat N = qsum (fun v => m v * idx + - (1) * (if bare v then 0 else DAMP * idx * m v)) N)%Qc). { rewrite qsum_add, qsum_scale, H. unfold bare. ring. }
  rewrite E. apply qsum_ext. intros v _. destruct (bare v); [ring|]. transitivity ((1 - DAMP) * idx * m v)%Qc; [rewrite idx_ok; ring|ring].
Qed.
Lemma flowed : (sinkSum l / (1 - DAMP) - numSinks l = qsum (fun v => if bare v then handed DAMP N out m v else 0) N)%Qc.
Proof.
  unfold l at 2. rewrite st_count, ex_sinks. unfold Qcdiv. fold idx. rewrite Qcmult_comm, <- qsum_scale.
  transitivity (qsum (fun v => idx * (if bare v then m v else 0) + - (1) * (if bare v then 1 else 0)) N)%Qc; [rewrite qsum_add, (qsum_scale (- (1))%Qc); unfold bare; ring|].
  apply qsum_ext. intros v Hv. destruct (bare v); [|ring]. pose proof (Hm v Hv) as E. unfold Qcdiv in E. fold idx in E. rewrite (Qcmult_comm idx), E. ring.
Qed.

Lemma handed_pos v w : v < N -> w < N -> In v (out w) -> (0 < handed DAMP N out m v)%Qc.
Proof.
  intros Hv Hw H. eapply Qclt_le_trans; [|apply (qsum_one _ N w)]; [| |done].
  - cbv beta. rewrite part_eq. assert (Hc : 0 < copies v (out w)). { unfold copies. destruct (List.filter (Nat.eqb v) (out w)) eqn:E; [|cbn; lia].
      assert (H0 : In v (List.filter (Nat.eqb v) (out w))) by (apply filter_In; split; [done|apply Nat.eqb_refl]). by rewrite E in H0. }
    assert (Hl : 0 < length (out w)) by (destruct (out w); [done|cbn; lia]).
    pose proof (m_pos w Hw) as Hp. pose proof (inj_pos _ Hc) as Hc'. pose proof (inj_pos _ Hl) as Hl'.
    assert (Hi : (0 < / inject_nat (length (out w)))%Qc).
    { destruct (Qcle_lt_or_eq _ _ (inv_nonneg _ (Qclt_le_weak _ _ Hl'))) as [|E]; [done|]. exfalso. pose proof (Qcmult_inv_r _ (QcUtil.inj_nz _ Hl)) as E1. rewrite <- E in E1. rewrite Qcmult_0_r in E1. discriminate E1. }
    assert (Hd : (0 < DAMP * idx)%Qc) by done.
    set (a := inject_nat (copies v (out w))) in *. set (b := (/ inject_nat (length (out w)))%Qc) in *. set (c := m w) in *. set (d := (DAMP * idx)%Qc) in *. clearbody a b c d.
    assert (H1 : (0 < d * c)%Qc) by qcnra. assert (H2 : (0 < d * c * b)%Qc) by qcnra. set (y := (d * c * b)%Qc) in *. clearbody y. qcnra.
  - intros k Hk. cbv beta. assert (Hp : (0 <= part DAMP (m k) (out k))%Qc).
    { replace 0%Qc with (part DAMP 0 (out k)) by (rewrite part_eq; ring). apply part_le, Qclt_le_weak, m_pos, Hk. }
    pose proof (inj_nonneg (copies v (out k))) as Hc. set (a := inject_nat _) in *. set (b := part _ _ _) in *. clearbody a b. qcnra.
Qed.
Lemma handed_none v : (forall w, w < N -> ~ In v (out w)) -> handed DAMP N out m v = 0%Qc.
Proof.
  intros H. unfold handed. apply qsum_zero. intros w Hw. assert (E : copies v (out w) = 0).
  { unfold copies. destruct (List.filter (Nat.eqb v) (out w)) as [|x r] eqn:E; [done|]. exfalso. assert (H0 : In x (List.filter (Nat.eqb v) (out w))) by (rewrite E; by left).
    apply filter_In in H0. destruct H0 as [H0 E']. apply Nat.eqb_eq in E'. subst x. by apply (H w). }
  rewrite E, QcUtil.inj_0. ring.
Qed.

Lemma ex_latent : (globalLatent l / DAMP = sinkSum l / (1 - DAMP))%Qc.
Proof. unfold globalLatent. field. split; [exact one_damp_nz|exact damp_nz]. Qed.
Lemma ex_den : (nV l <> 1 -> den l = ((1 - DAMP) * (nV l - 1) + DAMP * nonSinkSum l) / (nV l - 1))%Qc.
Proof.
  intros H1. pose proof (minus_nz _ _ H1) as H1'. unfold den, quota. rewrite latent_eq. pose proof kept as K.
  assert (E : nonSinkSum l = (nV l - sinkSum l / (1 - DAMP))%Qc). { unfold l at 2. rewrite st_nV, <- K. ring. }
  rewrite E. field. split; [exact one_damp_nz|done].
Qed.
Lemma ex_smooth : 2 <= N -> (exists v, v < N /\ out v <> []) -> ((exists v, v < N /\ out v = []) -> exists v w, v < N /\ w < N /\ out v = [] /\ In v (out w)) -> smooth l.
Proof.
  intros HN (u & Hu & Hu') Hs. assert (Hk : nV l <> numSinks l). { intros E. apply Hu'. by apply (no_bare N out (fun _ => 0%Qc) m). }
  assert (H1 : nV l <> 1%Qc). { unfold l. rewrite st_nV. intros E. rewrite <- QcUtil.inj_1 in E. apply QcUtil.inj_eq in E. lia. }
  assert (HV : (0 < nV l - 1)%Qc). { unfold l. rewrite st_nV. pose proof (QcUtil.inj_le (1 + 1) N HN) as H. rewrite QcUtil.inj_add, QcUtil.inj_1 in H. set (x := inject_nat N) in *. clearbody x. qclra. }
  assert (HNs : (0 < nonSinkSum l)%Qc).
  { rewrite ex_others. eapply Qclt_le_trans; [|apply (qsum_one _ N u)]; [| |done].
    - cbv beta. unfold bare. destruct (Nat.eqb_spec (length (out u)) 0) as [E|E]; [by apply nil_length_inv in E|]. by apply m_pos.
    - intros k Hk'. cbv beta. destruct (bare k); [done|]. by apply Qclt_le_weak, m_pos. }
  unfold smooth. split; [done|]. split; [done|]. split; [|split; [|split; [by apply nV_nz|]]].
  - rewrite ex_den by done. set (x := (nV l - 1)%Qc) in *. set (y := nonSinkSum l) in *. clearbody x y. intros E.
    assert (E1 : ((1 - DAMP) * x + DAMP * y = 0)%Qc).
    { transitivity (((1 - DAMP) * x + DAMP * y) / x * x)%Qc; [field; intros ->; by apply Qclt_not_eq in HV|]. rewrite E. ring. }
    unfold DAMP in E1. qclra.
  - intros E. rewrite E in HNs. by apply Qclt_not_eq in HNs.
  - intros (x & Hx & Hsx & _). apply st_in in Hx. destruct Hx as (v & Hv & ->). cbn in Hsx. apply Nat.eqb_eq, nil_length_inv in Hsx.
    destruct Hs as (z & w & Hz & Hw & Hz0 & Hzw); [by exists v|]. split.
    + assert (HS : (0 < sinkSum l)%Qc).
      { rewrite ex_sinks. eapply Qclt_le_trans; [|apply (qsum_one _ N v)]; [| |done].
        - cbv beta. unfold bare. rewrite Hsx. cbn. by apply m_pos.
        - intros k Hk'. cbv beta. destruct (bare k); [|done]. by apply Qclt_le_weak, m_pos. }
      unfold globalLatent. assert (Hd : (0 < DAMP / (1 - DAMP))%Qc) by done. set (a := sinkSum l) in *. set (b := (DAMP / (1 - DAMP))%Qc) in *. clearbody a b. intros E.
      assert (Hab : (0 < a * b)%Qc) by qcnra. rewrite E in Hab. done.
    + rewrite ex_latent. intros E. assert (E0 : (sinkSum l / (1 - DAMP) - numSinks l = 0)%Qc) by (rewrite E; ring). rewrite flowed in E0.
      assert (Hp : (0 < qsum (fun v => if bare v then handed DAMP N out m v else 0) N)%Qc).
      { eapply Qclt_le_trans; [|apply (qsum_one _ N z)]; [| |done].
        - cbv beta. unfold bare. rewrite Hz0. cbn. by apply (handed_pos z w).
        - intros k Hk'. cbv beta. destruct (bare k); [|done]. rewrite <- (handed_0 N out k). apply handed_le. intros. by apply Qclt_le_weak, m_pos. }
      rewrite E0 in Hp. done.
Qed.
Lemma smooth_ex : smooth l -> 2 <= N /\ (exists v, v < N /\ out v <> []) /\ ((exists v, v < N /\ out v = []) -> exists v w, v < N /\ w < N /\ out v = [] /\ In v (out w)).
Proof.
  intros (H1 & H2 & _ & _ & _ & H6). split; [|split].
  - destruct (decide (N = 0)) as [E|E0]; [exfalso; apply (nV_nz l H1); unfold l; rewrite st_nV, E; apply QcUtil.inj_0|].
    destruct (decide (N = 1)) as [E|E1]; [exfalso; apply H2; unfold l; rewrite st_nV, E; apply QcUtil.inj_1|]. lia.
  - destruct (some_other l H1) as (x & Hx & Hs). apply st_in in Hx. destruct Hx as (v & Hv & ->). exists v. split; [done|]. intros E. cbn in Hs. by rewrite E in Hs.
  - intros (v & Hv & Ev). destruct H6 as [_ H6].
    + exists (Fin 0%Qc (m v) (length (out v)) false). split; [apply st_in; by exists v|]. split; [cbn; by rewrite Ev|].
      unfold l. rewrite (st_mass1 out (fun _ => 0%Qc)), m1_m. intros E. pose proof (m_pos v Hv) as Hp. by rewrite E in Hp.
    + set (P := fun v => existsb (fun w => existsb (Nat.eqb v) (out w)) (seq 0 N)). destruct (existsb (fun v => bare v && P v) (seq 0 N)) eqn:Ex.
      * apply existsb_exists in Ex. destruct Ex as (z & Hz & E). apply andb_true_iff in E. destruct E as [E1 E2]. apply existsb_exists in E2. destruct E2 as (w & Hw & E2). apply existsb_exists in E2. destruct E2 as (z' & Hz' & E2). apply Nat.eqb_eq in E2. subst z'.
        apply in_seq in Hz, Hw. exists z, w. split; [lia|]. split; [lia|]. split; [by apply Nat.eqb_eq, nil_length_inv in E1|done].
      * exfalso. apply H6. rewrite ex_latent. assert (E0 : (sinkSum l / (1 - DAMP) - numSinks l = 0)%Qc).
        { rewrite flowed. apply qsum_zero. intros z Hz. destruct (bare z) eqn:Eb; [|done]. apply handed_none. intros w Hw Hzw.
          assert (Ht : existsb (fun v => bare v && P v) (seq 0 N) = true); [|by rewrite Ht in Ex]. apply existsb_exists. exists z. split; [apply in_seq; lia|]. rewrite Eb. cbn [andb]. apply existsb_exists. exists w. split; [apply in_seq; lia|]. apply existsb_exists. exists z. split; [done|apply Nat.eqb_refl]. }
        rewrite <- (Qcplus_0_r (numSinks l)), <- E0. ring.
Qed.

(** Against the graph with the sinks joined to all others. *)
Lemma join_copies v w : v < N -> copies v (List.filter (fun u => negb (u =? w)) (seq 0 N)) = if v =? w then 0 else 1.
Proof.
  intros Hv. assert (G : forall k, copies v (List.filter (fun u => negb (u =? w)) (seq 0 k)) = if (v <? k) && negb (v =? w) then 1 else 0).
  { induction k as [|k IH]; [done|]. rewrite seq_S, filter_app, copies_app, IH. cbn [plus List.filter].
    destruct (Nat.eqb_spec k w) as [->|Hk]; cbn [negb]; unfold copies; cbn [List.filter].
    - cbn [length]. destruct (Nat.ltb_spec v w), (Nat.ltb_spec v (S w)), (Nat.eqb_spec v w); cbn [andb negb]; lia.
    - destruct (Nat.eqb_spec v k) as [->|Hvk]; cbn [length].
      + destruct (Nat.ltb_spec k k), (Nat.ltb_spec k (S k)), (Nat.eqb_spec k w); cbn [andb negb]; lia.
      + destruct (Nat.ltb_spec v k), (Nat.ltb_spec v (S k)), (Nat.eqb_spec v w); cbn [andb negb]; lia. }
  rewrite G. destruct (Nat.ltb_spec v N); [|lia]. by destruct (v =? w).
Qed.
Lemma join_len w : w < N -> length (List.filter (fun u => negb (u =? w)) (seq 0 N)) = N - 1.
Proof.
  intros Hw. assert (G : forall k, length (List.filter (fun u => negb (u =? w)) (seq 0 k)) = if w <? k then k - 1 else k).
  { induction k as [|k IH]; [done|]. rewrite seq_S, filter_app, app_length, IH. cbn [plus List.filter].
    destruct (Nat.eqb_spec k w) as [E|E]; cbn [negb length]; destruct (Nat.ltb_spec w k), (Nat.ltb_spec w (S k)); lia. }
  rewrite G. destruct (Nat.ltb_spec w N); lia.
Qed.
Definition score v : Qc := (m v * (if bare v then cS l else cN l))%Qc.
Lemma handed_joined v : v < N -> 2 <= N ->
  (handed DAMP N (joined N out) score v = cN l * handed DAMP N out m v + DAMP * idx * quota l * cS l * (sinkSum l - (if bare v then m v else 0)))%Qc.
Proof.
  intros Hv HN. unfold handed at 1.
  assert (E1 : (sinkSum l - (if bare v then m v else 0) = qsum (fun w => if bare w && negb (v =? w) then m w else 0) N)%Qc).
  { rewrite ex_sinks. rewrite (qsum_change (fun w => if bare w then m w else 0%Qc) (fun w => if bare w && negb (v =? w) then m w else 0%Qc) N v Hv).
    - rewrite Nat.eqb_refl, andb_false_r. ring.
    - intros k _ Hk. destruct (Nat.eqb_spec v k); [by subst|]. by rewrite andb_true_r. }
  rewrite E1. unfold handed. rewrite <- !qsum_scale, <- qsum_add. apply qsum_ext. intros w Hw. unfold joined, score. fold (bare w).
  destruct (bare w) eqn:Eb.
  - apply Nat.eqb_eq, nil_length_inv in Eb. rewrite Eb. rewrite join_copies by done. unfold copies. cbn [List.filter length]. rewrite QcUtil.inj_0. rewrite part_eq, join_len by done.
    cbn [andb]. destruct (v =? w); cbn [negb]; [rewrite QcUtil.inj_0; ring|]. rewrite QcUtil.inj_1. unfold quota. assert (EV : nV l = inject_nat N) by apply st_nV. rewrite EV, QcUtil.inj_sub, QcUtil.inj_1 by lia. unfold Qcdiv. ring.
  - unfold bare in Eb. destruct (out w) as [|z r] eqn:Ew; [done|]. rewrite <- Ew. rewrite !part_eq. cbn [andb]. ring.
Qed.
Lemma ex_exact : smooth l -> exact_ranks DAMP N (joined N out) (fun _ => 1%Qc) score.
Proof.
  intros Hs. destruct (smooth_ex Hs) as (HN & _ & _). destruct Hs as (H1 & H2 & H3 & H4 & H5 & _). intros v Hv. rewrite handed_joined by done.
  unfold Qcdiv. fold idx. pose proof (Hm v Hv) as Ev. unfold Qcdiv in Ev. fold idx in Ev. set (h := handed DAMP N out m v) in *. clearbody h.
  pose proof kept as K. assert (EV : nV l = inject_nat N) by apply st_nV. rewrite <- EV in K.
  set (L := (DAMP * idx * sinkSum l)%Qc). assert (EL : globalLatent l = L). { unfold globalLatent, L, Qcdiv. fold idx. ring. }
  set (a := quota l). assert (ED : den l = (1 + DAMP * a - a * L)%Qc) by (unfold den; by rewrite EL). set (D := den l) in *.
  assert (EcN : cN l = ((1 + DAMP * a) / D)%Qc).
  { unfold cN, geom. rewrite EL. fold a D. assert (En : (nV l - L / DAMP = nonSinkSum l)%Qc). { rewrite <- K. unfold L, idx. field. split; [exact one_damp_nz|exact damp_nz]. }
    rewrite En. rewrite ED. rewrite ED in H3. field. split; [exact H3|done]. }
  assert (EcS : (cS l * sinkSum l = sinkSum l / D)%Qc /\ (sinkSum l <> 0%Qc -> cS l = (1 / D)%Qc)).
  { assert (G : sinkSum l <> 0%Qc -> cS l = (1 / D)%Qc).
    { intros HS. unfold cS, geom. rewrite EL. fold a. fold D. assert (ES : (L * (1 - (1 - DAMP) / sinkSum l) = L - DAMP)%Qc) by (unfold L, idx; field; split; [exact one_damp_nz|done]).
      transitivity (1 + a * (L * (1 - (1 - DAMP) / sinkSum l)) / D)%Qc; [unfold Qcdiv; ring|]. rewrite ES. transitivity ((D + a * L - a * DAMP) / D)%Qc; [field; done|]. f_equal. rewrite ED. ring. }
    split; [|exact G]. destruct (Qc_eq_dec (sinkSum l) 0) as [->|HS]; [unfold Qcdiv; ring|]. rewrite G by done. field. done. }
  destruct EcS as [Ec1 Ec2]. rewrite EcN.
  assert (Hmul : forall x y, (x * D = y * D -> x = y)%Qc). { intros x y E. transitivity (x * D * / D)%Qc; [field; done|]. rewrite E. field. done. }
  unfold score. destruct (bare v) eqn:Eb.
  - assert (HS : sinkSum l <> 0%Qc).
    { intros E0. assert (Hp : (0 < sinkSum l)%Qc).
      { rewrite ex_sinks. eapply Qclt_le_trans; [|apply (qsum_one _ N v)]; [| |done].
        - cbv beta. rewrite Eb. by apply m_pos.
        - intros k Hk'. cbv beta. destruct (bare k); [|done]. by apply Qclt_le_weak, m_pos. }
      by rewrite E0 in Hp. }
    rewrite (Ec2 HS). transitivity (m v * idx * (1 / D))%Qc; [ring|]. rewrite Ev.
    transitivity (1 + (1 + DAMP * a) / D * h + a * L * (1 / D) - DAMP * a * (m v * idx) * (1 / D))%Qc; [|unfold L; ring]. rewrite Ev.
    apply Hmul. transitivity (1 + h)%Qc; [field; done|]. transitivity (D + (1 + DAMP * a) * h + a * L - DAMP * a * (1 + h))%Qc; [rewrite ED; ring|field; done].
  - rewrite EcN. transitivity (m v * idx * ((1 + DAMP * a) / D))%Qc; [ring|]. rewrite Ev.
    transitivity (1 + (1 + DAMP * a) / D * h + DAMP * idx * a * (cS l * sinkSum l))%Qc; [|ring]. rewrite Ec1.
    apply Hmul. transitivity ((1 + h) * (1 + DAMP * a))%Qc; [field; done|]. transitivity (D + (1 + DAMP * a) * h + a * L)%Qc; [rewrite ED; ring|unfold L; field; done].
Qed.
End Exact.
