From Verif Require Import Base RBO_Spec RBO_Model QcUtil.
From Coq Require Import QArith Qcanon.
Open Scope nat_scope.

Notation mem := is_seen.

Lemma mem_true x l : mem x l = true <-> In x l.
Proof.
  unfold is_seen. rewrite existsb_exists. split.
  - intros (y & Hy & E). apply Z.eqb_eq in E. by subst.
  - intros H. exists x. split; [done|]. apply Z.eqb_refl.
Qed.
Lemma mem_false x l : mem x l = false <-> ~ In x l.
Proof. rewrite <- mem_true. by destruct (mem x l). Qed.
Lemma mem_app x l r : mem x (l ++ r) = mem x l || mem x r.
Proof. apply existsb_app. Qed.
Lemma mem_cons x y l : mem x (y :: l) = Z.eqb x y || mem x l.
Proof. reflexivity. Qed.
Lemma mem_single x y : mem x [y] = Z.eqb x y.
Proof. unfold is_seen. simpl. apply orb_false_r. Qed.
Lemma unsee_in x y l : In y (unsee x l) <-> In y l /\ y <> x.
Proof.
  unfold unsee. rewrite List.filter_In. rewrite negb_true_iff, Z.eqb_neq. intuition congruence.
Qed.

Definition b2n (b : bool) : nat := if b then 1 else 0.

Lemma count_extend P e l : NoDup l -> ~ In e P ->
  length (List.filter (fun x => mem x (P ++ [e])) l) =
  length (List.filter (fun x => mem x P) l) + b2n (mem e l).
Proof.
  intros Hnd He. induction Hnd as [|x l Hx Hnd IH]; cbn [List.filter]; [done|].
  rewrite mem_app, mem_single, mem_cons, (Z.eqb_sym e x).
  destruct (Z.eqb x e) eqn:E.
  - apply Z.eqb_eq in E. subst x. rewrite (proj2 (mem_false e P)) by done. simpl.
    rewrite IH. rewrite (proj2 (mem_false e l)) by (by rewrite <- elem_of_list_In).
    simpl. lia.
  - rewrite orb_false_r. simpl. destruct (mem x P); simpl; lia.
Qed.

Lemma common_unfold s t d :
  common s t d = length (List.filter (fun x => mem x (firstn d t)) (firstn d s)).
Proof. reflexivity. Qed.

Lemma NoDup_take {A} (l : list A) d : NoDup l -> NoDup (firstn d l).
Proof. intros H. rewrite <- (firstn_skipn d l) in H. by apply NoDup_app in H as (H & _). Qed.

Lemma not_in_prefix {A} (l : list A) d e : NoDup l -> l !! d = Some e -> ~ In e (firstn d l).
Proof.
  intros Hnd Hd Hin. apply elem_of_list_In, elem_of_list_lookup in Hin as [i Hi].
  apply lookup_take_Some in Hi as [Hi Hlt].
  pose proof (NoDup_lookup _ _ _ _ Hnd Hi Hd). lia.
Qed.

Lemma firstn_snoc {A} (l : list A) d e : l !! d = Some e -> firstn (S d) l = firstn d l ++ [e].
Proof. apply take_S_r. Qed.

Lemma common_S_uneven s t d e : NoDup s -> NoDup t -> length s <= d -> t !! d = Some e ->
  common s t (S d) = common s t d + b2n (mem e s).
Proof.
  intros Hs Ht Hd He. rewrite !common_unfold.
  rewrite (firstn_all2 s) by lia. rewrite (firstn_all2 s) by lia.
  rewrite (firstn_snoc t d e He). apply count_extend; [done|]. by apply not_in_prefix.
Qed.

Lemma common_S s t d e1 e2 : NoDup s -> NoDup t -> s !! d = Some e1 -> t !! d = Some e2 ->
  common s t (S d) = common s t d +
    (if Z.eqb e1 e2 then 1 else b2n (mem e1 (firstn d t)) + b2n (mem e2 (firstn d s))).
Proof.
  intros Hs Ht H1 H2. rewrite !common_unfold.
  rewrite (firstn_snoc t d e2 H2), (firstn_snoc s d e1 H1).
  rewrite List.filter_app, app_length.
  rewrite (count_extend _ e2 (firstn d s)); [|by apply NoDup_take|by apply not_in_prefix].
  simpl. rewrite mem_app, mem_single.
  destruct (Z.eqb e1 e2) eqn:E.
  - apply Z.eqb_eq in E. subst e2. rewrite orb_true_r. simpl.
    rewrite (proj2 (mem_false e1 (firstn d s))) by (by apply not_in_prefix). simpl. lia.
  - rewrite orb_false_r. destruct (mem e1 (firstn d t)); simpl; lia.
Qed.

(** ** First loop *)
Open Scope Qc_scope.
Section loops.
  Context (s t : list Z) (p : Qc) (Hs : NoDup s) (Ht : NoDup t) (Hp : p <> 0).
  Context (Hlen : (length s <= length t)%nat).
  Let m := length s.

  Lemma weighted_S d : weighted s t p m (S d) =
    weighted s t p m d + agreement s t m (S d) * ((1 - p) * p ^ d).
  Proof. reflexivity. Qed.

  Record even_inv (d : nat) (st : rbo_state) : Prop := {
    ei_depth : depth st = d;
    ei_overlap : overlap st = common s t d;
    ei_wgt : wgt st * p = (1 - p) * p ^ d;
    ei_rbo : rbo st = Some (weighted s t p m d);
    ei_seen : forall x, In x (seen st) <->
              xorb (mem x (firstn d s)) (mem x (firstn d t)) = true }.

  Lemma toggle_spec e sn ov sn' ov' : toggle e (sn, ov) = (sn', ov') ->
    ov' = (ov + b2n (mem e sn))%nat /\
    (forall x, In x sn' <-> xorb (mem x sn) (Z.eqb x e) = true).
  Proof.
    unfold toggle. cbn [fst snd]. destruct (mem e sn) eqn:E; intros H; injection H as <- <-.
    - split; [simpl; lia|]. intros x. rewrite unsee_in. destruct (Z.eqb_spec x e) as [->|Hne].
      + rewrite E. simpl. split; [tauto|done].
      + rewrite xorb_false_r, mem_true. tauto.
    - split; [simpl; lia|]. intros x. simpl. destruct (Z.eqb_spec x e) as [->|Hne].
      + rewrite E. simpl. tauto.
      + rewrite xorb_false_r, mem_true. intuition congruence.
  Qed.

  Lemma mem_ext x sn b : (In x sn <-> b = true) -> mem x sn = b.
  Proof.
    intros H. destruct (mem x sn) eqn:E.
    - apply mem_true in E. apply H in E. by rewrite E.
    - apply mem_false in E. destruct b; [|done]. tauto.
  Qed.

  Lemma even_step d st e1 e2 : (S d <= m)%nat -> even_inv d st ->
    s !! d = Some e1 -> t !! d = Some e2 -> even_inv (S d) (update p st e1 e2).
  Proof.
    intros Hd [E1 E2 E3 E4 E5] H1 H2. unfold update.
    assert (Hov : forall sn ov,
      (if Z.eqb e1 e2 then (seen st, S (overlap st))
       else toggle e2 (toggle e1 (seen st, overlap st))) = (sn, ov) ->
      ov = common s t (S d) /\
      (forall x, In x sn <-> xorb (mem x (firstn (S d) s)) (mem x (firstn (S d) t)) = true)).
    { intros sn ov He. rewrite (common_S s t d e1 e2) by done.
      rewrite (firstn_snoc t d e2 H2), (firstn_snoc s d e1 H1).
      pose proof (not_in_prefix s d e1 Hs H1) as N1.
      pose proof (not_in_prefix t d e2 Ht H2) as N2.
      apply mem_false in N1, N2.
      destruct (Z.eqb e1 e2) eqn:E.
      - apply Z.eqb_eq in E. subst e2. injection He as <- <-. split; [rewrite E2; lia|].
        intros x. rewrite E5, !mem_app, !mem_single.
        destruct (Z.eqb_spec x e1) as [->|Hne].
        + rewrite N1, N2. done.
        + by rewrite !orb_false_r.
      - apply Z.eqb_neq in E.
        destruct (toggle e1 (seen st, overlap st)) as [sn1 ov1] eqn:T1.
        apply toggle_spec in T1 as [O1 M1]. apply toggle_spec in He as [O2 M2].
        assert (S0 : forall x, mem x (seen st) =
                   xorb (mem x (firstn d s)) (mem x (firstn d t))).
        { intros x. apply mem_ext, E5. }
        assert (S1 : forall x, mem x sn1 = xorb (mem x (seen st)) (Z.eqb x e1)).
        { intros x. apply mem_ext, M1. }
        split.
        + rewrite O2, O1, S1, !S0, N1, N2, E2.
          rewrite (proj2 (Z.eqb_neq e2 e1)) by done. rewrite !xorb_false_r, xorb_false_l. lia.
        + intros x. rewrite M2, S1, S0, !mem_app, !mem_single.
          destruct (Z.eqb_spec x e1) as [->|Hn1].
          * rewrite N1, (proj2 (Z.eqb_neq e1 e2)) by done.
            by destruct (mem e1 (firstn d t)).
          * destruct (Z.eqb_spec x e2) as [->|Hn2].
            -- rewrite N2. by destruct (mem e2 (firstn d s)).
            -- by rewrite !orb_false_r, !xorb_false_r. }
    destruct (if Z.eqb e1 e2 then _ else _) as [sn ov] eqn:He.
    destruct (Hov sn ov eq_refl) as [O M]. split; cbn [depth overlap wgt rbo seen].
    - by rewrite E1.
    - done.
    - rewrite E3. simpl. ring.
    - rewrite E4, E1. cbn [add_term fdiv]. f_equal. rewrite weighted_S. f_equal.
      rewrite E3. f_equal. unfold agreement.
      assert (Nat.leb (S d) m = true) as -> by (apply Nat.leb_le; lia).
      rewrite O. ring.
    - done.
  Qed.

  Lemma even_loop k : (k <= m)%nat ->
    even_inv k (fold_left (fun st v => update p st (fst v) (snd v)) (firstn k (combine s t)) (rbo_new p)).
  Proof.
    induction k as [|k IH]; intros Hk.
    - simpl. split; cbn; try done.
      unfold Qcdiv. rewrite <- Qcmult_assoc, (Qcmult_comm (/ p)), Qcmult_inv_r by done. ring.
    - destruct (lookup_lt_is_Some_2 s k ltac:(unfold m in Hk; lia)) as [e1 H1].
      destruct (lookup_lt_is_Some_2 t k ltac:(unfold m in Hk; lia)) as [e2 H2].
      rewrite (firstn_snoc (combine s t) k (e1, e2)).
      + rewrite fold_left_app. simpl. apply even_step; [done|apply IH; lia|done|done].
      + revert H1 H2. clear. revert k t. induction s as [|a s' IHs]; intros k t H1 H2; [done|].
        destruct t as [|b t']; [done|]. destruct k; simpl in *; [congruence|]. by apply IHs.
  Qed.

  (** ** Second loop *)
  Record uneven_inv (d : nat) (st : rbo_state) : Prop := {
    ui_depth : depth st = d;
    ui_overlap : overlap st = common s t d;
    ui_wgt : wgt st * p = (1 - p) * p ^ d;
    ui_rbo : rbo st = Some (weighted s t p m d);
    ui_short : short st = Some (m, common s t m);
    ui_seen : forall x, ~ In x (firstn d t) -> (In x (seen st) <-> In x s) }.

  Lemma uneven_start st : even_inv m st -> uneven_inv m (end_short st).
  Proof.
    intros [E1 E2 E3 E4 E5]. split; cbn; try done.
    - by rewrite E1, E2.
    - intros x Hx. rewrite E5. rewrite (proj2 (mem_false x (firstn m t))) by done.
      rewrite xorb_false_r, mem_true. unfold m. by rewrite firstn_all.
  Qed.

  Lemma uneven_step d st e : (0 < m)%nat -> (m <= d)%nat -> t !! d = Some e ->
    uneven_inv d st -> uneven_inv (S d) (update_uneven p st e).
  Proof.
    intros Hm Hd He [E1 E2 E3 E4 E5 E6]. unfold update_uneven. rewrite E5.
    pose proof (not_in_prefix t d e Ht He) as Hn.
    assert (Hmem : mem e (seen st) = mem e s).
    { apply mem_ext. rewrite mem_true. by apply E6. }
    assert (Hov : forall sn ov,
      (if mem e (seen st) then (unsee e (seen st), S (overlap st)) else (seen st, overlap st)) = (sn, ov) ->
      ov = common s t (S d) /\ (forall x, ~ In x (firstn (S d) t) -> (In x sn <-> In x s))).
    { intros sn ov H. rewrite (common_S_uneven s t d e) by done. rewrite <- Hmem.
      rewrite (firstn_snoc t d e He). split.
      - destruct (mem e (seen st)); injection H as <- <-; simpl; rewrite E2; lia.
      - intros x Hx. rewrite in_app_iff in Hx. simpl in Hx.
        assert (Hxt : ~ In x (firstn d t)) by tauto. assert (x <> e) by (intros ->; tauto).
        destruct (mem e (seen st)); injection H as <- <-; rewrite <- E6 by done; [|done].
        rewrite unsee_in. tauto. }
    destruct (if mem e (seen st) then _ else _) as [sn ov] eqn:H.
    destruct (Hov sn ov eq_refl) as [O M]. split; cbn [depth overlap wgt rbo seen short]; try done.
    - by rewrite E1.
    - rewrite E3. simpl. ring.
    - rewrite E4, E1. unfold fdiv.
      destruct (S d * m)%nat as [|z] eqn:Ez; [lia|]. rewrite <- Ez. cbn [add_term]. f_equal.
      rewrite weighted_S, E3. unfold agreement.
      assert (Nat.leb (S d) m = false) as -> by (apply Nat.leb_gt; lia).
      rewrite O. ring.
  Qed.

  Lemma uneven_loop k st : (0 < m)%nat -> (m + k <= length t)%nat -> uneven_inv m st ->
    uneven_inv (m + k) (fold_left (update_uneven p) (firstn k (skipn m t)) st).
  Proof.
    intros Hm. induction k as [|k IH]; intros Hk Hi.
    - simpl. by rewrite Nat.add_0_r.
    - destruct (lookup_lt_is_Some_2 t (m + k) ltac:(lia)) as [e He].
      rewrite (firstn_snoc (skipn m t) k e) by (by rewrite lookup_drop).
      rewrite fold_left_app. simpl. replace (m + S k)%nat with (S (m + k)) by lia.
      apply uneven_step; [done|lia|done|]. apply IH; [lia|done].
  Qed.

  Lemma calculate_short : (0 < m)%nat ->
    calculate_rbo s t p = Some (rbo_ext s t p).
  Proof.
    intros Hm. unfold calculate_rbo.
    assert ((length t <? length s)%nat = false) as -> by (apply Nat.ltb_ge; lia).
    set (st0 := end_short _).
    assert (Hst0 : uneven_inv m st0).
    { unfold st0. apply uneven_start.
      rewrite <- (firstn_all2 (combine s t) (n:=m)).
      - apply even_loop. lia.
      - rewrite combine_length. unfold m. lia. }
    set (st := if (length s <? length t)%nat then _ else _).
    assert (Hst : uneven_inv (length t) st).
    { unfold st. destruct (length s <? length t)%nat eqn:E.
      - assert (length t = m + (length t - m))%nat as El by (unfold m; lia).
        rewrite El at 1.
        rewrite <- (firstn_all2 (skipn (length s) t) (n := length t - m)).
        + apply uneven_loop; [done|lia|done].
        + rewrite skipn_length. unfold m. lia.
      - apply Nat.ltb_ge in E. assert (length t = m) as -> by (unfold m; lia). done. }
    destruct Hst as [E1 E2 E3 E4 E5 E6]. unfold calc_extrapolated.
    rewrite E5, E4, E1, E2. unfold fdiv.
    destruct (length t) as [|l] eqn:El; [unfold m in Hm; lia|].
    destruct m as [|m'] eqn:Em; [lia|].
    f_equal. unfold rbo_ext. fold m. rewrite El, Em.
    rewrite Nat.min_l, Nat.max_r by (unfold m in Em; lia). done.
  Qed.
End loops.

(** ** Symmetry *)
Lemma count_sym (l r : list Z) : NoDup l -> NoDup r ->
  length (List.filter (fun x => mem x r) l) = length (List.filter (fun x => mem x l) r).
Proof.
  intros Hl Hr. apply Permutation_length. apply NoDup_Permutation.
  - apply NoDup_ListNoDup, List.NoDup_filter, NoDup_ListNoDup. done.
  - apply NoDup_ListNoDup, List.NoDup_filter, NoDup_ListNoDup. done.
  - intros x. rewrite !elem_of_list_In, !List.filter_In, !mem_true. tauto.
Qed.
Lemma common_sym s t d : NoDup s -> NoDup t -> common s t d = common t s d.
Proof. intros Hs Ht. apply count_sym; by apply NoDup_take. Qed.
Lemma agreement_sym s t m d : NoDup s -> NoDup t -> agreement s t m d = agreement t s m d.
Proof. intros Hs Ht. unfold agreement. by rewrite !(common_sym s t). Qed.
Lemma weighted_sym s t p m l : NoDup s -> NoDup t -> weighted s t p m l = weighted t s p m l.
Proof.
  intros Hs Ht. induction l as [|k IH]; simpl; [done|]. by rewrite IH, agreement_sym.
Qed.
Lemma rbo_ext_sym s t p : NoDup s -> NoDup t -> rbo_ext s t p = rbo_ext t s p.
Proof.
  intros Hs Ht. unfold rbo_ext. rewrite (Nat.min_comm (length t)), (Nat.max_comm (length t)).
  by rewrite !(common_sym s t), weighted_sym.
Qed.

Lemma calculate_ok s t p : NoDup s -> NoDup t -> p <> 0 -> s <> [] -> t <> [] ->
  calculate_rbo s t p = Some (rbo_ext s t p).
Proof.
  intros Hs Ht Hp H1 H2.
  assert (0 < length s)%nat by (destruct s; [done|simpl; lia]).
  assert (0 < length t)%nat by (destruct t; [done|simpl; lia]).
  destruct (length t <? length s)%nat eqn:E.
  - rewrite rbo_ext_sym by done. rewrite <- calculate_short by (try done; lia).
    unfold calculate_rbo. rewrite E.
    assert ((length s <? length t)%nat = false) as -> by lia. done.
  - apply calculate_short; try done; lia.
Qed.

Lemma calculate_empty s t p : s = [] \/ t = [] -> calculate_rbo s t p = None.
Proof.
  intros H. unfold calculate_rbo.
  assert (exists l, (if (length t <? length s)%nat then (t, s) else (s, t)) = ([], l)) as [l ->].
  { destruct H as [-> | ->].
    - exists t. simpl. destruct (length t <? 0)%nat eqn:E; [lia|done].
    - destruct s; [by exists []|]. eexists. simpl. done. }
  cbn [combine fold_left length skipn].
  set (st0 := end_short (rbo_new p)).
  assert (Hst0 : short st0 = Some (0, 0)%nat) by done.
  assert (Hgen : forall l st, short st = Some (0, 0)%nat ->
            short (fold_left (update_uneven p) l st) = Some (0, 0)%nat).
  { induction l0 as [|e l0 IH]; intros st Hst; simpl; [done|]. apply IH.
    unfold update_uneven. rewrite Hst. destruct (if mem e (seen st) then _ else _). done. }
  destruct (0 <? length l)%nat; unfold calc_extrapolated.
  - rewrite Hgen by done. by destruct (depth _).
  - by rewrite Hst0.
Qed.

(** ** Bounds *)
Lemma filter_length_le {A} (f : A -> bool) l :
  (length (List.filter f l) <= length l)%nat.
Proof. induction l as [|a l IH]; simpl; [lia|]. destruct (f a); simpl; lia. Qed.

Lemma common_le_l s t d : (common s t d <= length s)%nat.
Proof.
  unfold common. etransitivity; [apply filter_length_le|]. rewrite firstn_length. lia.
Qed.
Lemma common_le_d s t d : (common s t d <= d)%nat.
Proof.
  unfold common. etransitivity; [apply filter_length_le|]. rewrite firstn_length. lia.
Qed.
Lemma common_le_min s t d : NoDup s -> NoDup t ->
  (common s t d <= Nat.min (length s) (length t))%nat.
Proof.
  intros Hs Ht. pose proof (common_le_l s t d). pose proof (common_le_l t s d).
  rewrite (common_sym t s) in * by done. lia.
Qed.

Lemma agreement_bounds s t d : NoDup s -> NoDup t -> (0 < d)%nat ->
  let m := Nat.min (length s) (length t) in (0 < m)%nat ->
  0 <= agreement s t m d /\ agreement s t m d <= 1.
Proof.
  intros Hs Ht Hd m Hm. unfold agreement. destruct (Nat.leb d m) eqn:E.
  - rewrite Qcplus_0_r. split.
    + apply frac_nonneg; [apply inj_nonneg|by apply inj_pos].
    + apply frac_le_1; [apply QcUtil.inj_le, common_le_d|by apply inj_pos].
  - apply Nat.leb_gt in E.
    assert (Hdm : (0 < d * m)%nat) by nia.
    assert (inject_nat (common s t d) / inject_nat d +
            inject_nat (common s t m * (d - m)) / inject_nat (d * m)
          = inject_nat (m * common s t d + common s t m * (d - m)) / inject_nat (d * m)) as ->.
    { rewrite inj_add, !inj_mul. field. split; apply inj_nz; lia. }
    split.
    + apply frac_nonneg; [apply inj_nonneg|by apply inj_pos].
    + apply frac_le_1; [apply QcUtil.inj_le|by apply inj_pos].
      pose proof (common_le_min s t d Hs Ht) as C1. pose proof (common_le_min s t m Hs Ht) as C2.
      fold m in C1, C2.
      assert (m * common s t d <= m * m)%nat by nia.
      assert (common s t m * (d - m) <= m * (d - m))%nat by nia. nia.
Qed.

Lemma pow_bounds p k : 0 <= p -> p <= 1 -> 0 <= p ^ k /\ p ^ k <= 1.
Proof.
  intros H0 H1. split; [by apply Qcpower_pos|].
  induction k as [|k IH]; simpl; [apply Qcle_refl|].
  pose proof (Qcpower_pos p k H0) as H2. revert IH H2. generalize (p ^ k). intros q IH H2. qcnra.
Qed.

Lemma weighted_bounds s t p l : NoDup s -> NoDup t -> 0 <= p -> p <= 1 ->
  let m := Nat.min (length s) (length t) in (0 < m)%nat ->
  0 <= weighted s t p m l /\ weighted s t p m l <= 1 - p ^ l.
Proof.
  intros Hs Ht H0 H1 m Hm. induction l as [|k IH].
  - simpl. replace (1 - 1) with 0 by ring. split; apply Qcle_refl.
  - cbn [weighted Qcpower].
    destruct (agreement_bounds s t (S k) Hs Ht ltac:(lia) Hm) as [A1 A2]. fold m in A1, A2.
    destruct (pow_bounds p k H0 H1) as [P1 P2]. fold m in IH. destruct IH as [I1 I2].
    revert A1 A2 P1 P2 I1 I2. change (Qcpower p (S k)) with (p * p ^ k).
    generalize (agreement s t m (S k)), (p ^ k), (weighted s t p m k). intros a q w A1 A2 P1 P2 I1 I2.
    assert (0 <= (1 - p) * q) as H2.
    { assert (0 <= 1 - p) by qclra. assert (0 * q <= (1 - p) * q) by (by apply Qcmult_le_compat_r).
      rewrite Qcmult_0_l in *. done. }
    assert (0 * ((1-p)*q) <= a * ((1-p)*q)) as L1 by (by apply Qcmult_le_compat_r).
    assert (a * ((1-p)*q) <= 1 * ((1-p)*q)) as L2 by (by apply Qcmult_le_compat_r).
    rewrite Qcmult_0_l in L1. rewrite Qcmult_1_l in L2.
    assert ((1 - p) * q = q - p * q) as H3 by ring. rewrite H3 in *.
    revert L1 L2. generalize (a * (q - p * q)), (p * q). intros u v L1 L2. split; qclra.
Qed.

Lemma rbo_ext_bounds s t p : NoDup s -> NoDup t -> s <> [] -> t <> [] -> 0 <= p -> p <= 1 ->
  0 <= rbo_ext s t p /\ rbo_ext s t p <= 1.
Proof.
  intros Hs Ht Hs0 Ht0 H0 H1. unfold rbo_ext.
  set (m := Nat.min (length s) (length t)). set (l := Nat.max (length s) (length t)).
  assert (Hm : (0 < m)%nat) by (destruct s, t; unfold m; simpl; try done; lia).
  assert (Hl : (m <= l)%nat) by (unfold m, l; lia).
  destruct (weighted_bounds s t p l Hs Ht H0 H1 Hm) as [W1 W2]. fold m in W1, W2.
  assert ((inject_nat (common s t l) - inject_nat (common s t m)) / inject_nat l +
          inject_nat (common s t m) / inject_nat m = agreement s t m l) as ->.
  { unfold agreement. destruct (Nat.leb l m) eqn:E.
    - apply Nat.leb_le in E. assert (l = m) as -> by lia. field. apply inj_nz; lia.
    - apply Nat.leb_gt in E. rewrite !inj_mul, inj_sub by lia. field. split; apply inj_nz; lia. }
  destruct (agreement_bounds s t l Hs Ht ltac:(lia) Hm) as [A1 A2]. fold m in A1, A2.
  destruct (pow_bounds p l H0 H1) as [P1 P2].
  assert (0 * p ^ l <= agreement s t m l * p ^ l) as L1 by (by apply Qcmult_le_compat_r).
  assert (agreement s t m l * p ^ l <= 1 * p ^ l) as L2 by (by apply Qcmult_le_compat_r).
  rewrite Qcmult_0_l in L1. rewrite Qcmult_1_l in L2.
  revert W1 W2 L1 L2. generalize (agreement s t m l * p ^ l).
  generalize (weighted s t p m l), (p ^ l). intros a c b W1 W2 L1 L2. split; qclra.
Qed.

Lemma common_self s d : (d <= length s)%nat -> common s s d = d.
Proof.
  intros Hd. unfold common.
  assert (forall l r, (forall x, In x l -> In x r) ->
            List.filter (fun x => existsb (Z.eqb x) r) l = l) as Hf.
  { induction l as [|x l IH]; intros r Hr; simpl; [done|].
    assert (existsb (Z.eqb x) r = true) as ->.
    { apply (mem_true x r). apply Hr. by left. }
    f_equal. apply IH. intros y Hy. apply Hr. by right. }
  rewrite Hf by done. rewrite firstn_length. lia.
Qed.

Lemma rbo_ext_self s p : s <> [] -> rbo_ext s s p = 1.
Proof.
  intros Hs. unfold rbo_ext. rewrite Nat.min_id, Nat.max_id.
  assert (H0 : (0 < length s)%nat) by (destruct s; [done|simpl; lia]).
  assert (Hw : forall k, (k <= length s)%nat -> weighted s s p (length s) k = 1 - p ^ k).
  { induction k as [|k IH]; intros Hk.
    - simpl. ring.
    - cbn [weighted]. rewrite IH by lia. unfold agreement.
      assert (Nat.leb (S k) (length s) = true) as -> by (apply Nat.leb_le; lia).
      rewrite common_self by done. cbn [Qcpower]. field. apply inj_nz. lia. }
  rewrite Hw by done. rewrite common_self by done. field. by apply inj_nz.
Qed.
