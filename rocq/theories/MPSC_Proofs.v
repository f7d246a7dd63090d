From Verif Require Import Base MPSC_Spec MPSC_Model.
From Verif Require SPSC_Proofs.
Open Scope N_scope.

Section logs.
  Context {T : Type}.
  Implicit Types l : list (mev T).
  Lemma claims_app l l' : claims (l ++ l') = claims l ++ claims l'.
  Proof. apply flat_map_app. Qed.
  Lemma gots_app l l' : gots (l ++ l') = gots l ++ gots l'.
  Proof. apply flat_map_app. Qed.
  Lemma dones_app l l' : done_tickets (l ++ l') = done_tickets l ++ done_tickets l'.
  Proof. apply flat_map_app. Qed.
  Lemma dones_of_app p l l' : dones_of p (l ++ l') = dones_of p l ++ dones_of p l'.
  Proof. apply flat_map_app. Qed.
  Lemma claims_of_app p l l' : claims_of p (l ++ l') = claims_of p l ++ claims_of p l'.
  Proof. unfold claims_of. rewrite claims_app, List.filter_app, map_app. done. Qed.
  Lemma in_done_tickets t l : In t (done_tickets l) <-> exists p v, In (EDone p t v) l.
  Proof.
    unfold done_tickets. rewrite in_flat_map. split.
    - intros (e & He & Hin). destruct e; try done. destruct Hin as [->|[]]. eauto.
    - intros (p & v & Hin). eexists. split; [exact Hin|]. by left.
  Qed.
End logs.

Section proofs.
  Context {T : Type} (k : N) (Hk : 1 <= k) (Hk2 : k < 64).
  Notation mask := (N.ones k).
  Notation size := (2 ^ k).
  Implicit Types s : mrb T.

  Lemma size_ge2 : 2 <= size.
  Proof. change 2 with (2 ^ 1) at 1. apply N.pow_le_mono_r; lia. Qed.
  Lemma mask_succ : mask + 1 = size.
  Proof. rewrite N.ones_equiv. pose proof size_ge2. lia. Qed.
  Lemma slot_mod t : slot_of mask t = t mod size.
  Proof. apply N.land_ones. Qed.
  Lemma mod_inj d a b : d <= a -> a < d + size -> d <= b -> b < d + size -> a mod size = b mod size -> a = b.
  Proof.
    intros H1 H2 H3 H4 E. destruct (N.lt_total a b) as [H|[H|H]]; [|done|].
    - exfalso. revert E. apply (SPSC_Proofs.mod_ne k Hk2); lia.
    - exfalso. symmetry in E. revert E. apply (SPSC_Proofs.mod_ne k Hk2); lia.
  Qed.
  (** The window representative of a position. *)
  Lemma window_rep d t : d <= t -> exists t', d <= t' /\ t' < d + size /\ t' mod size = t mod size /\
    (t < d + size -> t' = t) /\ (d + size <= t -> t' + size <= t).
  Proof.
    intros H. pose proof size_ge2. pose proof (N.div_mod (t - d) size ltac:(lia)) as E.
    pose proof (N.mod_lt (t - d) size ltac:(lia)).
    set (q := (t - d) / size) in *. set (r := (t - d) mod size) in *.
    exists (d + r). repeat split.
    - lia.
    - lia.
    - replace t with (d + r + q * size) by lia. symmetry. apply N.mod_add. lia.
    - intros Hlt. destruct (N.eq_dec q 0) as [E0|E0]; [rewrite E0 in E; lia|].
      assert (size * 1 <= size * q) by (apply N.mul_le_mono_l; lia). lia.
    - intros Hge. destruct (N.eq_dec q 0) as [E0|E0]; [rewrite E0 in E; lia|].
      assert (size * 1 <= size * q) by (apply N.mul_le_mono_l; lia). lia.
  Qed.

  Definition D s : N := N.of_nat (length (gots (mlog s))).
  Definition tk s : list (nat * T) := claims (mlog s).
  Definition dn s (t : N) : Prop := In t (done_tickets (mlog s)).
  Definition sl s (t : N) : N * T := slots s (t mod size).
  Definition tkat s (t : N) : option (nat * T) := tk s !! N.to_nat t.
  Definition holds (pc : mppc T) (t : N) (v : T) : Prop :=
    pc = MCheck t v \/ pc = MWrite t v \/ pc = MStore t v.
  Definition held s (t : N) : Prop := exists p pc pr v, prods s !! p = Some (pc, pr) /\ holds pc t v.

  Record minv s : Prop := {
    m_enq : menq s = N.of_nat (length (tk s));
    m_deq : match kp s with KIdle | KRead false | KStore false _ => mdeq s = D s | _ => mdeq s = D s + 1 end;
    m_gots : exists rest, map snd (tk s) = gots (mlog s) ++ rest;
    m_free : forall t, D s <= t -> t < D s + size -> ~ dn s t -> fst (sl s t) = t;
    m_full : forall t, D s <= t -> t < D s + size -> dn s t ->
               fst (sl s t) = t + 1 /\ exists p, tkat s t = Some (p, snd (sl s t));
    m_dn : forall t, dn s t -> t < D s + size /\ t < N.of_nat (length (tk s));
    m_old : forall t, t < D s -> dn s t;
    m_claimed : forall t, t < N.of_nat (length (tk s)) -> dn s t \/ held s t;
    m_held : forall p pc pr t v, prods s !! p = Some (pc, pr) -> holds pc t v ->
               tkat s t = Some (p, v) /\ ~ dn s t /\
               (pc <> MCheck t v -> t < D s + size) /\ (pc = MStore t v -> snd (sl s t) = v);
    m_offer : forall p pr t v, (prods s !! p = Some (MOfferCheck t v, pr) -> t <= N.of_nat (length (tk s))) /\
               (prods s !! p = Some (MOfferCas t v, pr) ->
                  t <= N.of_nat (length (tk s)) /\ (t < D s + size \/ t < N.of_nat (length (tk s))));
    m_done : forall p t v, In (EDone p t v) (mlog s) -> tkat s t = Some (p, v);
    m_nodup : NoDup (done_tickets (mlog s));
    m_kp : match kp s with
           | KRead _ => dn s (D s)
           | KStore _ v => dn s (D s) /\ exists p, tkat s (D s) = Some (p, v)
           | _ => True
           end }.

  Lemma D_le s : minv s -> D s <= N.of_nat (length (tk s)).
  Proof.
    intros H. destruct (m_gots _ H) as [r E]. unfold D. apply (f_equal length) in E.
    rewrite map_length, app_length in E. lia.
  Qed.
  Lemma held_ge s p pc pr t v : minv s -> prods s !! p = Some (pc, pr) -> holds pc t v -> D s <= t.
  Proof.
    intros H Hp Hh. destruct (m_held _ H _ _ _ _ _ Hp Hh) as (_ & Hn & _).
    destruct (N.lt_ge_cases t (D s)) as [Hlt|]; [|done]. by apply (m_old _ H) in Hlt.
  Qed.
  (** A slot showing ticket [t] is free for [t]. *)
  Lemma check_ok s t : minv s -> D s <= t -> ~ dn s t -> fst (sl s t) = t -> t < D s + size.
  Proof.
    intros H Hd Hn E. destruct (N.lt_ge_cases t (D s + size)) as [|Hge]; [done|]. exfalso.
    destruct (window_rep (D s) t Hd) as (t' & H1 & H2 & H3 & _ & H5). specialize (H5 Hge).
    unfold sl in E. rewrite <- H3 in E. fold (sl s t') in E. pose proof size_ge2.
    destruct (in_dec N.eq_dec t' (done_tickets (mlog s))) as [Hi|Hi].
    - destruct (m_full _ H t' H1 H2 Hi) as [E' _]. lia.
    - pose proof (m_free _ H t' H1 H2 Hi). lia.
  Qed.

  Lemma lookup_snoc_lt {A} (l : list A) x i y : l !! i = Some y -> (l ++ [x]) !! i = Some y.
  Proof. intros H. rewrite lookup_app_l; [done|]. by apply lookup_lt_Some in H. Qed.
  Lemma lookup_snoc_eq {A} (l : list A) x : (l ++ [x]) !! length l = Some x.
  Proof. rewrite lookup_app_r by lia. by rewrite Nat.sub_diag. Qed.

  Lemma prods_upd s p pc pr pc0 pr0 p' x : prods s !! p = Some (pc0, pr0) ->
    <[p := (pc, pr)]> (prods s) !! p' = Some x ->
    (p' = p /\ x = (pc, pr)) \/ (p' <> p /\ prods s !! p' = Some x).
  Proof.
    intros H0 H. destruct (decide (p = p')) as [<-|Hne].
    - left. rewrite list_lookup_insert in H by (by apply lookup_lt_Some in H0). by injection H as <-.
    - right. rewrite list_lookup_insert_ne in H by done. done.
  Qed.
  Lemma prods_upd_eq s p pc pr x0 : prods s !! p = Some x0 -> <[p := (pc, pr)]> (prods s) !! p = Some (pc, pr).
  Proof. intros H. apply list_lookup_insert. by apply lookup_lt_Some in H. Qed.

  (** The shape of most steps of a producer: slots and tickets unchanged, no [EDone]. *)
  Lemma minv_p_silent s p pc0 pr0 st pc pr evs : minv s -> prods s !! p = Some (pc0, pr0) ->
    claims evs = [] -> gots evs = [] -> done_tickets evs = [] ->
    (forall t v, holds pc t v <-> holds pc0 t v) ->
    (forall t v, holds pc t v -> (pc <> MCheck t v -> t < D s + size) /\ (pc = MStore t v -> snd (sl s t) = v)) ->
    (forall t v, pc = MOfferCheck t v -> t <= N.of_nat (length (tk s))) ->
    (forall t v, pc = MOfferCas t v -> t <= N.of_nat (length (tk s)) /\
        (t < D s + size \/ t < N.of_nat (length (tk s)))) ->
    minv (upd_p s p (menq s) (slots s) st pc pr evs).
  Proof.
    intros Hi Hp Ec Eg Ed Hh1 Hh2 Ho1 Ho2. set (s' := upd_p _ _ _ _ _ _ _ _).
    assert (Etk : tk s' = tk s) by (unfold tk; simpl; by rewrite claims_app, Ec, app_nil_r).
    assert (Egt : gots (mlog s') = gots (mlog s)) by (simpl; by rewrite gots_app, Eg, app_nil_r).
    assert (Edn : done_tickets (mlog s') = done_tickets (mlog s)) by (simpl; by rewrite dones_app, Ed, app_nil_r).
    assert (ED : D s' = D s) by (unfold D; by rewrite Egt).
    unfold dn in *. destruct Hi as [I1 I2 I3 I4 I5 I6 I7 I8 I9 I10 I11 I12 I13].
    split; unfold tkat, dn, sl in *; rewrite ?Etk, ?Egt, ?Edn, ?ED; try done.
    - intros t Ht. destruct (I8 t Ht) as [H|(p' & pc' & pr' & v & Hp' & Hv)]; [by left|right].
      destruct (decide (p' = p)) as [->|Hne].
      + rewrite Hp in Hp'. injection Hp' as <- <-. exists p, pc, pr, v. split; [by eapply prods_upd_eq|]. by apply Hh1.
      + exists p', pc', pr', v. split; [|done]. simpl. by rewrite list_lookup_insert_ne.
    - intros p' pc' pr' t v Hp' Hv. simpl in Hp'.
      destruct (prods_upd _ _ _ _ _ _ _ _ Hp Hp') as [[-> E]|[Hne E]].
      + injection E as -> ->. pose proof Hv as Hv0. apply Hh1 in Hv0.
        destruct (I9 _ _ _ _ _ Hp Hv0) as (A & B & _ & _). split; [done|]. split; [done|]. by apply Hh2.
      + by eapply I9.
    - intros p' pr' t v. simpl. split; intros Hp'; destruct (prods_upd _ _ _ _ _ _ _ _ Hp Hp') as [[-> E]|[Hne E]].
      + injection E as <- _. by eapply Ho1.
      + by apply I10 in E.
      + injection E as <- _. by eapply Ho2.
      + by apply I10 in E.
    - intros p' t v Hin. apply in_app_iff in Hin as [Hin|Hin]; [by apply I11|].
      exfalso. assert (In t (done_tickets evs)) as Hx by (apply in_done_tickets; eauto). by rewrite Ed in Hx.
  Qed.

  (** Taking a ticket. *)
  Lemma minv_p_claim s p pc0 pr0 st v pc pr : minv s -> prods s !! p = Some (pc0, pr0) ->
    (forall t v, ~ holds pc0 t v) -> pc = MCheck (menq s) v \/ (pc = MWrite (menq s) v /\ menq s < D s + size) ->
    minv (upd_p s p (menq s + 1) (slots s) st pc pr [EClaim p v]).
  Proof.
    intros Hi Hp Hno Hpc. set (s' := upd_p _ _ _ _ _ _ _ _).
    assert (Etk : tk s' = tk s ++ [(p, v)]) by (unfold tk; simpl; by rewrite claims_app).
    assert (Egt : gots (mlog s') = gots (mlog s)) by (simpl; by rewrite gots_app, app_nil_r).
    assert (Edn : done_tickets (mlog s') = done_tickets (mlog s)) by (simpl; by rewrite dones_app, app_nil_r).
    assert (ED : D s' = D s) by (unfold D; by rewrite Egt).
    assert (Elen : N.of_nat (length (tk s')) = N.of_nat (length (tk s)) + 1) by (rewrite Etk, app_length; simpl; lia).
    assert (Ekp : forall t x, tkat s t = Some x -> tkat s' t = Some x).
    { unfold tkat. intros t x H. rewrite Etk. by apply lookup_snoc_lt. }
    assert (Enew : tkat s' (menq s) = Some (p, v)).
    { unfold tkat. rewrite Etk, (m_enq _ Hi), Nat2N.id. apply lookup_snoc_eq. }
    assert (Hnd : ~ dn s (menq s)).
    { intros H. apply (m_dn _ Hi) in H as [_ H]. rewrite (m_enq _ Hi) in H. lia. }
    assert (Hholds : forall t' v', holds pc t' v' -> t' = menq s /\ v' = v).
    { intros t' v' Hv. unfold holds in Hv. destruct Hpc as [-> |[-> _]]; destruct Hv as [E|[E|E]]; try done; by injection E. }
    assert (Hpch : holds pc (menq s) v) by (unfold holds; destruct Hpc as [-> |[-> _]]; tauto).
    pose proof (D_le _ Hi) as HD. pose proof (m_enq _ Hi) as Heq.
    destruct Hi as [I1 I2 I3 I4 I5 I6 I7 I8 I9 I10 I11 I12 I13]. unfold dn in *.
    split; unfold dn, sl in *; rewrite ?Egt, ?Edn, ?ED, ?Elen; try done.
    - simpl. lia.
    - destruct I3 as [r E]. exists (r ++ [v]). rewrite Etk, map_app, E, <- app_assoc. done.
    - intros t H1 H2 H3. destruct (I5 t H1 H2 H3) as [A [q B]]. split; [done|]. exists q. by apply Ekp.
    - intros t Ht. destruct (I6 t Ht). split; [done|lia].
    - intros t Ht. assert (t < N.of_nat (length (tk s)) \/ t = menq s) as [Hlt| ->] by lia.
      + destruct (I8 t Hlt) as [H|(p' & pc' & pr' & v' & Hp' & Hv)]; [by left|right].
        destruct (decide (p' = p)) as [->|Hne].
        * rewrite Hp in Hp'. injection Hp' as <- <-. by apply Hno in Hv.
        * exists p', pc', pr', v'. split; [|done]. simpl. by rewrite list_lookup_insert_ne.
      + right. exists p, pc, pr, v. split; [|done]. by eapply prods_upd_eq.
    - intros p' pc' pr' t v' Hp' Hv. simpl in Hp'.
      destruct (prods_upd _ _ _ _ _ _ _ _ Hp Hp') as [[-> E]|[Hne E]].
      + injection E as -> ->. apply Hholds in Hv as [-> ->]. split; [done|]. split; [done|].
        destruct Hpc as [-> |[-> Hlt]]; split; done.
      + destruct (I9 _ _ _ _ _ E Hv) as (A & B & C & F). auto.
    - intros p' pr' t v'. simpl. split; intros Hp'; destruct (prods_upd _ _ _ _ _ _ _ _ Hp Hp') as [[-> E]|[Hne E]].
      + injection E as <- _. destruct Hpc as [? |[? _]]; done.
      + apply I10 in E. lia.
      + injection E as <- _. destruct Hpc as [? |[? _]]; done.
      + apply I10 in E. lia.
    - intros p' t v' Hin. simpl in Hin. apply in_app_iff in Hin as [Hin|[Hin|[]]]; [|done]. by apply Ekp, I11.
    - simpl. destruct (kp s); try done. destruct I13 as [A [q B]]. split; [done|]. exists q. by apply Ekp.
  Qed.

  Lemma set_eq (f : N -> N * T) i x : set_slot f i x i = x.
  Proof. unfold set_slot. by rewrite N.eqb_refl. Qed.
  Lemma set_ne (f : N -> N * T) i x j : j <> i -> set_slot f i x j = f j.
  Proof. unfold set_slot. intros H. by apply N.eqb_neq in H as ->. Qed.

  (** Writing the item into the slot. *)
  Lemma minv_p_write s p pr0 st t v : minv s -> prods s !! p = Some (MWrite t v, pr0) ->
    minv (upd_p s p (menq s) (set_slot (slots s) (t mod size) (fst (slots s (t mod size)), v)) st (MStore t v) pr0 []).
  Proof.
    intros Hi Hp. assert (Hv : holds (MWrite t v) t v) by (unfold holds; tauto).
    destruct (m_held _ Hi _ _ _ _ _ Hp Hv) as (Ht & Hnd & Hlt & _). specialize (Hlt ltac:(done)).
    pose proof (held_ge _ _ _ _ _ _ Hi Hp Hv) as Hge.
    set (s' := upd_p _ _ _ _ _ _ _ _).
    assert (Elog : mlog s' = mlog s) by (simpl; by rewrite app_nil_r).
    assert (Etk : tk s' = tk s) by (unfold tk; by rewrite Elog).
    assert (ED : D s' = D s) by (unfold D; by rewrite Elog).
    assert (Efst : forall t', fst (sl s' t') = fst (sl s t')).
    { intros t'. unfold sl. simpl. destruct (N.eq_dec (t' mod size) (t mod size)) as [->|Hne].
      - by rewrite set_eq.
      - by rewrite set_ne. }
    assert (Eoth : forall t', D s <= t' -> t' < D s + size -> t' <> t -> sl s' t' = sl s t').
    { intros t' H1 H2 Hne. unfold sl. simpl. apply set_ne. intros E. apply Hne. by apply (mod_inj (D s)). }
    pose proof (fun p' pc pr t' v' => held_ge s p' pc pr t' v' Hi) as Hgeall.
    destruct Hi as [I1 I2 I3 I4 I5 I6 I7 I8 I9 I10 I11 I12 I13].
    unfold dn, tkat in *.
    split; unfold dn, tkat; rewrite ?Elog, ?Etk, ?ED; try done.
    - intros t' H1 H2 H3. rewrite Efst. by apply I4.
    - intros t' H1 H2 H3. rewrite Eoth; [by apply I5|done|done|]. by intros ->.
    - intros t' Ht'. destruct (I8 t' Ht') as [H|(p' & pc' & pr' & v' & Hp' & Hv')]; [by left|right].
      destruct (decide (p' = p)) as [->|Hne].
      + rewrite Hp in Hp'. injection Hp' as <- <-. exists p, (MStore t v), pr0, v'.
        split; [by eapply prods_upd_eq|]. unfold holds in *. destruct Hv' as [E|[E|E]]; try done.
        injection E as -> ->. tauto.
      + exists p', pc', pr', v'. split; [|done]. simpl. by rewrite list_lookup_insert_ne.
    - intros p' pc' pr' t' v' Hp' Hv'. simpl in Hp'.
      destruct (prods_upd _ _ _ _ _ _ _ _ Hp Hp') as [[-> E]|[Hne E]].
      + injection E as -> ->. destruct Hv' as [E|[E|E]]; try done. injection E as <- <-.
        split; [done|]. split; [done|]. split; [done|]. intros _. unfold sl. simpl. by rewrite set_eq.
      + destruct (I9 _ _ _ _ _ E Hv') as (A & B & C & F). split; [done|]. split; [done|]. split; [done|].
        intros ->. rewrite Eoth; [by apply F|by eapply Hgeall|by apply C|].
        intros ->. rewrite Ht in A. by injection A as -> ->.
    - intros p' pr' t' v'. simpl. split; intros Hp'; destruct (prods_upd _ _ _ _ _ _ _ _ Hp Hp') as [[-> E]|[Hne E]];
        try done; by apply I10 in E.
  Qed.

  (** Publishing it. *)
  Lemma minv_p_store s p pr0 st t v : minv s -> prods s !! p = Some (MStore t v, pr0) ->
    minv (upd_p s p (menq s) (set_slot (slots s) (t mod size) (t + 1, snd (slots s (t mod size)))) st MIdle pr0 [EDone p t v]).
  Proof.
    intros Hi Hp. assert (Hv : holds (MStore t v) t v) by (unfold holds; tauto).
    destruct (m_held _ Hi _ _ _ _ _ Hp Hv) as (Ht & Hnd & Hlt & Hsnd).
    specialize (Hlt ltac:(done)). specialize (Hsnd ltac:(done)).
    pose proof (held_ge _ _ _ _ _ _ Hi Hp Hv) as Hge.
    set (s' := upd_p _ _ _ _ _ _ _ _).
    assert (Etk : tk s' = tk s) by (unfold tk; simpl; by rewrite claims_app, app_nil_r).
    assert (Egt : gots (mlog s') = gots (mlog s)) by (simpl; by rewrite gots_app, app_nil_r).
    assert (Edn : forall t', dn s' t' <-> dn s t' \/ t' = t).
    { intros t'. unfold dn. simpl. rewrite dones_app, in_app_iff. simpl. split; intros [|]; auto.
      destruct H; [auto|done]. }
    assert (ED : D s' = D s) by (unfold D; by rewrite Egt).
    assert (Esnd : forall t', snd (sl s' t') = snd (sl s t')).
    { intros t'. unfold sl. simpl. destruct (N.eq_dec (t' mod size) (t mod size)) as [->|Hne].
      - by rewrite set_eq.
      - by rewrite set_ne. }
    assert (Eoth : forall t', D s <= t' -> t' < D s + size -> t' <> t -> sl s' t' = sl s t').
    { intros t' H1 H2 Hne. unfold sl. simpl. apply set_ne. intros E. apply Hne. by apply (mod_inj (D s)). }
    destruct Hi as [I1 I2 I3 I4 I5 I6 I7 I8 I9 I10 I11 I12 I13].
    assert (Htl : t < N.of_nat (length (tk s))).
    { unfold tkat in Ht. apply lookup_lt_Some in Ht. lia. }
    unfold tkat in *.
    split; unfold tkat; rewrite ?Egt, ?Etk, ?ED; try done.
    - intros t' H1 H2 H3. rewrite Edn in H3. rewrite Eoth; [|done|done|tauto]. apply I4; tauto.
    - intros t' H1 H2 H3. rewrite Edn in H3. destruct (N.eq_dec t' t) as [->|Hne].
      + unfold sl. simpl. rewrite set_eq. split; [done|]. simpl. exists p. by rewrite <- Hsnd in Ht.
      + rewrite Eoth by done. apply I5; tauto.
    - intros t'. rewrite Edn. intros [H| ->]; [by apply I6|done].
    - intros t' H. rewrite Edn. left. by apply I7.
    - intros t' Ht'. rewrite Edn. destruct (I8 t' Ht') as [H|(p' & pc' & pr' & v' & Hp' & Hv')]; [by left; left|].
      destruct (decide (p' = p)) as [->|Hne].
      + rewrite Hp in Hp'. injection Hp' as <- <-. destruct Hv' as [E|[E|E]]; try done.
        injection E as -> ->. tauto.
      + right. exists p', pc', pr', v'. split; [|done]. simpl. by rewrite list_lookup_insert_ne.
    - intros p' pc' pr' t' v' Hp' Hv'. simpl in Hp'.
      destruct (prods_upd _ _ _ _ _ _ _ _ Hp Hp') as [[-> E]|[Hne E]].
      + injection E as -> ->. by destruct Hv' as [E|[E|E]].
      + destruct (I9 _ _ _ _ _ E Hv') as (A & B & C & F). rewrite Esnd. split; [done|]. split; [|done].
        rewrite Edn. intros [?| ->]; [done|]. rewrite Ht in A. by injection A as -> ->.
    - intros p' pr' t' v'. simpl. split; intros Hp'; destruct (prods_upd _ _ _ _ _ _ _ _ Hp Hp') as [[-> E]|[Hne E]];
        try done; by apply I10 in E.
    - intros p' t' v' Hin. simpl in Hin. apply in_app_iff in Hin as [Hin|[Hin|[]]]; [by apply I11|].
      by injection Hin as <- <- <-.
    - simpl. rewrite dones_app. apply NoDup_app. split; [done|]. split; [|apply NoDup_singleton].
      intros x Hx Hx'. simpl in Hx'. apply elem_of_list_singleton in Hx' as ->. apply Hnd. by apply elem_of_list_In.
    - simpl. destruct (kp s); try done.
      + apply Edn. by left.
      + destruct I13. split; [|done]. apply Edn. by left.
  Qed.

  (** A step of the consumer that takes nothing. *)
  Lemma minv_k_silent s d kp' pr evs : minv s ->
    claims evs = [] -> gots evs = [] -> done_tickets evs = [] ->
    match kp' with KIdle | KRead false | KStore false _ => d = D s | _ => d = D s + 1 end ->
    match kp' with
    | KRead _ => dn s (D s)
    | KStore _ v => dn s (D s) /\ exists p, tkat s (D s) = Some (p, v)
    | _ => True
    end -> minv (upd_k s d (slots s) kp' pr evs).
  Proof.
    intros Hi Ec Eg Ed Hd Hk'. set (s' := upd_k _ _ _ _ _ _).
    assert (Etk : tk s' = tk s) by (unfold tk; simpl; by rewrite claims_app, Ec, app_nil_r).
    assert (Egt : gots (mlog s') = gots (mlog s)) by (simpl; by rewrite gots_app, Eg, app_nil_r).
    assert (Edn : done_tickets (mlog s') = done_tickets (mlog s)) by (simpl; by rewrite dones_app, Ed, app_nil_r).
    assert (ED : D s' = D s) by (unfold D; by rewrite Egt).
    unfold dn in *. destruct Hi as [I1 I2 I3 I4 I5 I6 I7 I8 I9 I10 I11 I12 I13].
    split; unfold tkat, dn, sl in *; rewrite ?Etk, ?Egt, ?Edn, ?ED; try done.
    intros p' t v Hin. apply in_app_iff in Hin as [Hin|Hin]; [by apply I11|].
    exfalso. assert (In t (done_tickets evs)) as Hx by (apply in_done_tickets; eauto). by rewrite Ed in Hx.
  Qed.

  (** Handing over an item and freeing its slot. *)
  Lemma minv_k_store s g v : minv s -> kp s = KStore g v ->
    minv (upd_k s (D s + 1) (set_slot (slots s) (D s mod size) (D s + 1 + mask, snd (slots s (D s mod size))))
            KIdle (kprog s) [EGot v]).
  Proof.
    intros Hi Ekp. set (s' := upd_k _ _ _ _ _ _). pose proof size_ge2 as Hsz. pose proof mask_succ as Hms.
    assert (Etk : tk s' = tk s) by (unfold tk; simpl; by rewrite claims_app, app_nil_r).
    assert (Egt : gots (mlog s') = gots (mlog s) ++ [v]) by (simpl; by rewrite gots_app).
    assert (Edn : done_tickets (mlog s') = done_tickets (mlog s)) by (simpl; by rewrite dones_app, app_nil_r).
    assert (ED : D s' = D s + 1) by (unfold D; rewrite Egt, app_length; simpl; lia).
    assert (Eoth : forall t', D s + 1 <= t' -> t' < D s + size -> sl s' t' = sl s t').
    { intros t' H1 H2. unfold sl. simpl. apply set_ne. intros E. apply (mod_inj (D s)) in E; lia. }
    pose proof (m_kp _ Hi) as Hkp. rewrite Ekp in Hkp. destruct Hkp as (HdD & p0 & Hp0).
    destruct Hi as [I1 I2 I3 I4 I5 I6 I7 I8 I9 I10 I11 I12 I13].
    assert (HgeD : forall p pc pr t v0, prods s !! p = Some (pc, pr) -> holds pc t v0 -> D s + 1 <= t).
    { intros p pc pr t v0 Hp Hv. destruct (I9 _ _ _ _ _ Hp Hv) as (_ & Hn & _).
      destruct (N.lt_ge_cases t (D s)) as [Hlt|]; [by apply I7 in Hlt|].
      destruct (N.eq_dec t (D s)) as [->|]; [done|lia]. }
    unfold dn, tkat in *.
    split; unfold dn, tkat; rewrite ?Egt, ?Etk, ?ED, ?Edn; try done.
    - destruct I3 as [r E]. destruct r as [|x r].
      + exfalso. apply lookup_lt_Some in Hp0. apply (f_equal length) in E.
        rewrite map_length, app_length in E. unfold D in Hp0. simpl in E. lia.
      + exists r. rewrite E, <- app_assoc. do 2 f_equal. simpl. f_equal.
        assert (Hx : map snd (tk s) !! N.to_nat (D s) = Some x).
        { rewrite E. unfold D. rewrite Nat2N.id, lookup_app_r by lia. by rewrite Nat.sub_diag. }
        change (map snd (tk s)) with (snd <$> tk s) in Hx. rewrite list_lookup_fmap, Hp0 in Hx. by injection Hx.
    - intros t H1 H2 H3. destruct (N.eq_dec t (D s + size)) as [->|Hne].
      + unfold sl. simpl. replace ((D s + size) mod size) with (D s mod size).
        2: { replace (D s + size) with (D s + 1 * size) by lia. by rewrite N.mod_add by lia. }
        rewrite set_eq. simpl. lia.
      + rewrite Eoth by lia. apply I4; [lia|lia|done].
    - intros t H1 H2 H3. destruct (N.eq_dec t (D s + size)) as [->|Hne].
      + apply I6 in H3. lia.
      + rewrite Eoth by lia. apply I5; [lia|lia|done].
    - intros t H. apply I6 in H. lia.
    - intros t H. destruct (N.eq_dec t (D s)) as [->|]; [done|]. apply I7. lia.
    - intros p pc pr t v0 Hp Hv. destruct (I9 _ _ _ _ _ Hp Hv) as (A & B & C & F).
      split; [done|]. split; [done|]. split; [intros Hc; apply C in Hc; lia|].
      intros ->. rewrite Eoth; [by apply F|by eapply HgeD|by apply C].
    - intros p pr t v0. destruct (I10 p pr t v0) as [A B]. split; [done|]. intros Hp. apply B in Hp. lia.
    - intros p t v0 Hin. simpl in Hin. apply in_app_iff in Hin as [Hin|[Hin|[]]]; [|done]. by apply I11.
  Qed.

  Lemma deq_pos s (get : bool) : minv s -> (kp s = KRead get \/ exists v, kp s = KStore get v) ->
    (if get then mdeq s - 1 else mdeq s) = D s.
  Proof.
    intros Hi H. pose proof (m_deq _ Hi) as Hd.
    destruct H as [E|[v E]]; rewrite E in Hd; destruct get; lia.
  Qed.

  Lemma minv_kstep s : minv s -> minv (kstep mask s).
  Proof.
    intros Hi. pose proof (m_deq _ Hi) as Hd. pose proof (m_kp _ Hi) as Hkp. unfold kstep.
    assert (Hsz := size_ge2).
    assert (Hfull : fst (slots s (slot_of mask (D s))) = D s + 1 -> dn s (D s)).
    { rewrite slot_mod. fold (sl s (D s)). intros E.
      destruct (in_dec N.eq_dec (D s) (done_tickets (mlog s))) as [|Hn]; [done|].
      rewrite (m_free _ Hi) in E; [lia|lia|lia|done]. }
    destruct (kp s) as [| | |get|get v|] eqn:Ek.
    - destruct (kprog s) as [|[| |] rest]; [done| | |].
      + rewrite Hd. destruct (N.eqb_spec (fst (slots s (slot_of mask (D s)))) (D s + 1)) as [E|E].
        * apply minv_k_silent; auto.
        * apply minv_k_silent; auto.
      + rewrite Hd. destruct (N.eqb_spec (fst (slots s (slot_of mask (D s)))) (D s + 1)) as [E|E];
          apply minv_k_silent; auto.
      + apply minv_k_silent; auto.
    - rewrite Hd. replace (D s + 1 - 1) with (D s) by lia.
      destruct (N.eqb_spec (fst (slots s (slot_of mask (D s)))) (D s + 1)) as [E|E]; apply minv_k_silent; auto.
    - destruct (mstatus s); apply minv_k_silent; auto.
    - rewrite deq_pos by auto. rewrite slot_mod. apply minv_k_silent; auto.
      split; [done|]. apply (m_full _ Hi); [lia|lia|done].
    - rewrite deq_pos by eauto. rewrite slot_mod. by apply (minv_k_store s get v).
    - done.
  Qed.

  Lemma minv_pstep s p : minv s -> minv (mpstep mask s p).
  Proof.
    intros Hi. unfold mpstep. destruct (prods s !! p) as [[pc prog]|] eqn:Ep; [|done].
    assert (Hno : forall t v t0 v0, ~ holds (MOfferCheck t0 v0) t v /\ ~ holds (MOfferCas t0 v0) t v /\ ~ holds (@MIdle T) t v).
    { intros t v t0 v0. unfold holds. repeat split; by intros [|[|]]. }
    destruct pc as [|t v|t v|t v|t v|t v].
    - destruct prog as [|[v|v|] rest]; [done| | |].
      + eapply minv_p_silent; [done|exact Ep|done|done|done|..]; try done.
        * intros t' v'. split; intros H; by destruct H as [H|[H|H]].
        * intros t' v' H. by destruct H as [H|[H|H]].
        * intros t' v' [= <- <-]. rewrite (m_enq _ Hi). lia.
      + eapply minv_p_claim; eauto. intros t v0 H. by eapply (Hno t v0 0 v).
      + eapply minv_p_silent; [done|exact Ep|done|done|done|..]; try done.
        intros t' v' H. by destruct H as [H|[H|H]].
    - rewrite slot_mod. assert (Hv : holds (MCheck t v) t v) by (unfold holds; tauto).
      destruct (N.eqb_spec (fst (slots s (t mod size))) t) as [E|E]; (eapply minv_p_silent; [done|exact Ep|done|done|done|..]); try done.
      + intros t' v'. unfold holds. split; intros [H|[H|H]]; try done; injection H as -> ->; tauto.
      + intros t' v' H. assert (t' = t /\ v' = v) as [-> ->] by (destruct H as [H|[H|H]]; try done; by injection H).
        split; [|done]. intros _. destruct (m_held _ Hi _ _ _ _ _ Ep Hv) as (_ & Hnd & _).
        apply check_ok; auto. by eapply held_ge.
      + intros t' v' H. assert (t' = t /\ v' = v) as [-> ->] by (destruct H as [H|[H|H]]; try done; by injection H).
        split; done.
    - rewrite slot_mod. by apply minv_p_write.
    - rewrite slot_mod. by apply minv_p_store.
    - rewrite slot_mod. destruct (N.eqb_spec (fst (slots s (t mod size))) t) as [E|E]; (eapply minv_p_silent; [done|exact Ep|done|done|done|..]); try done.
      + intros t' v'. split; intros H; by destruct H as [H|[H|H]].
      + intros t' v' H. by destruct H as [H|[H|H]].
      + intros t' v' [= <- <-]. destruct (m_offer _ Hi p prog t v) as [A _]. specialize (A Ep). split; [done|].
        destruct (N.eq_dec t (N.of_nat (length (tk s)))) as [Et|]; [|lia]. left.
        apply check_ok; auto; [rewrite Et; by apply D_le|]. intros H. apply (m_dn _ Hi) in H. lia.
      + intros t' v'. split; intros H; by destruct H as [H|[H|H]].
      + intros t' v' H. by destruct H as [H|[H|H]].
    - destruct (m_offer _ Hi p prog t v) as [_ A]. specialize (A Ep).
      destruct (N.eqb_spec (menq s) t) as [E|E].
      + eapply minv_p_claim; eauto; [intros ? ? H; by destruct H as [H|[H|H]]|]. right. rewrite E. split; [done|].
        pose proof (m_enq _ Hi). lia.
      + eapply minv_p_silent; [done|exact Ep|done|done|done|..]; try done.
        * intros t' v'. split; intros H; by destruct H as [H|[H|H]].
        * intros t' v' H. by destruct H as [H|[H|H]].
  Qed.

  Lemma minv_init (junk : T) progs kpr : minv (mpsc_init junk progs kpr).
  Proof.
    pose proof size_ge2. split; unfold tkat, tk, dn, D, sl; simpl; try done.
    - by exists [].
    - intros t _ Ht _. apply N.mod_small. lia.
    - intros t Ht. lia.
    - intros t Ht. lia.
    - intros p pc pr t v Hp. change (map ?f progs) with (f <$> progs) in Hp. rewrite list_lookup_fmap in Hp.
      destruct (progs !! p); [|done]. injection Hp as <- <-. intros Hv. by destruct Hv as [|[|]].
    - intros p pr t v. change (map ?f progs) with (f <$> progs). rewrite list_lookup_fmap.
      destruct (progs !! p); simpl; split; done.
    - constructor.
  Qed.

  Lemma minv_run s sched : minv s -> minv (mrun mask s sched).
  Proof.
    revert s. induction sched as [|[p|] sched IH]; intros s Hi; [done| |]; simpl; apply IH.
    - by apply minv_pstep.
    - by apply minv_kstep.
  Qed.

  (** Every event is justified by what came before it. *)
  Definition all_just s : Prop := forall l e r, mlog s = l ++ e :: r -> mjust size l e.
  Definition offering s : Prop := forall p t v pr,
    prods s !! p = Some (MOfferCheck t v, pr) \/ prods s !! p = Some (MOfferCas t v, pr) ->
    exists l1 l2, mlog s = l1 ++ EStart p :: l2 /\
      Forall (fun e => e <> EStart p /\ ends_call p e = false) l2 /\ N.of_nat (length (claims l1)) = t.
  Record linv s : Prop := {
    l_just : all_just s;
    l_offer : offering s;
    l_status : mstatus s = true -> exists p, In (EClose p) (mlog s);
    l_kstat : kp s = KStatus -> exists l1 l2, mlog s = l1 ++ EChecked :: l2 /\ gots l2 = [] }.

  Lemma just_snoc (lg : list (mev T)) evs : (forall l e r, lg = l ++ e :: r -> mjust size l e) ->
    (evs = [] \/ exists e, evs = [e] /\ mjust size lg e) ->
    forall l e r, lg ++ evs = l ++ e :: r -> mjust size l e.
  Proof.
    intros H [-> |(e0 & -> & He)] l e r E.
    - rewrite app_nil_r in E. by eapply H.
    - destruct r as [|x r _] using rev_ind.
      + apply app_inj_tail in E as [-> ->]. done.
      + rewrite app_comm_cons, app_assoc in E. apply app_inj_tail in E as [-> _]. by eapply H.
  Qed.

  Lemma linv_p s p pc0 pr0 enq sl' st pc pr evs : linv s -> prods s !! p = Some (pc0, pr0) ->
    (evs = [] \/ exists e, evs = [e] /\ mjust size (mlog s) e) ->
    gots evs = [] -> (forall p' e, In e evs -> p' <> p -> e <> EStart p' /\ ends_call p' e = false) ->
    (st = true -> mstatus s = true \/ exists p, In (EClose p) evs) ->
    (forall t v, pc = MOfferCheck t v \/ pc = MOfferCas t v ->
        exists l1 l2, mlog s ++ evs = l1 ++ EStart p :: l2 /\
      Forall (fun e => e <> EStart p /\ ends_call p e = false) l2 /\ N.of_nat (length (claims l1)) = t) ->
    linv (upd_p s p enq sl' st pc pr evs).
  Proof.
    intros [L1 L2 L3 L4] Hp He Hg Hev Hst Hoff. split.
    - unfold all_just. simpl. by apply just_snoc.
    - intros p' t v pr' Hp'. simpl in *.
      assert ((p' = p /\ (pc = MOfferCheck t v \/ pc = MOfferCas t v)) \/ (p' <> p /\
              (prods s !! p' = Some (MOfferCheck t v, pr') \/ prods s !! p' = Some (MOfferCas t v, pr')))) as [[-> H]|[Hne H]].
      { destruct Hp' as [Hp'|Hp']; destruct (prods_upd _ _ _ _ _ _ _ _ Hp Hp') as [[-> E]|[Hne E]]; try (injection E as <- _); tauto. }
      + by eapply Hoff.
      + destruct (L2 _ _ _ _ H) as (l1 & l2 & -> & HF & Ht). exists l1, (l2 ++ evs).
        split; [by rewrite <- app_assoc|]. split; [|done]. apply Forall_app. split; [done|].
        apply List.Forall_forall. intros e Hin. by apply Hev.
    - simpl. intros Hs. destruct (Hst Hs) as [H|[p' H]].
      + destruct (L3 H) as [p' Hp']. exists p'. apply in_app_iff. by left.
      + exists p'. apply in_app_iff. by right.
    - simpl. intros H. destruct (L4 H) as (l1 & l2 & -> & Hl2). exists l1, (l2 ++ evs).
      split; [by rewrite <- app_assoc|]. by rewrite gots_app, Hl2, Hg.
  Qed.

  Lemma linv_pstep s p : minv s -> linv s -> linv (mpstep mask s p).
  Proof.
    intros Hi Hl. unfold mpstep. destruct (prods s !! p) as [[pc prog]|] eqn:Ep; [|done].
    assert (Hw : forall pc', ((exists t v, pc = MOfferCheck t v /\ pc' = MOfferCas t v) \/ (forall t v, pc' <> MOfferCheck t v /\ pc' <> MOfferCas t v)) ->
       forall t v, pc' = MOfferCheck t v \/ pc' = MOfferCas t v ->
        exists l1 l2, mlog s ++ [] = l1 ++ EStart p :: l2 /\
      Forall (fun e => e <> EStart p /\ ends_call p e = false) l2 /\ N.of_nat (length (claims l1)) = t).
    { intros pc' [(t & v & -> & ->)|Hn] t' v' H.
      - destruct H as [|[= <- <-]]; [done|]. rewrite app_nil_r. by apply (l_offer _ Hl p t v prog); auto.
      - exfalso. destruct (Hn t' v'). tauto. }
    assert (Hsil : forall st enq sl' pc' pr', st = mstatus s -> ((exists t v, pc = MOfferCheck t v /\ pc' = MOfferCas t v) \/ (forall t v, pc' <> MOfferCheck t v /\ pc' <> MOfferCas t v)) ->
       linv (upd_p s p enq sl' st pc' pr' [])).
    { intros st enq sl' pc' pr' -> H. eapply linv_p; eauto; intros; done. }
    assert (Hone : forall st enq sl' pc' pr' e, st = mstatus s \/ e = EClose p -> (forall t v, pc' <> MOfferCheck t v /\ pc' <> MOfferCas t v) ->
       mjust size (mlog s) e -> gots [e] = [] -> (forall p', p' <> p -> e <> EStart p' /\ ends_call p' e = false) ->
       linv (upd_p s p enq sl' st pc' pr' [e])).
    { intros st enq sl' pc' pr' e Hst Hpc Hj Hg Ho. eapply linv_p; eauto.
      - intros p' e' [<-|[]]. by apply Ho.
      - intros ->. destruct Hst as [<-| ->]; [by left|right]. exists p. by left.
      - intros t v H. exfalso. destruct (Hpc t v). tauto. }
    assert (Href : forall t v, (pc = MOfferCheck t v \/ pc = MOfferCas t v) ->
       (t < N.of_nat (length (tk s)) \/ D s + size <= N.of_nat (length (tk s))) -> mjust size (mlog s) (ERefuse p v)).
    { intros t v Hpc Ht. destruct (l_offer _ Hl p t v prog) as (l1 & l2 & E & HF & Hlen).
      { destruct Hpc as [-> | ->]; tauto. }
      simpl. exists l1, l2. split; [done|]. split; [done|]. destruct Ht as [Ht|Ht]; [left|by right].
      unfold tk in Ht. rewrite E, claims_app in Ht. change (EStart p :: l2) with ([EStart p] ++ l2) in Ht.
      rewrite claims_app, !app_length in Ht. simpl in Ht. destruct (claims l2); [simpl in Ht; lia|done]. }
    destruct pc as [|t v|t v|t v|t v|t v].
    - destruct prog as [|[v|v|] rest]; [done| | |].
      + eapply linv_p; eauto.
        * right. by exists (EStart p).
        * intros p' e [<-|[]] Hne. split; [|done]. intros [= E]. done.
        * intros t v' H. destruct H as [[= <- <-]|]; [|done]. exists (mlog s), [].
          split; [done|]. split; [constructor|]. symmetry. apply (m_enq _ Hi).
      + apply Hone; try done. auto.
      + apply Hone; auto; try done. intros p' Hne. split; [done|]. simpl. apply Nat.eqb_neq. lia.
    - destruct (_ =? _); (apply Hsil; [done|]); right; done.
    - apply Hsil; [done|]. right; done.
    - assert (Hv : holds (MStore t v) t v) by (unfold holds; tauto).
      destruct (m_held _ Hi _ _ _ _ _ Ep Hv) as (A & B & C & F).
      apply Hone; try done; [auto| |].
      + simpl. unfold tkat in A. rewrite nth_error_lookup. split; [done|]. split; [done|]. by apply C.
      + intros p' Hne. split; [done|]. simpl. apply Nat.eqb_neq. lia.
    - rewrite slot_mod. destruct (N.eqb_spec (fst (slots s (t mod size))) t) as [E|E].
      + apply Hsil; [done|]. left. eauto.
      + apply Hone; try done; [auto| |].
        * apply (Href t); [auto|]. destruct (m_offer _ Hi p prog t v) as [A _]. specialize (A Ep).
          destruct (N.eq_dec t (N.of_nat (length (tk s)))) as [Et|]; [|lia]. right. pose proof (D_le _ Hi).
          destruct (N.lt_ge_cases t (D s + size)) as [Hlt|]; [|lia]. exfalso. apply E.
          apply (m_free _ Hi); [lia|done|]. intros H'. apply (m_dn _ Hi) in H'. lia.
        * intros p' Hne. split; [done|]. simpl. apply Nat.eqb_neq. lia.
    - destruct (N.eqb_spec (menq s) t) as [E|E].
      + apply Hone; try done. auto.
      + apply Hone; try done; [auto| |].
        * apply (Href t); [auto|]. destruct (m_offer _ Hi p prog t v) as [_ A]. specialize (A Ep).
          pose proof (m_enq _ Hi). lia.
        * intros p' Hne. split; [done|]. simpl. apply Nat.eqb_neq. lia.
  Qed.

  Lemma linv_k s d sl' kp' pr evs : linv s ->
    (evs = [] \/ exists e, evs = [e] /\ mjust size (mlog s) e) ->
    (forall p' e, In e evs -> e <> EStart p' /\ ends_call p' e = false) ->
    (kp' = KStatus -> evs = [EChecked]) ->
    linv (upd_k s d sl' kp' pr evs).
  Proof.
    intros [L1 L2 L3 L4] He Hev Hst. split.
    - unfold all_just. simpl. by apply just_snoc.
    - intros p' t v pr' Hp'. simpl in *.
      destruct (L2 _ _ _ _ Hp') as (l1 & l2 & -> & HF & Ht). exists l1, (l2 ++ evs).
      split; [by rewrite <- app_assoc|]. split; [|done]. apply Forall_app. split; [done|].
      apply List.Forall_forall. intros e Hin. by apply Hev.
    - simpl. intros H. destruct (L3 H) as [p' Hp']. exists p'. apply in_app_iff. by left.
    - simpl. intros ->. exists (mlog s), []. rewrite Hst by done. done.
  Qed.

  Lemma linv_kstep s : minv s -> linv s -> linv (kstep mask s).
  Proof.
    intros Hi Hl. pose proof (m_deq _ Hi) as Hd. unfold kstep. pose proof size_ge2 as Hsz.
    assert (Hsil : forall d sl' kp' pr, kp' <> KStatus -> linv (upd_k s d sl' kp' pr [])).
    { intros. apply linv_k; auto; done. }
    assert (Hone : forall d sl' kp' pr e, mjust size (mlog s) e -> (forall p', e <> EStart p' /\ ends_call p' e = false) ->
       (kp' = KStatus -> e = EChecked) -> linv (upd_k s d sl' kp' pr [e])).
    { intros d sl' kp' pr e Hj He Hs. apply linv_k; eauto.
      - intros p' e' [<-|[]]. apply He.
      - intros H. by rewrite Hs. }
    assert (Hempty : fst (slots s (slot_of mask (D s))) <> D s + 1 -> ~ In (D s) (done_tickets (mlog s))).
    { rewrite slot_mod. fold (sl s (D s)). intros E Hin. apply E. apply (m_full _ Hi); [lia|lia|done]. }
    destruct (kp s) as [| | |get|get v|] eqn:Ek.
    - destruct (kprog s) as [|[| |] rest]; [done| | |].
      + rewrite Hd. destruct (N.eqb_spec (fst (slots s (slot_of mask (D s)))) (D s + 1)) as [E|E].
        * by apply Hsil.
        * apply Hone; [|done|done]. by apply Hempty.
      + rewrite Hd. destruct (N.eqb_spec (fst (slots s (slot_of mask (D s)))) (D s + 1)) as [E|E]; by apply Hsil.
      + apply Hone; [|done|done]. simpl. intros Hlt. fold (tk s) in *. fold (D s). pose proof (D_le _ Hi).
        rewrite (m_enq _ Hi), Hd. change (2 ^ 64) with w64 in Hlt.
        replace (N.of_nat (length (tk s)) + w64 - D s) with (N.of_nat (length (tk s)) - D s + 1 * w64) by lia.
        rewrite N.mod_add by done. apply N.mod_small. lia.
    - rewrite Hd. replace (D s + 1 - 1) with (D s) by lia.
      destruct (N.eqb_spec (fst (slots s (slot_of mask (D s)))) (D s + 1)) as [E|E].
      + by apply Hsil.
      + apply Hone; [|done|done]. by apply Hempty.
    - destruct (mstatus s) eqn:Es.
      + apply Hone; [|done|done]. split; [by apply Hl|]. by apply Hl.
      + by apply Hsil.
    - by apply Hsil.
    - apply Hone; [|done|done]. pose proof (m_kp _ Hi) as Hkp. rewrite Ek in Hkp.
      destruct Hkp as (Hdn & p & Hp). apply in_done_tickets in Hdn as (p' & v' & Hin).
      pose proof (m_done _ Hi _ _ _ Hin) as E. rewrite Hp in E. injection E as <- <-. simpl. by exists p.
    - done.
  Qed.

  Lemma linv_init (junk : T) progs kpr : linv (mpsc_init junk progs kpr).
  Proof.
    split; try done.
    - intros l e r E. simpl in E. by destruct l.
    - intros p t v pr H. simpl in H. change (map ?f progs) with (f <$> progs) in H.
      rewrite !list_lookup_fmap in H. destruct (progs !! p); simpl in H; by destruct H.
  Qed.
  Lemma linv_run s sched : minv s -> linv s -> linv (mrun mask s sched).
  Proof.
    revert s. induction sched as [|[p|] sched IH]; intros s Hi Hl; [done| |]; simpl; apply IH.
    - by apply minv_pstep.
    - by apply linv_pstep.
    - by apply minv_kstep.
    - by apply linv_kstep.
  Qed.

  (** A producer whose slot is free is finished after three of its own steps. *)
  Lemma producer_finishes s p pc pr t v : minv s -> prods s !! p = Some (pc, pr) -> holds pc t v -> t < D s + size ->
    In (EDone p t v) (mlog (mrun mask s [Some p; Some p; Some p])).
  Proof.
    intros Hi Hp Hv Hlt.
    assert (Hmono : forall s sched e, In e (mlog s) -> In e (mlog (mrun mask s sched))).
    { clear. intros s sched e. revert s. induction sched as [|x sched IH]; intros s H; [done|]. simpl. apply IH.
      destruct x as [p|]; [unfold mpstep|unfold kstep]; repeat case_match; simpl; try done; apply in_app_iff; by left. }
    assert (H1 : forall s, prods s !! p = Some (MStore t v, pr) -> In (EDone p t v) (mlog (mpstep mask s p))).
    { intros s0 H. unfold mpstep. rewrite H. simpl. apply in_app_iff. right. by left. }
    assert (H2 : forall s, prods s !! p = Some (MWrite t v, pr) -> prods (mpstep mask s p) !! p = Some (MStore t v, pr)).
    { intros s0 H. unfold mpstep. rewrite H. by eapply prods_upd_eq. }
    destruct Hv as [-> | [-> | ->]].
    - assert (E : prods (mpstep mask s p) !! p = Some (MWrite t v, pr)).
      { unfold mpstep. rewrite Hp, slot_mod. assert (Hh : holds (MCheck t v) t v) by (unfold holds; tauto).
        destruct (m_held _ Hi _ _ _ _ _ Hp Hh) as (_ & Hnd & _). fold (sl s t).
        rewrite (m_free _ Hi), N.eqb_refl; [by eapply prods_upd_eq| |done|done]. by eapply held_ge. }
      simpl. apply H1, H2, E.
    - simpl.
      apply (Hmono _ [Some p]). by apply H1, H2.
    - simpl. apply (Hmono _ [Some p; Some p]). by apply H1.
  Qed.

  (** A consumer that starts looking when the next ticket is finished gets it within three of
      its own steps. *)
  Lemma consumer_gets s : minv s -> dn s (D s) ->
    (kp s = KSlow \/ (kp s = KIdle /\ exists o rest, kprog s = o :: rest /\ o <> MAvail) \/ exists g, kp s = KRead g) ->
    length (gots (mlog (mrun mask s [None; None; None]))) = S (length (gots (mlog s))).
  Proof.
    intros Hi Hdn Hk'. pose proof size_ge2. simpl.
    assert (Hfull : fst (slots s (slot_of mask (D s))) =? D s + 1 = true).
    { apply N.eqb_eq. rewrite slot_mod. apply (m_full _ Hi); [lia|lia|done]. }
    assert (Hr : forall s0 g v, kp s0 = KStore g v -> length (gots (mlog (kstep mask s0))) = S (length (gots (mlog s0))) /\ kp (kstep mask s0) = KIdle).
    { intros s0 g v E. unfold kstep. rewrite E. simpl. rewrite gots_app, app_length. simpl. split; [lia|done]. }
    assert (Hs : forall s0 g, kp s0 = KRead g -> gots (mlog (kstep mask s0)) = gots (mlog s0) /\ exists v, kp (kstep mask s0) = KStore g v).
    { intros s0 g E. unfold kstep. rewrite E. simpl. rewrite app_nil_r. eauto. }
    pose proof (m_deq _ Hi) as Hd.
    assert (Hread : (exists g, kp (kstep mask s) = KRead g /\ gots (mlog (kstep mask s)) = gots (mlog s)) ->
      length (gots (mlog (kstep mask (kstep mask (kstep mask s))))) = S (length (gots (mlog s)))).
    { intros (g & E & E'). destruct (Hs _ _ E) as [E1 [v E2]]. destruct (Hr _ _ _ E2) as [E3 _]. by rewrite E3, E1, E'. }
    destruct Hk' as [E|[[E (o & rest & Er & Ho)]|[g E]]].
    - apply Hread. exists true. unfold kstep. rewrite E in *. rewrite Hd. replace (D s + 1 - 1) with (D s) by lia.
      rewrite Hfull. simpl. by rewrite app_nil_r.
    - apply Hread. unfold kstep. rewrite E in *. rewrite Er, Hd. destruct o; [| |done]; rewrite Hfull; simpl; rewrite app_nil_r; eauto.
    - destruct (Hs _ _ E) as [E1 [v E2]]. destruct (Hr _ _ _ E2) as [E3 E4].
      assert (Hi2 : minv (kstep mask (kstep mask s))) by (by apply minv_kstep, minv_kstep).
      rewrite <- E1, <- E3. remember (kstep mask (kstep mask s)) as s2 eqn:Es2. clear -E4.
      unfold kstep. rewrite E4. destruct (kprog s2) as [|[| |] ?]; [done| | |]; try (destruct (_ =? _)); simpl; by rewrite ?gots_app, ?app_nil_r.
  Qed.
End proofs.

(** Each goroutine's events are the answers to its calls. *)
Section conf.
  Context {T : Type} (mask : N).
  Implicit Types s : mrb T.
  Definition cur_ok (pc : mppc T) (cur : list (mop T)) : Prop :=
    match pc with
    | MIdle => cur = []
    | MCheck _ v => cur = [MPut v]
    | MWrite _ v | MStore _ v => cur = [MPut v] \/ cur = [MOffer v]
    | MOfferCheck _ v | MOfferCas _ v => cur = [MOffer v]
    end.
  Definition holding (pc : mppc T) : list T :=
    match pc with MCheck _ v | MWrite _ v | MStore _ v => [v] | _ => [] end.
  Definition pconf s p prog : Prop := exists pc pr don cur,
    prods s !! p = Some (pc, pr) /\ prog = don ++ cur ++ pr /\ cur_ok pc cur /\
    Forall2 (manswer p) don (List.filter (ends_call p) (mlog s)) /\
    claims_of p (mlog s) = dones_of p (mlog s) ++ holding pc.

  Lemma pconf_same s s' p prog evs : prods s' !! p = prods s !! p -> mlog s' = mlog s ++ evs ->
    (forall e, In e evs -> ends_call p e = false /\ claims_of p [e] = [] /\ dones_of p [e] = []) ->
    pconf s p prog -> pconf s' p prog.
  Proof.
    intros E1 E2 He (pc & pr & don & cur & A & B & C & F & G).
    exists pc, pr, don, cur. rewrite E1, E2, claims_of_app, dones_of_app, List.filter_app.
    assert (List.filter (ends_call p) evs = [] /\ claims_of p evs = [] /\ dones_of p evs = []) as (-> & -> & ->).
    { clear E2. induction evs as [|e evs IH]; [done|]. destruct (He e) as (H1 & H2 & H3); [by left|].
      destruct IH as (H4 & H5 & H6); [intros e' H; apply He; by right|].
      change (e :: evs) with ([e] ++ evs). rewrite List.filter_app, claims_of_app, dones_of_app, H2, H3, H4, H5, H6.
      simpl. by rewrite H1. }
    rewrite !app_nil_r. done.
  Qed.

  Lemma pconf_upd s p p' prog pc pr pc' pr' enq sl st evs : prods s !! p' = Some (pc', pr') ->
    (forall e, In e evs -> forall q, q <> p' -> ends_call q e = false /\ claims_of q [e] = [] /\ dones_of q [e] = []) ->
    pconf s p prog ->
    (p = p' -> pconf (upd_p s p' enq sl st pc pr evs) p prog) ->
    pconf (upd_p s p' enq sl st pc pr evs) p prog.
  Proof.
    intros Hp Hev Hc Hs. destruct (decide (p = p')) as [E|Hne]; [by apply Hs|].
    eapply pconf_same; [| |..|exact Hc].
    - simpl. by rewrite list_lookup_insert_ne.
    - done.
    - intros e He. by apply Hev.
  Qed.

  (** One event ends the call: append. *)
  Lemma pconf_pstep s p p' prog : pconf s p prog -> pconf (mpstep mask s p') p prog.
  Proof.
    intros Hc. unfold mpstep. destruct (prods s !! p') as [[pc pr]|] eqn:Ep; [|done].
    assert (Hown : forall enq sl st pc2 pr2 evs,
      (forall e, In e evs -> forall q, q <> p' -> ends_call q e = false /\ claims_of q [e] = [] /\ dones_of q [e] = []) ->
      (forall don cur, prog = don ++ cur ++ pr -> cur_ok pc cur -> exists don' cur',
         prog = don ++ don' ++ cur' ++ pr2 /\ cur_ok pc2 cur' /\ Forall2 (manswer p') don' (List.filter (ends_call p') evs)) ->
      holding pc ++ claims_of p' evs = dones_of p' evs ++ holding pc2 ->
      (holding pc = [] \/ claims_of p' evs = []) -> (dones_of p' evs = [] \/ claims_of p' evs = []) ->
      pconf (upd_p s p' enq sl st pc2 pr2 evs) p prog).
    { intros enq sl st pc2 pr2 evs Hev H1 H2 H3 H4. eapply pconf_upd; eauto. intros ->.
      destruct Hc as (pc1 & pr1 & don & cur & A & B & C & F & G).
      rewrite Ep in A. injection A as <- <-.
      destruct (H1 don cur B C) as (don' & cur' & B' & C' & F').
      exists pc2, pr2, (don ++ don'), cur'. split; [by eapply prods_upd_eq|].
      rewrite <- !app_assoc. split; [done|]. split; [done|]. simpl.
      rewrite List.filter_app, claims_of_app, dones_of_app. split; [by apply Forall2_app|].
      rewrite G, <- !app_assoc. by rewrite H2. }
    assert (Hno : forall e, In e (@nil (mev T)) -> forall q, q <> p' -> ends_call q e = false /\ claims_of q [e] = [] /\ dones_of q [e] = []) by (intros ? []).
    destruct pc as [|t v|t v|t v|t v|t v]; cbn [holding cur_ok app] in Hown.
    - destruct pr as [|[v|v|] rest]; [done| | |]; apply Hown; simpl; auto.
      + intros e [<-|[]] q Hq. done.
      + intros don cur E ->. exists [], [MOffer v]. repeat split; [done|constructor].
      + intros e [<-|[]] q Hq. unfold claims_of. simpl. assert (Nat.eqb p' q = false) as -> by (apply Nat.eqb_neq; lia). done.
      + intros don cur E ->. exists [], [MPut v]. repeat split; [done|constructor].
      + unfold claims_of. simpl. by rewrite Nat.eqb_refl.
      + intros e [<-|[]] q Hq. simpl. assert (Nat.eqb p' q = false) as -> by (apply Nat.eqb_neq; lia). done.
      + intros don cur E ->. exists [MClose], []. rewrite Nat.eqb_refl. repeat split; [done|]. repeat constructor.
    - destruct (_ =? _); (apply Hown; [exact Hno| |auto..]); intros don cur E ->; exists [], [MPut v].
      + split; [done|]. split; [by left|constructor].
      + split; [done|]. split; [done|constructor].
    - apply Hown; auto. intros don cur E Hcur. exists [], cur. split; [done|]. split; [done|constructor].
    - apply Hown; auto.
      + intros e [<-|[]] q Hq. simpl. assert (Nat.eqb p' q = false) as -> by (apply Nat.eqb_neq; lia). done.
      + intros don cur E Hcur. exists cur, []. split; [by rewrite E|]. split; [done|]. simpl. rewrite Nat.eqb_refl.
        destruct Hcur as [-> | ->]; (constructor; [|constructor]); simpl; eauto.
      + simpl. by rewrite Nat.eqb_refl.
    - destruct (_ =? _); apply Hown; auto.
      + intros don cur E Hcur. exists [], cur. split; [done|]. split; [done|constructor].
      + intros e [<-|[]] q Hq. simpl. assert (Nat.eqb p' q = false) as -> by (apply Nat.eqb_neq; lia). done.
      + intros don cur E ->. exists [MOffer v], []. split; [by rewrite E|]. split; [done|]. simpl. rewrite Nat.eqb_refl.
        constructor; [|constructor]. simpl. auto.
    - destruct (_ =? _); apply Hown; auto.
      + intros e [<-|[]] q Hq. unfold claims_of. simpl. assert (Nat.eqb p' q = false) as -> by (apply Nat.eqb_neq; lia). done.
      + intros don cur E ->. exists [], [MOffer v]. split; [done|]. split; [by right|constructor].
      + unfold claims_of. simpl. by rewrite Nat.eqb_refl.
      + intros e [<-|[]] q Hq. simpl. assert (Nat.eqb p' q = false) as -> by (apply Nat.eqb_neq; lia). done.
      + intros don cur E ->. exists [MOffer v], []. split; [by rewrite E|]. split; [done|]. simpl. rewrite Nat.eqb_refl.
        constructor; [|constructor]. simpl. auto.
  Qed.

  Lemma pconf_kstep s p prog : pconf s p prog -> pconf (kstep mask s) p prog.
  Proof.
    intros H. unfold kstep. repeat (case_match; try done);
      (eapply pconf_same; [| |..|exact H]; [done|done|]); intros e He; repeat (destruct He as [<-|He]; [done|]); done.
  Qed.

  Definition kcur_ok (k : mcpc T) (cur : list mcop) : Prop :=
    match k with
    | KIdle | KDone => cur = []
    | KRead false | KStore false _ => cur = [MAccept]
    | _ => cur = [MGet]
    end.
  Definition kconf s prog : Prop := exists don cur,
    prog = don ++ cur ++ kprog s /\ kcur_ok (kp s) cur /\ Forall2 mcanswer don (List.filter ends_ccall (mlog s)).

  Lemma kconf_step s d sl k pr evs prog : kconf s prog ->
    (forall don cur, prog = don ++ cur ++ kprog s -> kcur_ok (kp s) cur -> exists don' cur',
         prog = don ++ don' ++ cur' ++ pr /\ kcur_ok k cur' /\ Forall2 mcanswer don' (List.filter ends_ccall evs)) ->
    kconf (upd_k s d sl k pr evs) prog.
  Proof.
    intros (don & cur & A & B & C) H. destruct (H don cur A B) as (don' & cur' & A' & B' & C').
    exists (don ++ don'), cur'. simpl. rewrite <- app_assoc, List.filter_app. split; [done|]. split; [done|].
    by apply Forall2_app.
  Qed.

  Lemma kconf_kstep s prog : kconf s prog -> kconf (kstep mask s) prog.
  Proof.
    intros Hc. unfold kstep. destruct (kp s) as [| | |get|get v|] eqn:Ek.
    - destruct (kprog s) as [|[| |] rest] eqn:Er; [done| | |].
      + destruct (_ =? _); (apply kconf_step; [done|]); rewrite Ek, Er; intros don cur E ->.
        * exists [], [MAccept]. repeat split; [done|constructor].
        * exists [MAccept], []. repeat split; [done|]. simpl. constructor; [|constructor]. simpl. auto.
      + destruct (_ =? _); (apply kconf_step; [done|]); rewrite Ek, Er; intros don cur E ->;
          (exists [], [MGet]; repeat split; [done|constructor]).
      + apply kconf_step; [done|]. rewrite Ek, Er. intros don cur E ->.
        exists [MAvail], []. repeat split; [done|]. simpl. constructor; [|constructor]. simpl. eauto.
    - destruct (_ =? _); (apply kconf_step; [done|]); rewrite Ek; intros don cur E ->;
          (exists [], [MGet]; repeat split; [done|constructor]).
    - destruct (mstatus s); (apply kconf_step; [done|]); rewrite Ek; intros don cur E ->.
      + exists [MGet], []. repeat split; [done|]. simpl. constructor; [|constructor]. simpl. auto.
      + exists [], [MGet]; repeat split; [done|constructor].
    - apply kconf_step; [done|]. rewrite Ek. intros don cur E Hcur. exists [], cur. repeat split; [done|done|constructor].
    - apply kconf_step; [done|]. rewrite Ek. intros don cur E Hcur. exists cur, []. split; [by rewrite E|]. split; [done|].
      destruct get; simpl in Hcur; rewrite Hcur; simpl; (constructor; [|constructor]); simpl; eauto.
    - done.
  Qed.
  Lemma kconf_pstep s p prog : kconf s prog -> kconf (mpstep mask s p) prog.
  Proof.
    intros (don & cur & A & B & C). unfold mpstep.
    repeat (case_match; try by (exists don, cur; split_and!; [exact A|exact B|exact C]));
     (exists don, cur; simpl; split_and!; [exact A|exact B|]; rewrite List.filter_app; simpl; rewrite ?app_nil_r; exact C).
  Qed.

  Lemma conf_run s sched prog p kpr : pconf s p prog -> kconf s kpr ->
    pconf (mrun mask s sched) p prog /\ kconf (mrun mask s sched) kpr.
  Proof.
    revert s. induction sched as [|[q|] sched IH]; intros s H1 H2; [done| |]; simpl; apply IH.
    - by apply pconf_pstep.
    - by apply kconf_pstep.
    - by apply pconf_kstep.
    - by apply kconf_kstep.
  Qed.
  Lemma conf_init (junk : T) progs kpr p prog : progs !! p = Some prog ->
    pconf (mpsc_init junk progs kpr) p prog /\ kconf (mpsc_init junk progs kpr) kpr.
  Proof.
    intros H. split.
    - exists MIdle, prog, [], []. simpl. change (map ?f progs) with (f <$> progs). rewrite list_lookup_fmap, H.
      split_and!; try done.
    - exists [], []. simpl. split_and!; try done.
  Qed.
End conf.
