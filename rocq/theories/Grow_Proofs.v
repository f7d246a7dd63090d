From Verif Require Import Base Grow_Spec Grow_Model.
Open Scope N_scope.

Section logs.
  Context {T : Type}.
  Implicit Types l : list (gev T).
  Lemma puts_app l l' : puts (l ++ l') = puts l ++ puts l'.
  Proof. apply flat_map_app. Qed.
  Lemma gots_app l l' : gots (l ++ l') = gots l ++ gots l'.
  Proof. apply flat_map_app. Qed.
  Lemma grows_app l l' : grows (l ++ l') = (grows l + grows l')%nat.
  Proof. unfold grows. by rewrite List.filter_app, app_length. Qed.
  Lemma scan_app l l' : scan (l ++ l') = fold_left scan1 l' (scan l).
  Proof. apply fold_left_app. Qed.
End logs.

Lemma mod_ne j a b : a < b -> b < a + 2 ^ j -> a mod 2 ^ j <> b mod 2 ^ j.
Proof.
  intros H1 H2 E. assert (Hz : 2 ^ j <> 0) by (by apply N.pow_nonzero).
  pose proof (N.div_mod a (2 ^ j) Hz) as Ea. pose proof (N.div_mod b (2 ^ j) Hz) as Eb. rewrite E in Ea.
  set (qa := a / 2 ^ j) in *. set (qb := b / 2 ^ j) in *.
  destruct (N.lt_total qa qb) as [H|[H|H]].
  - assert (2 ^ j * (qa + 1) <= 2 ^ j * qb) by (apply N.mul_le_mono_l; lia). lia.
  - rewrite H in Ea. lia.
  - assert (2 ^ j * (qb + 1) <= 2 ^ j * qa) by (apply N.mul_le_mono_l; lia). lia.
Qed.
Lemma mod_inj j d a b : d <= a -> a < d + 2 ^ j -> d <= b -> b < d + 2 ^ j -> a mod 2 ^ j = b mod 2 ^ j -> a = b.
Proof.
  intros H1 H2 H3 H4 E. destruct (N.lt_total a b) as [H|[H|H]]; [|done|].
  - exfalso. revert E. apply mod_ne; lia.
  - exfalso. symmetry in E. revert E. apply mod_ne; lia.
Qed.

Section proofs.
  Context {T : Type} (junk : T) (k mg : N) (Hk : 1 <= k).
  Implicit Types s : grb T.
  Notation J b := (k + N.of_nat b).
  Definition sz (b : nat) : N := 2 ^ J b.
  Lemma sz_ge2 b : 2 <= sz b.
  Proof. unfold sz. change 2 with (2 ^ 1) at 1. apply N.pow_le_mono_r; lia. Qed.
  Lemma sz_S b : sz (S b) = sz b * 2.
  Proof. unfold sz. replace (J (S b)) with (N.succ (J b)) by lia. rewrite N.pow_succ_r'. lia. Qed.

  Definition P s : N := N.of_nat (length (puts (glog s))).
  Definition D s : N := N.of_nat (length (gots (glog s))).
  Definition bsl s (b : nat) (t : N) : N * T := snd (gbufs s b) (t mod sz b).
  Lemma gslot_bsl s b t : gslot s b (N.ones (J b)) t = bsl s b t.
  Proof. unfold gslot, bsl, sz. by rewrite N.land_ones. Qed.
  Definition win s (b : nat) (lo mid : N) : Prop := forall t, lo <= t -> t < lo + sz b ->
    (t < mid -> fst (bsl s b t) = t + 1 /\ puts (glog s) !! N.to_nat t = Some (snd (bsl s b t))) /\
    (mid <= t -> fst (bsl s b t) = t).

  Record E s (W : N) : Prop := {
    e_mask : enqMask s = N.ones (J (eb s));
    e_len : fst (gbufs s (eb s)) = sz (eb s);
    e_grows : grows (glog s) = eb s;
    e_max : maxGrow s + N.of_nat (eb s) = mg;
    e_lo : W <= P s;
    e_hi : P s <= W + sz (eb s);
    e_win : win s (eb s) W (P s);
    e_pc : match gpp s with
           | PIdle => genq s = P s
           | POffer t v | POWrite t v | POInc t v => t = P s /\ genq s = P s
           | PFast t v | PWrite t v | PStore t v | PSlow t v | PCan t v | PGrow t v => t = P s /\ genq s = P s + 1
           end;
    e_room : match gpp s with POWrite _ _ | POInc _ _ | PWrite _ _ | PStore _ _ => P s < W + sz (eb s) | _ => True end;
    e_snd : match gpp s with POInc _ v | PStore _ v => snd (bsl s (eb s) (P s)) = v | _ => True end;
    e_grow : match gpp s with PGrow _ _ => isGrown s = false /\ maxGrow s <> 0 | _ => True end }.

  Definition in_get (c : gcpc T) : bool :=
    match c with
    | CRead b | CStore b _ | CLook b _ | CSwitch b | CUngrow b => b
    | CSlow | CStatus | CGrown2 | CEnq | CDone => true
    | CIdle | CIStatus | CIEnq => false
    end.
  Definition is_look (c : gcpc T) : Prop := exists g w, c = CLook g w.
  Definition is_switch (c : gcpc T) : Prop := exists g, c = CSwitch g.
  Definition is_ungrow (c : gcpc T) : Prop := exists g, c = CUngrow g.
  Ltac nl := let H := fresh in intros H; unfold is_look, is_switch, is_ungrow in H;
    repeat match goal with H : exists _, _ |- _ => destruct H | H : _ \/ _ |- _ => destruct H end; first [congruence|done].
  Lemma look_dec (c : gcpc T) : is_look c \/ ~ is_look c.
  Proof. destruct c; try (right; intros (? & ? & ?); done). left. by eexists; eexists. Qed.
  Definition taking s (mid : N) : Prop :=
    match gcp s with
    | CRead _ => D s < mid
    | CStore _ v => D s < mid /\ puts (glog s) !! N.to_nat (D s) = Some v
    | _ => True
    end.

  Record modeA s W : Prop := {
    a_b : db s = eb s;
    a_w : W = D s;
    a_g : isGrown s = true -> is_ungrow (gcp s);
    a_u : is_ungrow (gcp s) -> isGrown s = true;
    a_s : ~ is_switch (gcp s);
    a_t : taking s (P s);
    a_l : is_look (gcp s) -> fst (scan (glog s)) = Some (N.to_nat (P s - D s));
    a_lost : lost (glog s) = false }.
  Record modeB s W : Prop := {
    b_b : eb s = S (db s);
    b_g : isGrown s = true;
    b_u : ~ is_ungrow (gcp s);
    b_lo : D s <= W;
    b_hi : W <= D s + sz (db s);
    b_win : win s (db s) (D s) W;
    b_t : taking s W;
    b_l : is_look (gcp s) \/ is_switch (gcp s) -> D s = W;
    b_lost : lost (glog s) = false }.
  Record modeC s W : Prop := {
    c_d : D s < W;
    c_w : W < P s;
    c_t : forall b v, gcp s <> CRead b /\ gcp s <> CStore b v;
    c_lost : lost (glog s) = true;
    c_b : (db s = eb s /\ (isGrown s = true -> is_ungrow (gcp s)) /\ (is_ungrow (gcp s) -> isGrown s = true) /\ ~ is_switch (gcp s)) \/
          (eb s = S (db s) /\ isGrown s = true /\ ~ is_ungrow (gcp s) /\
            ((is_look (gcp s) \/ is_switch (gcp s)) \/ forall t, fst (bsl s (db s) t) <> D s + 1)) }.

  Record ginv s : Prop := {
    g_ex : exists W, E s W /\ (modeA s W \/ modeB s W \/ modeC s W);
    g_dmask : deqMask s = N.ones (J (db s));
    g_deq : gdeq s = if in_get (gcp s) then D s + 1 else D s;
    g_pre : exists rest, puts (glog s) = gots (glog s) ++ rest;
    g_scan : (is_look (gcp s) -> fst (scan (glog s)) <> None) /\ (~ is_look (gcp s) -> fst (scan (glog s)) = None);
    g_status : gstatus s = true -> In GClose (glog s);
    g_cl : match gcp s with CGrown2 | CEnq | CIEnq => In GClose (glog s) | _ => True end }.

  Lemma D_le s : ginv s -> D s <= P s.
  Proof.
    intros H. destruct (g_pre _ H) as [r Er]. unfold D, P. apply (f_equal length) in Er. rewrite app_length in Er. lia.
  Qed.
  Lemma D_le_W s W : E s W -> modeA s W \/ modeB s W \/ modeC s W -> D s <= W.
  Proof. intros He [[] | [[] | []]]; subst; lia. Qed.

  (** What a slot of the producer's buffer says about the next position. *)
  Lemma enq_free s W : E s W -> fst (bsl s (eb s) (P s)) = P s -> P s < W + sz (eb s).
  Proof.
    intros He Ef. pose proof (e_hi _ _ He). pose proof (sz_ge2 (eb s)).
    destruct (N.eq_dec (P s) (W + sz (eb s))) as [E0|]; [|lia]. exfalso.
    assert (Es : bsl s (eb s) (P s) = bsl s (eb s) W).
    { unfold bsl. rewrite E0. f_equal. replace (W + sz (eb s)) with (W + 1 * sz (eb s)) by lia.
      apply N.mod_add. unfold sz. by apply N.pow_nonzero. }
    destruct (e_win _ _ He W ltac:(lia) ltac:(lia)) as [H1 _]. destruct H1 as [H1 _]; [lia|].
    rewrite Es, H1 in Ef. lia.
  Qed.
  Lemma enq_full s W : E s W -> fst (bsl s (eb s) (P s)) <> P s -> P s = W + sz (eb s).
  Proof.
    intros He Ef. pose proof (e_hi _ _ He). pose proof (e_lo _ _ He).
    destruct (N.eq_dec (P s) (W + sz (eb s))) as [|Hne]; [done|]. exfalso. apply Ef.
    apply (e_win _ _ He (P s)); lia.
  Qed.

  Lemma gset_eq s b t x : snd (gset s b (N.ones (J b)) t x b) (t mod sz b) = x.
  Proof. unfold gset, sz. rewrite Nat.eqb_refl, N.land_ones. simpl. by rewrite N.eqb_refl. Qed.
  Lemma gset_ne s b t x i : i <> t mod sz b -> snd (gset s b (N.ones (J b)) t x b) i = snd (gbufs s b) i.
  Proof. unfold gset, sz. intros H. rewrite Nat.eqb_refl, N.land_ones. simpl. apply N.eqb_neq in H. by rewrite H. Qed.
  Lemma gset_oth s b b' m t x : b' <> b -> gset s b m t x b' = gbufs s b'.
  Proof. unfold gset. intros H. apply Nat.eqb_neq in H. by rewrite H. Qed.
  Lemma gset_len s b m t x b' : fst (gset s b m t x b') = fst (gbufs s b').
  Proof. unfold gset. destruct (Nat.eqb_spec b' b) as [->|]; done. Qed.

  (** Producer steps that touch no buffer and put nothing. *)
  Lemma ginv_p_silent s s' : ginv s ->
    (forall W, E s W -> E s' W) -> eb s' = eb s -> db s' = db s -> deqMask s' = deqMask s -> gdeq s' = gdeq s ->
    gcp s' = gcp s -> isGrown s' = isGrown s -> gbufs s' = gbufs s ->
    puts (glog s') = puts (glog s) -> gots (glog s') = gots (glog s) -> scan (glog s') = scan (glog s) ->
    (gstatus s' = true -> In GClose (glog s')) -> (forall e, In e (glog s) -> In e (glog s')) -> ginv s'.
  Proof.
    intros Hi HE E1 E2 E3 E4 E5 E6 E7 E8 E9 E10 E11 E12.
    assert (HP : P s' = P s) by (unfold P; by rewrite E8).
    assert (HD : D s' = D s) by (unfold D; by rewrite E9).
    destruct Hi as [(W & He & Hm) G2 G3 G4 G5 G6 G7].
    assert (Ht : forall m, taking s m -> taking s' m).
    { intros m. unfold taking. by rewrite E5, HD, E8. }
    assert (Hw : forall b lo mid, win s b lo mid -> win s' b lo mid).
    { intros b lo mid H t. unfold bsl. rewrite E7, E8. apply H. }
    assert (Hb : forall b t, bsl s' b t = bsl s b t) by (intros; unfold bsl; by rewrite E7).
    split; rewrite ?E3, ?E4, ?E5, ?E2, ?HD, ?E8, ?E9, ?E10; auto.
    - exists W. split; [by apply HE|]. destruct Hm as [[]|[[]|[]]]; [left|right; left|right; right];
        split; unfold lost in *; rewrite ?E1, ?E2, ?E5, ?E6, ?E7, ?HP, ?HD, ?E10; auto.
      destruct c_b0 as [?|(A & B & C & F)]; [by left|right]. split; [done|]. split; [done|]. split; [done|].
      destruct F as [F|F]; [by left|right]. intros t. by rewrite Hb.
    - destruct (gcp s); auto.
  Qed.

  Lemma ginv_pmove s pc pr evs : ginv s -> (evs = [] \/ exists v, evs = [GFull v]) ->
    (forall W, E s W -> E (pmove s pc pr evs) W) -> ginv (pmove s pc pr evs).
  Proof.
    intros Hi Hev HE. eapply ginv_p_silent; eauto; simpl.
    - rewrite puts_app. destruct Hev as [-> |[v ->]]; by rewrite app_nil_r.
    - rewrite gots_app. destruct Hev as [-> |[v ->]]; by rewrite app_nil_r.
    - rewrite scan_app. destruct Hev as [-> |[v ->]]; done.
    - intros H. apply in_app_iff. left. by apply Hi.
    - intros e H. apply in_app_iff. by left.
  Qed.

  (** [E] survives a move of the program counter. *)
  Lemma E_pmove s W pc pr evs : E s W -> (evs = [] \/ exists v, evs = [GFull v]) ->
    match pc with
           | PIdle => genq s = P s
           | POffer t v | POWrite t v | POInc t v => t = P s /\ genq s = P s
           | PFast t v | PWrite t v | PStore t v | PSlow t v | PCan t v | PGrow t v => t = P s /\ genq s = P s + 1
           end ->
    match pc with POWrite _ _ | PWrite _ _ => P s < W + sz (eb s) | POInc _ _ | PStore _ _ => False | _ => True end ->
    match pc with PGrow _ _ => isGrown s = false /\ maxGrow s <> 0 | _ => True end ->
    E (pmove s pc pr evs) W.
  Proof.
    intros He Hev Hpc Hroom Hgrow. set (s' := pmove _ _ _ _).
    assert (E8 : puts (glog s') = puts (glog s)).
    { simpl. rewrite puts_app. destruct Hev as [-> |[v ->]]; by rewrite app_nil_r. }
    assert (HP : P s' = P s) by (unfold P; by rewrite E8).
    destruct He. split; rewrite ?HP; try done.
    - simpl. rewrite grows_app. destruct Hev as [-> |[v ->]]; simpl; rewrite Nat.add_0_r; done.
    - intros t. unfold bsl. rewrite E8. apply e_win0.
    - simpl. destruct pc; done.
    - simpl. destruct pc; done.
  Qed.

  Lemma E_penq s W pc pr : E s W ->
    match pc with
           | PFast t v => t = P s /\ genq s = P s
           | PStore t v => t = P s /\ genq s = P s /\ P s < W + sz (eb s) /\ snd (bsl s (eb s) (P s)) = v
           | _ => False
           end ->
    E (penq s pc pr) W.
  Proof.
    intros He Hpc. destruct He. split; try done; destruct pc; try done; simpl in *.
    - destruct Hpc as [-> ->]. done.
    - destruct Hpc as (-> & -> & _). done.
    - by destruct Hpc as (_ & _ & H & _).
    - by destruct Hpc as (_ & _ & _ & H).
  Qed.
  Lemma ginv_penq s pc pr : ginv s -> (forall W, E s W -> E (penq s pc pr) W) -> ginv (penq s pc pr).
  Proof. intros Hi HE. eapply ginv_p_silent; eauto. apply Hi. Qed.

  (** Writing the element into the free slot of the next position. *)
  Lemma ginv_write s pc v : ginv s -> (exists t, (gpp s = POWrite t v /\ pc = POInc t v) \/ (gpp s = PWrite t v /\ pc = PStore t v)) ->
    ginv (pbuf s (gset s (eb s) (enqMask s) (P s) (fst (gslot s (eb s) (enqMask s) (P s)), v)) pc []).
  Proof.
    intros Hi Hpc. destruct Hi as [(W & He & Hm) G2 G3 G4 G5 G6 G7].
    set (s' := pbuf _ _ _ _).
    assert (Elog : glog s' = glog s) by (simpl; by rewrite app_nil_r).
    assert (HP : P s' = P s) by (unfold P; by rewrite Elog).
    assert (HD : D s' = D s) by (unfold D; by rewrite Elog).
    pose proof (e_mask _ _ He) as Em.
    assert (Hroom : P s < W + sz (eb s)).
    { destruct Hpc as [t [[E1 _]|[E1 _]]]; pose proof (e_room _ _ He) as H; by rewrite E1 in H. }
    assert (Heq : bsl s' (eb s) (P s) = (fst (bsl s (eb s) (P s)), v)).
    { unfold bsl at 1. subst s'. simpl. rewrite Em, gset_eq. by rewrite gslot_bsl. }
    assert (Hoth : forall t, t mod sz (eb s) <> P s mod sz (eb s) -> bsl s' (eb s) t = bsl s (eb s) t).
    { intros t Ht. unfold bsl. subst s'. simpl. rewrite Em. by apply gset_ne. }
    assert (Hdb : forall b, b <> eb s -> forall t, bsl s' b t = bsl s b t).
    { intros b Hb t. unfold bsl. subst s'. simpl. by rewrite gset_oth. }
    assert (Hwin : win s' (eb s) W (P s)).
    { intros t H1 H2. destruct (e_win _ _ He t H1 H2) as [A B]. rewrite Elog.
      destruct (N.eq_dec t (P s)) as [->|Hne].
      - rewrite Heq. split; [lia|]. intros _. simpl. by apply B.
      - rewrite Hoth; [done|]. intros E'. apply Hne. apply (mod_inj (J (eb s)) W); fold (sz (eb s)); try done. apply (e_lo _ _ He). }
    split.
    - exists W. split.
      + destruct He. split; rewrite ?HP; try done.
        * simpl. by rewrite gset_len.
        * by rewrite Elog.
        * change (gpp s') with pc. change (genq s') with (genq s). destruct Hpc as [t [[E1 ->]|[E1 ->]]]; by rewrite E1 in e_pc0.
        * change (gpp s') with pc. destruct Hpc as [t [[E1 ->]|[E1 ->]]]; done.
        * change (gpp s') with pc. change (eb s') with (eb s). rewrite Heq. by destruct Hpc as [t [[E1 ->]|[E1 ->]]].
        * change (gpp s') with pc. by destruct Hpc as [t [[E1 ->]|[E1 ->]]].
      + destruct Hm as [[]|[[]|[]]]; [left|right; left|right; right].
        * split; unfold taking; rewrite ?HP, ?HD, ?Elog; auto.
        * split; unfold taking; rewrite ?HP, ?HD, ?Elog; auto.
          intros t H1 H2. rewrite ?HD in H1; rewrite ?HD in H2. change (db s') with (db s) in *. rewrite Elog, Hdb; [by apply b_win0|lia].
        * split; rewrite ?HP, ?HD, ?Elog; auto.
          destruct c_b0 as [?|(A & B & C & F)]; [by left|right]. split; [done|]. split; [done|]. split; [done|].
          destruct F as [F|F]; [by left|right]. intros t. change (db s') with (db s). rewrite Hdb; [by apply F|lia].
    - done.
    - by rewrite HD.
    - by rewrite Elog.
    - by rewrite Elog.
    - by rewrite Elog.
    - by rewrite Elog.
  Qed.

  (** Publishing it. *)
  Lemma ginv_store s t v : ginv s -> gpp s = PStore t v ->
    ginv (pbuf s (gset s (eb s) (enqMask s) (P s) (P s + 1, snd (gslot s (eb s) (enqMask s) (P s)))) PIdle [GPut v]).
  Proof.
    intros Hi Hpc. destruct Hi as [(W & He & Hm) G2 G3 G4 G5 G6 G7].
    set (s' := pbuf _ _ _ _).
    assert (Eputs : puts (glog s') = puts (glog s) ++ [v]) by (simpl; by rewrite puts_app).
    assert (Egots : gots (glog s') = gots (glog s)) by (simpl; by rewrite gots_app, app_nil_r).
    assert (HP : P s' = P s + 1) by (unfold P; rewrite Eputs, app_length; simpl; lia).
    assert (HD : D s' = D s) by (unfold D; by rewrite Egots).
    assert (Escan : scan (glog s') = (option_map S (fst (scan (glog s))), lost (glog s))).
    { simpl. by rewrite scan_app. }
    pose proof (e_mask _ _ He) as Em.
    assert (Hroom : P s < W + sz (eb s)) by (pose proof (e_room _ _ He) as H; by rewrite Hpc in H).
    assert (Hsnd : snd (bsl s (eb s) (P s)) = v) by (pose proof (e_snd _ _ He) as H; by rewrite Hpc in H).
    assert (Heq : bsl s' (eb s) (P s) = (P s + 1, v)).
    { unfold bsl at 1. subst s'. simpl. rewrite Em, gset_eq, gslot_bsl. by rewrite Hsnd. }
    assert (Hoth : forall t, t mod sz (eb s) <> P s mod sz (eb s) -> bsl s' (eb s) t = bsl s (eb s) t).
    { intros t' Ht. unfold bsl. subst s'. simpl. rewrite Em. by apply gset_ne. }
    assert (Hdb : forall b, b <> eb s -> forall t, bsl s' b t = bsl s b t).
    { intros b Hb t'. unfold bsl. subst s'. simpl. by rewrite gset_oth. }
    assert (Hlk : forall i x, puts (glog s) !! i = Some x -> puts (glog s') !! i = Some x).
    { intros i x H. rewrite Eputs. rewrite lookup_app_l; [done|]. by apply lookup_lt_Some in H. }
    assert (Hwin : win s' (eb s) W (P s + 1)).
    { intros t' H1 H2. destruct (e_win _ _ He t' H1 H2) as [A B].
      destruct (N.eq_dec t' (P s)) as [->|Hne].
      - rewrite Heq. split; [|lia]. intros _. split; [done|]. simpl. rewrite puts_app. unfold P. rewrite Nat2N.id.
        rewrite lookup_app_r by lia. by rewrite Nat.sub_diag.
      - rewrite Hoth.
        + split; [|intros; apply B; lia]. intros Hlt. destruct A as [A1 A2]; [lia|]. split; [done|]. by apply Hlk.
        + intros E'. apply Hne. apply (mod_inj (J (eb s)) W); fold (sz (eb s)); try done. apply (e_lo _ _ He). }
    assert (Htk : forall m, taking s m -> taking s' m).
    { intros m. unfold taking. rewrite HD. change (gcp s') with (gcp s). destruct (gcp s); auto. intros [H1 H2]. auto. }
    split.
    - exists W. split.
      + destruct He. rewrite Hpc in *. split; rewrite ?HP; try done; try lia.
        * simpl. by rewrite gset_len.
        * simpl. by rewrite grows_app, Nat.add_0_r.
        * change (eb s') with (eb s). lia.
        * by destruct e_pc0.
      + destruct Hm as [[]|[[]|[]]]; [left|right; left|right; right].
        * split; unfold lost in *; rewrite ?HP, ?HD, ?Escan; auto.
          -- unfold taking in *. rewrite HD. change (gcp s') with (gcp s). destruct (gcp s); auto; [lia|].
             destruct a_t0. split; [lia|auto].
          -- intros Hl. rewrite a_l0 by done. simpl. f_equal. subst W. pose proof (e_lo _ _ He). lia.
        * split; unfold lost in *; rewrite ?HP, ?HD, ?Escan; auto.
          intros t' H1 H2. rewrite ?HD in H1; rewrite ?HD in H2. change (db s') with (db s) in *. rewrite Hdb by lia.
          destruct (b_win0 t' H1 H2) as [A B]. split; [|done]. intros Hlt. destruct (A Hlt). auto.
        * split; unfold lost in *; rewrite ?HP, ?HD, ?Escan; auto; [lia|].
          destruct c_b0 as [?|(A & B & C & F)]; [by left|right]. split; [done|]. split; [done|]. split; [done|].
          destruct F as [F|F]; [by left|right]. intros t'. change (db s') with (db s). rewrite Hdb; [by apply F|lia].
    - done.
    - by rewrite HD.
    - rewrite Eputs, Egots. destruct G4 as [r ->]. exists (r ++ [v]). by rewrite <- app_assoc.
    - rewrite Escan. simpl. change (gcp s') with (gcp s). destruct G5 as [H1 H2]. split.
      + intros H. destruct (fst (scan (glog s))) eqn:E0; [done|]. by apply H1 in H.
      + intros H. by rewrite H2.
    - intros H. apply in_app_iff. left. by apply G6.
    - change (gcp s') with (gcp s). destruct (gcp s); auto; apply in_app_iff; by left.
  Qed.

  (** Growing. *)
  Lemma mask_sz b : sz b - 1 = N.ones (J b).
  Proof. unfold sz. rewrite N.ones_equiv. pose proof (N.pow_nonzero 2 (J b)). lia. Qed.
  Lemma grow_entries_at b start item t : start <= t -> t < start + sz b ->
    grow_entries junk (N.ones (J b)) start item (t mod sz b) =
    if t =? start then (start + 1, item) else (t, junk).
  Proof.
    intros H1 H2. unfold grow_entries. rewrite !N.land_ones. fold (sz b).
    pose proof (sz_ge2 b) as Hsz.
    assert (Hm1 : N.ones (J b) + 1 = sz b) by (rewrite <- mask_sz; lia). rewrite Hm1.
    destruct (N.eqb_spec t start) as [->|Hne].
    - by rewrite N.eqb_refl.
    - destruct (N.eqb_spec (t mod sz b) (start mod sz b)) as [E'|_].
      { exfalso. apply Hne. unfold sz in *. by apply (mod_inj (J b) start); try lia. }
      f_equal. pose proof (N.mod_lt start (sz b) ltac:(lia)). pose proof (N.mod_lt t (sz b) ltac:(lia)).
      pose proof (N.div_mod start (sz b) ltac:(lia)) as Es. pose proof (N.div_mod t (sz b) ltac:(lia)) as Et.
      set (qs := start / sz b) in *. set (qt := t / sz b) in *.
      set (rs := start mod sz b) in *. set (rt := t mod sz b) in *.
      enough (Hx : (rt + sz b - rs) mod sz b = t - start) by lia.
      destruct (N.lt_ge_cases rt rs) as [Hlt|Hge].
      + assert (qt = qs + 1) as Hq.
        { destruct (N.lt_total qt (qs + 1)) as [Hq|[Hq|Hq]]; [|done|].
          - assert (sz b * qt <= sz b * qs) by (apply N.mul_le_mono_l; lia). lia.
          - assert (sz b * (qs + 2) <= sz b * qt) by (apply N.mul_le_mono_l; lia). lia. }
        rewrite N.mod_small by lia. rewrite Hq in Et. lia.
      + assert (qt = qs) as Hq.
        { destruct (N.lt_total qt qs) as [Hq|[Hq|Hq]]; [|done|].
          - assert (sz b * (qt + 1) <= sz b * qs) by (apply N.mul_le_mono_l; lia). lia.
          - assert (sz b * (qs + 1) <= sz b * qt) by (apply N.mul_le_mono_l; lia). lia. }
        replace (rt + sz b - rs) with (rt - rs + 1 * sz b) by lia. rewrite N.mod_add by lia.
        rewrite N.mod_small by lia. rewrite Hq in Et. lia.
  Qed.

  Lemma ginv_grow s t v : ginv s -> gpp s = PGrow t v -> ginv (grow junk s t v).
  Proof.
    intros Hi Hpc. pose proof (D_le _ Hi) as HDP. destruct Hi as [(W & He & Hm) G2 G3 G4 G5 G6 G7].
    pose proof (e_grow _ _ He) as Hg. rewrite Hpc in Hg. destruct Hg as [Hng Hmg].
    pose proof (e_pc _ _ He) as Ht. rewrite Hpc in Ht. destruct Ht as [-> Hen].
    set (s' := grow _ _ _ _).
    assert (Eputs : puts (glog s') = puts (glog s) ++ [v]) by (simpl; by rewrite puts_app).
    assert (Egots : gots (glog s') = gots (glog s)) by (simpl; by rewrite gots_app, app_nil_r).
    assert (HP : P s' = P s + 1) by (unfold P; rewrite Eputs, app_length; simpl; lia).
    assert (HD : D s' = D s) by (unfold D; by rewrite Egots).
    assert (Escan : scan (glog s') = (option_map S (fst (scan (glog s))),
       lost (glog s) || match fst (scan (glog s)) with Some (S _) => true | _ => false end)).
    { simpl. rewrite scan_app. simpl. unfold lost. by destruct (scan (glog s)). }
    assert (Hlk : forall i x, puts (glog s) !! i = Some x -> puts (glog s') !! i = Some x).
    { intros i x H. rewrite Eputs. rewrite lookup_app_l; [done|]. by apply lookup_lt_Some in H. }
    assert (Elen : fst (gbufs s (eb s)) * 2 = sz (S (eb s))) by (by rewrite (e_len _ _ He), sz_S).
    assert (Hnew : gbufs s' (S (eb s)) = (sz (S (eb s)), grow_entries junk (N.ones (J (S (eb s)))) (P s) v)).
    { subst s'. unfold grow. cbn [gbufs]. rewrite Nat.eqb_refl, Elen, mask_sz. done. }
    assert (Hold : forall b t, b <> S (eb s) -> bsl s' b t = bsl s b t).
    { intros b t Hb. unfold bsl. subst s'. unfold grow. cbn [gbufs]. apply Nat.eqb_neq in Hb. by rewrite Hb. }
    assert (HE : E s' (P s)).
    { split; rewrite ?HP.
      - subst s'. unfold grow. cbn [enqMask eb]. by rewrite Elen, mask_sz.
      - change (eb s') with (S (eb s)). by rewrite Hnew.
      - simpl. rewrite grows_app. rewrite (e_grows _ _ He). unfold grows. simpl. lia.
      - simpl. pose proof (e_max _ _ He). lia.
      - lia.
      - change (eb s') with (S (eb s)). pose proof (sz_ge2 (S (eb s))). lia.
      - change (eb s') with (S (eb s)). intros t H1 H2. unfold bsl. rewrite Hnew. cbn [snd].
        rewrite grow_entries_at by done. destruct (N.eqb_spec t (P s)) as [->|Hne].
        + split; [|lia]. intros _. split; [done|]. rewrite Eputs. unfold P. rewrite Nat2N.id, lookup_app_r by lia.
          by rewrite Nat.sub_diag.
        + split; [lia|done].
      - done.
      - done.
      - done.
      - done. }
    split.
    - exists (P s). split; [done|]. destruct Hm as [[]|[[]|[]]].
      + assert (Hnu : ~ is_ungrow (gcp s)) by (intros H; apply a_u0 in H; congruence).
        destruct (N.eq_dec (P s) (D s)) as [Eq|Hne].
        * (* nothing in between: fine *)
          right; left. split; rewrite ?HD; try done.
          -- change (db s') with (db s). simpl. lia.
          -- pose proof (sz_ge2 (db s')). lia.
          -- change (db s') with (db s). intros t H1 H2. rewrite ?HD in H1; rewrite ?HD in H2. rewrite Hold by lia.
             rewrite a_b0 in *. subst W. destruct (e_win _ _ He t H1 H2) as [A B]. split; [lia|auto].
          -- unfold taking in *. rewrite HD. change (gcp s') with (gcp s). destruct (gcp s); auto.
             destruct a_t0. split; [lia|auto].
          -- unfold lost. rewrite Escan. cbn [snd]. rewrite a_lost0.
             destruct G5 as [_ Hns]. destruct (fst (scan (glog s))) as [[|m]|] eqn:Es; try done.
             exfalso. destruct (look_dec (gcp s)) as [Hl|Hl]; [apply a_l0 in Hl; injection Hl as Hl; lia|by apply Hns in Hl].
        * destruct (gcp s) as [|get|get v0|get slow|get|get| | | | | | |] eqn:Egc.
          4: { (* the unlucky schedule *)
            right; right. split; rewrite ?HD, ?HP; try lia.
            - intros b v0. change (gcp s') with (gcp s). by rewrite Egc.
            - unfold lost. rewrite Escan. cbn [snd].
              assert (Hlk' : is_look (CLook get slow : gcpc T)) by (by eexists; eexists). rewrite a_l0 by exact Hlk'.
              destruct (N.to_nat (P s - D s)) eqn:En; [lia|]. apply orb_true_r.
            - right. change (db s') with (db s). change (gcp s') with (gcp s). rewrite Egc.
              split; [simpl; lia|]. split; [done|]. split; [done|]. left. left. by eexists; eexists. }
          all: right; left; split; rewrite ?HD; try done;
            [change (db s') with (db s); simpl; lia
            |change (gcp s') with (gcp s); rewrite Egc; done
            |change (db s') with (db s); rewrite a_b0; subst W; pose proof (e_hi _ _ He); lia
            |change (db s') with (db s); intros t H1 H2; rewrite ?HD in H1; rewrite ?HD in H2; rewrite Hold by lia; rewrite a_b0 in *; subst W;
               destruct (e_win _ _ He t H1 H2) as [A B]; split; [intros Hlt; destruct (A Hlt); auto|auto]
            |unfold taking in *; rewrite HD; change (gcp s') with (gcp s); rewrite Egc in *; try done; try (destruct a_t0; auto)
            |change (gcp s') with (gcp s); rewrite Egc; intros [(? & ? & ?)|Hsw]; [done|]; try (by destruct Hsw); by apply a_s0 in Hsw
            |unfold lost; rewrite Escan; cbn [snd]; rewrite a_lost0; destruct G5 as [_ Hns]; rewrite Hns; [done|intros (? & ? & ?); done]].
      + congruence.
      + right; right. destruct c_b0 as [(A & B & B' & C)|(A & B & C & F)]; [|congruence].
        split; rewrite ?HD, ?HP; try lia.
        * intros b v0. by apply c_t0.
        * unfold lost in *. rewrite Escan. cbn [snd]. unfold lost. by rewrite c_lost0.
        * right. change (db s') with (db s). change (gcp s') with (gcp s).
          split; [simpl; lia|]. split; [done|]. split; [intros H; apply B' in H; congruence|]. right. intros t.
          rewrite Hold by lia. rewrite A.
          (* every slot of the old buffer is beyond the consumer *)
          assert (exists t', W <= t' /\ t' < W + sz (eb s) /\ bsl s (eb s) t = bsl s (eb s) t') as (t' & H1 & H2 & ->).
          { pose proof (sz_ge2 (eb s)). pose proof (N.mod_lt t (sz (eb s)) ltac:(lia)).
            pose proof (N.mod_lt W (sz (eb s)) ltac:(lia)). pose proof (N.div_mod W (sz (eb s)) ltac:(lia)) as EW.
            set (r := t mod sz (eb s)) in *. set (q := W / sz (eb s)) in *.
            destruct (N.lt_ge_cases r (W mod sz (eb s))) as [Hlt|Hge].
            - exists (r + (q + 1) * sz (eb s)). split; [lia|]. split; [lia|]. unfold bsl. rewrite N.mod_add by lia.
              f_equal. fold r. symmetry. apply N.mod_small. done.
            - exists (r + q * sz (eb s)). split; [lia|]. split; [lia|]. unfold bsl. rewrite N.mod_add by lia.
              f_equal. fold r. symmetry. apply N.mod_small. done. }
          destruct (e_win _ _ He t' H1 H2) as [A1 A2]. destruct (N.lt_ge_cases t' (P s)) as [Hlt|Hge].
          -- destruct (A1 Hlt) as [-> _]. lia.
          -- rewrite A2 by done. lia.
    - done.
    - by rewrite HD.
    - rewrite Eputs, Egots. destruct G4 as [r ->]. exists (r ++ [v]). by rewrite <- app_assoc.
    - rewrite Escan. simpl. change (gcp s') with (gcp s). destruct G5 as [H1 H2]. split.
      + intros H. destruct (fst (scan (glog s))) eqn:E0; [done|]. by apply H1 in H.
      + intros H. by rewrite H2.
    - intros H. apply in_app_iff. left. by apply G6.
    - change (gcp s') with (gcp s). destruct (gcp s); auto; apply in_app_iff; by left.
  Qed.

  Lemma ginv_pstep s : ginv s -> ginv (gpstep junk s).
  Proof.
    intros Hi. destruct (g_ex _ Hi) as (W & He & _). pose proof (e_pc _ _ He) as Hpc. pose proof (e_mask _ _ He) as Em.
    unfold gpstep. destruct (gpp s) as [|t v|t v|t v|t v|t v|t v|t v|t v|t v] eqn:Ep.
    - destruct (gpprog s) as [|[v|v|] rest].
      + done.
      + apply ginv_pmove; [done|by left|]. intros W' He'. apply E_pmove; auto.
      + apply ginv_penq; [done|]. intros W' He'. apply E_penq; auto.
      + eapply ginv_p_silent; eauto; simpl.
        * intros W' He'. destruct He'. rewrite Ep in *.
          assert (Epu : puts (glog s ++ [GClose]) = puts (glog s)) by (by rewrite puts_app, app_nil_r).
          split; unfold P, win, bsl in *; simpl; rewrite ?Epu; try done.
          rewrite grows_app. unfold grows at 2. simpl. lia.
        * by rewrite puts_app, app_nil_r.
        * by rewrite gots_app, app_nil_r.
        * by rewrite scan_app.
        * intros _. apply in_app_iff. right. by left.
        * intros e H. apply in_app_iff. by left.
    - destruct Hpc as [-> Hen]. rewrite Em, gslot_bsl.
      destruct (N.eqb_spec (fst (bsl s (eb s) (P s))) (P s)) as [E0|E0]; (apply ginv_pmove; [done|by left|]);
        intros W' He'; apply E_pmove; auto. by apply enq_free.
    - destruct Hpc as [-> Hen]. rewrite Em, gslot_bsl.
      destruct (N.eqb_spec (fst (bsl s (eb s) (P s))) (P s)) as [E0|E0]; (apply ginv_pmove; [done|eauto|]);
        intros W' He'; apply E_pmove; eauto. by apply enq_free.
    - destruct Hpc as [-> Hen]. apply ginv_write; eauto.
    - destruct Hpc as [-> Hen]. apply ginv_penq; [done|]. intros W' He'. apply E_penq; [done|].
      pose proof (e_room _ _ He') as H1. pose proof (e_snd _ _ He') as H2. rewrite Ep in H1, H2. auto.
    - destruct Hpc as [-> Hen]. apply ginv_write; eauto.
    - destruct Hpc as [-> Hen]. by apply (ginv_store s (P s)).
    - destruct Hpc as [-> Hen]. rewrite Em, gslot_bsl.
      destruct (N.eqb_spec (fst (bsl s (eb s) (P s))) (P s)) as [E0|E0]; (apply ginv_pmove; [done|by left|]);
        intros W' He'; apply E_pmove; auto. by apply enq_free.
    - destruct (negb (maxGrow s =? 0) && negb (isGrown s)) eqn:Ec; (apply ginv_pmove; [done|by left|]);
        intros W' He'; apply E_pmove; auto.
      apply andb_prop in Ec as [E1 E2]. apply negb_true_iff in E1, E2. apply N.eqb_neq in E1. done.
    - by apply ginv_grow.
  Qed.

  Lemma E_frame s s' W : E s W -> genq s' = genq s -> enqMask s' = enqMask s -> eb s' = eb s -> maxGrow s' = maxGrow s ->
    gpp s' = gpp s -> gbufs s' (eb s) = gbufs s (eb s) -> (isGrown s = false -> isGrown s' = false) ->
    puts (glog s') = puts (glog s) -> grows (glog s') = grows (glog s) -> E s' W.
  Proof.
    intros He E1 E2 E3 E4 E5 E6 E7 E8 E9.
    assert (HP : P s' = P s) by (unfold P; by rewrite E8).
    assert (Hb : forall t, bsl s' (eb s) t = bsl s (eb s) t) by (intros; unfold bsl; by rewrite E6).
    destruct He. split; rewrite ?E1, ?E2, ?E3, ?E4, ?E5, ?E6, ?E8, ?E9, ?HP, ?Hb; auto.
    - intros t H1 H2. rewrite Hb, E8. by apply e_win0.
    - destruct (gpp s); auto. destruct e_grow0. auto.
  Qed.

  Definition taking_pc s (pc : gcpc T) (mid : N) : Prop :=
    match pc with
    | CRead _ => D s < mid
    | CStore _ v => D s < mid /\ puts (glog s) !! N.to_nat (D s) = Some v
    | _ => True
    end.

  Lemma ginv_cmove s d pc pr evs : ginv s -> ~ is_ungrow (gcp s) -> ~ is_ungrow pc ->
    puts evs = [] -> gots evs = [] -> grows evs = O ->
    snd (scan (glog s ++ evs)) = lost (glog s) ->
    (is_look pc -> fst (scan (glog s ++ evs)) = Some O) -> (~ is_look pc -> fst (scan (glog s ++ evs)) = None) ->
    d = (if in_get pc then D s + 1 else D s) ->
    (forall W, E s W -> modeA s W -> isGrown s = false -> ~ is_switch pc /\ taking_pc s pc (P s) /\ (is_look pc -> P s = D s)) ->
    (forall W, E s W -> modeB s W -> taking_pc s pc W /\ (is_look pc \/ is_switch pc -> D s = W)) ->
    (forall W, E s W -> modeC s W -> (forall b v, pc <> CRead b /\ pc <> CStore b v) /\
       (isGrown s = false -> ~ is_switch pc) /\
       (eb s = S (db s) -> is_look (gcp s) \/ is_switch (gcp s) -> is_look pc \/ is_switch pc)) ->
    match pc with CGrown2 | CEnq | CIEnq => In GClose (glog s) | _ => True end ->
    ginv (cmove s d pc pr evs).
  Proof.
    intros Hi Hnu Hnu' Ep Eg Egr Esn Hsl Hsn Hd HA HB HC Hcl.
    set (s' := cmove _ _ _ _ _).
    assert (Eputs : puts (glog s') = puts (glog s)) by (simpl; by rewrite puts_app, Ep, app_nil_r).
    assert (Egots : gots (glog s') = gots (glog s)) by (simpl; by rewrite gots_app, Eg, app_nil_r).
    assert (HP : P s' = P s) by (unfold P; by rewrite Eputs).
    assert (HD : D s' = D s) by (unfold D; by rewrite Egots).
    destruct Hi as [(W & He & Hm) G2 G3 G4 G5 G6 G7].
    assert (Htk : forall m, taking_pc s pc m -> taking s' m).
    { intros m. unfold taking, taking_pc. rewrite HD, Eputs. simpl. by destruct pc. }
    split.
    - exists W. split.
      { eapply E_frame; eauto. simpl. rewrite grows_app, Egr. lia. }
      destruct Hm as [Hm|[Hm|Hm]]; [left|right; left|right; right].
      + assert (Hgf : isGrown s = false).
        { destruct (isGrown s) eqn:Eis; [|done]. exfalso. by apply Hnu, (a_g _ _ Hm). }
        destruct (HA W He Hm Hgf) as (H1 & H2 & H3).
        destruct Hm. split; unfold lost in *; rewrite ?HP, ?HD; auto.
        * change (isGrown s') with (isGrown s). congruence.
        * change (gcp s') with pc. intros Hl. simpl. rewrite Hsl, H3 by done. by rewrite N.sub_diag.
        * simpl. by rewrite Esn.
      + destruct (HB W He Hm) as (H2 & H3).
        destruct Hm. split; unfold lost in *; rewrite ?HP, ?HD; auto.
        * intros t H1 H2'. rewrite Eputs. by apply b_win0.
        * simpl. by rewrite Esn.
      + destruct (HC W He Hm) as (H1 & H2 & H3).
        destruct Hm. split; unfold lost in *; rewrite ?HP, ?HD; auto.
        * simpl. by rewrite Esn.
        * change (gcp s') with pc. change (eb s') with (eb s). change (db s') with (db s). change (isGrown s') with (isGrown s).
          destruct c_b0 as [(A & B & B' & C)|(A & B & C & F)].
          -- left. assert (Hgf : isGrown s = false) by (destruct (isGrown s); [exfalso; by apply Hnu, B|done]).
             split; [done|]. split; [congruence|]. split; [done|]. by apply H2.
          -- right. split; [done|]. split; [done|]. split; [done|].
             destruct F as [F|F]; [left; by apply H3|right]. intros t. apply F.
    - done.
    - rewrite HD. simpl. done.
    - by rewrite Eputs, Egots.
    - simpl. split; [intros H; by rewrite Hsl|done].
    - intros H. simpl. apply in_app_iff. left. by apply G6.
    - simpl. destruct pc; auto; apply in_app_iff; by left.
  Qed.

  (** What the consumer's slot says. *)
  Lemma deq_slot s W : E s W -> modeA s W \/ modeB s W -> D s <= P s ->
    (fst (bsl s (db s) (D s)) = D s + 1 -> (modeA s W -> D s < P s) /\ (modeB s W -> D s < W)) /\
    (fst (bsl s (db s) (D s)) <> D s + 1 -> (modeA s W -> P s = D s) /\ (modeB s W -> D s = W)).
  Proof.
    intros He Hm Hle. pose proof (sz_ge2 (db s)) as Hsz.
    assert (HA : modeA s W -> (D s < P s -> fst (bsl s (db s) (D s)) = D s + 1) /\ (P s <= D s -> fst (bsl s (db s) (D s)) = D s)).
    { intros Ha. pose proof (e_win _ _ He (D s)) as Hw. rewrite <- (a_b _ _ Ha), <- (a_w _ _ Ha) in Hw.
      destruct Hw as [A B]; [lia|lia|]. rewrite <- (a_w _ _ Ha). split; [intros H; by apply A|done]. }
    assert (HB : modeB s W -> (D s < W -> fst (bsl s (db s) (D s)) = D s + 1) /\ (W <= D s -> fst (bsl s (db s) (D s)) = D s)).
    { intros Hb. destruct (b_win _ _ Hb (D s)) as [A B]; [lia|lia|]. split; [intros H; by apply A|done]. }
    split; intros Hf; split; intros H0.
    - destruct (HA H0) as [_ B]. destruct (N.lt_ge_cases (D s) (P s)); [done|]. rewrite B in Hf by done. lia.
    - destruct (HB H0) as [_ B]. destruct (N.lt_ge_cases (D s) W); [done|]. rewrite B in Hf by done. lia.
    - destruct (HA H0) as [A _]. destruct (N.lt_ge_cases (D s) (P s)); [|lia]. by rewrite A in Hf.
    - destruct (HB H0) as [A _]. pose proof (b_lo _ _ H0). destruct (N.lt_ge_cases (D s) W); [|lia]. by rewrite A in Hf.
  Qed.
  (** In the stuck state the consumer never sees its item again. *)
  Lemma stuck_slot s W : E s W -> modeC s W -> ~ is_look (gcp s) -> ~ is_switch (gcp s) ->
    fst (bsl s (db s) (D s)) <> D s + 1.
  Proof.
    intros He Hc Hl Hs. destruct Hc. destruct c_b0 as [(A & _)|(_ & _ & _ & [[|]|F])]; [|done|done|done].
    rewrite A. pose proof (sz_ge2 (eb s)).
    assert (exists t', W <= t' /\ t' < W + sz (eb s) /\ bsl s (eb s) (D s) = bsl s (eb s) t') as (t' & H1 & H2 & ->).
    { pose proof (N.mod_lt (D s) (sz (eb s)) ltac:(lia)).
      pose proof (N.mod_lt W (sz (eb s)) ltac:(lia)). pose proof (N.div_mod W (sz (eb s)) ltac:(lia)) as EW.
      set (r := D s mod sz (eb s)) in *. set (q := W / sz (eb s)) in *.
      destruct (N.lt_ge_cases r (W mod sz (eb s))) as [Hlt|Hge].
      - exists (r + (q + 1) * sz (eb s)). split; [lia|]. split; [lia|]. unfold bsl. rewrite N.mod_add by lia.
        f_equal. fold r. symmetry. apply N.mod_small. done.
      - exists (r + q * sz (eb s)). split; [lia|]. split; [lia|]. unfold bsl. rewrite N.mod_add by lia.
        f_equal. fold r. symmetry. apply N.mod_small. done. }
    destruct (e_win _ _ He t' H1 H2) as [A1 A2]. destruct (N.lt_ge_cases t' (P s)) as [Hlt|Hge].
    - destruct (A1 Hlt) as [-> _]. lia.
    - rewrite A2 by done. lia.
  Qed.

  Lemma ginv_check s get slow pr : ginv s -> (gcp s = CIdle \/ gcp s = CSlow) -> in_get (CLook get slow : gcpc T) = get ->
    ginv (if fst (bsl s (db s) (D s)) =? D s + 1
          then cmove s (if get then D s + 1 else D s) (CRead get) pr []
          else cmove s (if get then D s + 1 else D s) (CLook get slow) pr [GChecked]).
  Proof.
    intros Hi Hc _. pose proof (D_le _ Hi) as Hle.
    assert (Hnl : ~ is_look (gcp s) /\ ~ is_switch (gcp s) /\ ~ is_ungrow (gcp s)).
    { destruct Hc as [-> | ->]; split_and!; nl. }
    destruct Hnl as (Hnl & Hns & Hnu).
    pose proof (proj2 (g_scan _ Hi) Hnl) as Hscan.
    destruct (N.eqb_spec (fst (bsl s (db s) (D s))) (D s + 1)) as [Ef|Ef]; apply ginv_cmove; auto; try (by intros [? ?]).
    - by rewrite app_nil_r.
    - intros (? & ? & ?). done.
    - intros _. by rewrite app_nil_r.
    - intros W He Hm _. destruct (deq_slot s W He (or_introl Hm) Hle) as [A _]. destruct (A Ef) as [A1 _].
      split; [by intros [? ?]|]. split; [by apply A1|]. by intros (? & ? & ?).
    - intros W He Hm. destruct (deq_slot s W He (or_intror Hm) Hle) as [A _]. destruct (A Ef) as [_ A1].
      split; [by apply A1|]. intros [(? & ? & ?)|[? ?]]; done.
    - intros W He Hm. exfalso. by apply (stuck_slot s W He Hm).
    - by rewrite scan_app.
    - by rewrite scan_app.
    - intros H. exfalso. apply H. by eexists; eexists.
    - intros W He Hm _. destruct (deq_slot s W He (or_introl Hm) Hle) as [_ A]. destruct (A Ef) as [A1 _].
      split; [by intros [? ?]|]. split; [done|]. intros _. by apply A1.
    - intros W He Hm. destruct (deq_slot s W He (or_intror Hm) Hle) as [_ A]. destruct (A Ef) as [_ A1].
      split; [done|]. intros _. by apply A1.
    - intros W He Hm. split; [done|]. split; [by intros _ [? ?]|]. intros _ _. left. by eexists; eexists.
  Qed.

  (** Handing over an item. *)
  Lemma ginv_take s get v : ginv s -> gcp s = CStore get v ->
    ginv (Grb (genq s) (enqMask s) (eb s) (maxGrow s) (D s + 1) (deqMask s) (db s) (gstatus s) (isGrown s)
          (gset s (db s) (deqMask s) (D s) (D s + 1 + deqMask s, snd (gslot s (db s) (deqMask s) (D s))))
          (gpp s) (gpprog s) CIdle (gcprog s) (glog s ++ [GGot v])).
  Proof.
    intros Hi Hc. pose proof (D_le _ Hi) as Hle. destruct Hi as [(W & He & Hm) G2 G3 G4 G5 G6 G7].
    set (s' := Grb _ _ _ _ _ _ _ _ _ _ _ _ _ _ _).
    assert (Eputs : puts (glog s') = puts (glog s)) by (simpl; by rewrite puts_app, app_nil_r).
    assert (Egots : gots (glog s') = gots (glog s) ++ [v]) by (simpl; by rewrite gots_app).
    assert (Escan : scan (glog s') = scan (glog s)) by (simpl; by rewrite scan_app).
    assert (HP : P s' = P s) by (unfold P; by rewrite Eputs).
    assert (HD : D s' = D s + 1) by (unfold D; rewrite Egots, app_length; simpl; lia).
    assert (Hms : D s + 1 + deqMask s = D s + sz (db s)).
    { rewrite G2, <- mask_sz. pose proof (sz_ge2 (db s)). lia. }
    assert (Heq : bsl s' (db s) (D s) = (D s + sz (db s), snd (bsl s (db s) (D s)))).
    { unfold bsl at 1. subst s'. cbn [gbufs]. rewrite Hms, G2, gset_eq, gslot_bsl. done. }
    assert (Hoth : forall t, t mod sz (db s) <> D s mod sz (db s) -> bsl s' (db s) t = bsl s (db s) t).
    { intros t Ht. unfold bsl. subst s'. cbn [gbufs]. rewrite G2. by apply gset_ne. }
    assert (Hob : forall b, b <> db s -> gbufs s' b = gbufs s b).
    { intros b Hb. subst s'. cbn [gbufs]. by apply gset_oth. }
    assert (Hwrap : (D s + sz (db s)) mod sz (db s) = D s mod sz (db s)).
    { replace (D s + sz (db s)) with (D s + 1 * sz (db s)) by lia. apply N.mod_add. unfold sz. by apply N.pow_nonzero. }
    assert (Hwin : forall mid, D s < mid -> mid <= D s + sz (db s) -> win s (db s) (D s) mid -> win s' (db s) (D s + 1) mid).
    { intros mid Hmid Hmid2 Hw t H1 H2. destruct (N.eq_dec t (D s + sz (db s))) as [->|Hne].
      - split; [lia|]. intros _. unfold bsl at 1. rewrite Hwrap. change (snd (gbufs s' (db s)) (D s mod sz (db s))) with (bsl s' (db s) (D s)).
        by rewrite Heq.
      - destruct (Hw t) as [A B]; [lia|lia|]. rewrite Hoth.
        + split; [intros Hlt; rewrite Eputs; by apply A|done].
        + intros E'. apply (mod_inj (J (db s)) (D s)) in E'; fold (sz (db s)); lia. }
    assert (Hpre : forall mid, D s < mid -> puts (glog s) !! N.to_nat (D s) = Some v -> exists rest, puts (glog s') = gots (glog s') ++ rest).
    { intros mid Hmid Hl. rewrite Eputs, Egots. destruct G4 as [r Er]. rewrite Er in Hl. unfold D in Hl.
      rewrite Nat2N.id, lookup_app_r, Nat.sub_diag in Hl by lia. destruct r as [|x r]; [done|]. injection Hl as ->.
      exists r. by rewrite Er, <- app_assoc. }
    assert (Hmm : (exists W', E s' W' /\ (modeA s' W' \/ modeB s' W' \/ modeC s' W')) /\ exists rest, puts (glog s') = gots (glog s') ++ rest).
    { destruct Hm as [Hm|[Hm|Hm]].
      - pose proof (a_t _ _ Hm) as Ht. unfold taking in Ht. rewrite Hc in Ht. destruct Ht as [Hlt Hl].
        split; [|by eapply Hpre]. exists (D s + 1).
        pose proof (a_b _ _ Hm) as Eb. pose proof (a_w _ _ Hm) as EW. subst W.
        assert (Hgf : isGrown s = false).
        { destruct (isGrown s) eqn:Eg; [|done]. destruct (a_g _ _ Hm Eg) as [? ?]. congruence. }
        split.
        + pose proof (e_hi _ _ He) as Hhi.
          assert (Hw' : win s' (eb s) (D s + 1) (P s)).
          { rewrite <- Eb. apply Hwin; [done|by rewrite Eb|]. rewrite Eb. apply He. }
          destruct He. split; rewrite ?HP; auto; try lia.
          * subst s'. cbn [gbufs eb]. by rewrite gset_len.
          * simpl. rewrite grows_app. unfold grows at 2. simpl. lia.
          * change (eb s') with (eb s). lia.
          * change (gpp s') with (gpp s). change (eb s') with (eb s). destruct (gpp s); auto; lia.
          * change (gpp s') with (gpp s). change (eb s') with (eb s).
            assert (Hx : P s < D s + sz (eb s) -> bsl s' (eb s) (P s) = bsl s (eb s) (P s)).
            { intros Hlt'. rewrite <- Eb in *. apply Hoth. intros E'. apply (mod_inj (J (db s)) (D s)) in E'; fold (sz (db s)); lia. }
            destruct (gpp s); auto; by rewrite Hx.
        + left. split; rewrite ?HD; auto.
          * change (isGrown s') with (isGrown s). congruence.
          * by intros [? ?].
          * by intros [? ?].
          * done.
          * by intros (? & ? & ?).
          * unfold lost. rewrite Escan. apply Hm.
      - pose proof (b_t _ _ Hm) as Ht. unfold taking in Ht. rewrite Hc in Ht. destruct Ht as [Hlt Hl].
        split; [|by eapply Hpre]. exists W.
        pose proof (b_b _ _ Hm) as Eb. split.
        + eapply E_frame; eauto.
          * apply Hob. lia.
          * simpl. rewrite grows_app. unfold grows at 2. simpl. lia.
        + right; left. destruct Hm. split; rewrite ?HD; auto.
          * by intros [? ?].
          * lia.
          * change (db s') with (db s). lia.
          * done.
          * intros [(? & ? & ?)|[? ?]]; done.
          * unfold lost. rewrite Escan. done.
      - destruct (c_t _ _ Hm get v) as [_ H]. done. }
    destruct Hmm as [Hmm Hp2]. split; auto.
    - rewrite Escan. destruct G5 as [_ G5]. split; [by intros (? & ? & ?)|]. intros _. apply G5. rewrite Hc. by intros (? & ? & ?).
    - intros H. simpl. apply in_app_iff. left. by apply G6.
    - done.
  Qed.

  Lemma ginv_switch s get : ginv s -> gcp s = CSwitch get ->
    ginv (Grb (genq s) (enqMask s) (eb s) (maxGrow s) (gdeq s) (enqMask s) (eb s) (gstatus s) (isGrown s)
          (gbufs s) (gpp s) (gpprog s) (CUngrow get) (gcprog s) (glog s)).
  Proof.
    intros Hi Hc. destruct Hi as [(W & He & Hm) G2 G3 G4 G5 G6 G7]. set (s' := Grb _ _ _ _ _ _ _ _ _ _ _ _ _ _ _).
    assert (HE : E s' W) by (by eapply E_frame).
    assert (Hsw : is_switch (gcp s)) by (rewrite Hc; by eexists).
    split; auto.
    - exists W. split; [done|]. destruct Hm as [Hm|[Hm|Hm]].
      + by apply (a_s _ _ Hm) in Hsw.
      + left. destruct Hm. split; try done.
        * symmetry. apply b_l0. by right.
        * intros _. by eexists.
        * nl.
        * nl.
      + right; right. destruct Hm. split; try done. left. destruct c_b0 as [(_ & _ & _ & H)|(A & B & C & F)]; [done|].
        split; [done|]. split; [by eexists|]. split; [done|]. nl.
    - simpl. apply He.
    - change (gdeq s') with (gdeq s). rewrite G3, Hc. done.
    - split; [nl|]. intros _. apply G5. rewrite Hc. nl.
    - done.
  Qed.

  Lemma ginv_ungrow s get : ginv s -> gcp s = CUngrow get ->
    ginv (Grb (genq s) (enqMask s) (eb s) (maxGrow s) (gdeq s) (deqMask s) (db s) (gstatus s) false
          (gbufs s) (gpp s) (gpprog s) (if get then CSlow else CIdle) (gcprog s)
          (glog s ++ (if get then [GSwitch] else [GSwitch; GEmpty]))).
  Proof.
    intros Hi Hc. destruct Hi as [(W & He & Hm) G2 G3 G4 G5 G6 G7]. set (s' := Grb _ _ _ _ _ _ _ _ _ _ _ _ _ _ _).
    assert (Eputs : puts (glog s') = puts (glog s)) by (simpl; rewrite puts_app; destruct get; by rewrite app_nil_r).
    assert (Egots : gots (glog s') = gots (glog s)) by (simpl; rewrite gots_app; destruct get; by rewrite app_nil_r).
    assert (Escan : scan (glog s') = scan (glog s)) by (simpl; rewrite scan_app; by destruct get).
    assert (HP : P s' = P s) by (unfold P; by rewrite Eputs).
    assert (HD : D s' = D s) by (unfold D; by rewrite Egots).
    assert (HE : E s' W).
    { eapply E_frame; eauto. simpl. rewrite grows_app. destruct get; unfold grows at 2; simpl; lia. }
    assert (Hun : is_ungrow (gcp s)) by (rewrite Hc; by eexists).
    assert (Hnl : ~ is_look (gcp s') /\ ~ is_switch (gcp s') /\ ~ is_ungrow (gcp s')) by (simpl; destruct get; split_and!; nl).
    destruct Hnl as (N1 & N2 & N3).
    split; auto.
    - exists W. split; [done|]. destruct Hm as [Hm|[Hm|Hm]].
      + left. destruct Hm. split; unfold lost in *; rewrite ?HD, ?Escan; try done.
        unfold taking. simpl. by destruct get.
      + by apply (b_u _ _ Hm) in Hun.
      + right; right. destruct Hm. split; unfold lost in *; rewrite ?HD, ?HP, ?Escan; try done.
        * intros b v. simpl. by destruct get.
        * left. destruct c_b0 as [(A & B & C & F)|(_ & _ & H & _)]; [|done]. split; [done|]. split; [done|]. split; [|done]. done.
    - rewrite HD. change (gdeq s') with (gdeq s). rewrite G3, Hc. simpl. by destruct get.
    - by rewrite Eputs, Egots.
    - rewrite Escan. split; [done|]. intros _. apply G5. rewrite Hc. nl.
    - intros H. simpl. apply in_app_iff. left. by apply G6.
    - simpl. by destruct get.
  Qed.

  (** Moves of the consumer between program points without a slot check. *)
  Lemma ginv_cquiet s pc pr evs : ginv s -> ~ is_ungrow (gcp s) -> ~ is_switch (gcp s) ->
    (is_look (gcp s) -> isGrown s = false \/ is_switch pc) ->
    match pc with CIdle | CSlow | CStatus | CGrown2 | CEnq | CDone | CIStatus | CIEnq => True
                | CSwitch _ => is_look (gcp s) /\ isGrown s = true | _ => False end ->
    in_get pc = in_get (gcp s) -> evs = [] /\ ~ is_look (gcp s) \/ (exists b, evs = [GIsClosed b]) /\ ~ is_look (gcp s) \/ evs = [GLook] \/ evs = [GLook; GEmpty] \/ evs = [GClosed] /\ ~ is_look (gcp s) ->
    match pc with CGrown2 | CEnq | CIEnq => In GClose (glog s) | _ => True end ->
    ginv (cmove s (gdeq s) pc pr evs).
  Proof.
    intros Hi Hnu Hns Hlg Hpc Hg Hev Hcl.
    assert (Hfacts : puts evs = [] /\ gots evs = [] /\ grows evs = O /\ snd (scan (glog s ++ evs)) = lost (glog s) /\ fst (scan (glog s ++ evs)) = None).
    { rewrite scan_app. pose proof (proj2 (g_scan _ Hi)) as Hn.
      destruct Hev as [[-> Hl]|[[[b ->] Hl]|[-> |[-> |[-> Hl]]]]]; split_and!; auto. }
    destruct Hfacts as (F1 & F2 & F3 & F4 & F5).
    apply ginv_cmove; auto.
    - destruct pc; try done; nl.
    - intros (? & ? & ->). done.
    - rewrite Hg. apply Hi.
    - intros W He Hm Hgf. split; [|split].
      + destruct pc; try nl. destruct Hpc. congruence.
      + destruct pc; done.
      + intros (? & ? & ->). done.
    - intros W He Hm. split; [by destruct pc|]. intros [(? & ? & ->)|[? ->]]; [done|]. apply (b_l _ _ Hm). left. apply Hpc.
    - intros W He Hm. split; [by destruct pc|]. split.
      + intros Hgf [? ->]. destruct Hpc. congruence.
      + intros Heb [Hl|Hs]; [|done]. right. destruct (Hlg Hl) as [Hgf|]; [|done].
        destruct (c_b _ _ Hm) as [(A & _)|(_ & A & _)]; [lia|congruence].
  Qed.

  Lemma ginv_cstep s : ginv s -> ginv (gcstep s).
  Proof.
    intros Hi. pose proof (g_deq _ Hi) as Hd. pose proof (g_dmask _ Hi) as Hdm. pose proof (g_cl _ Hi) as Hcl.
    unfold gcstep. destruct (gcp s) as [|get|get v|get slow|get|get| | | | | | |] eqn:Ec; simpl in Hd.
    - destruct (gcprog s) as [|[| |] rest]; [done| | |].
      + rewrite Hdm, gslot_bsl, Hd. apply (ginv_check s false); auto.
      + rewrite Hdm, gslot_bsl, Hd. apply (ginv_check s true); auto.
      + destruct (isGrown s); apply ginv_cquiet; rewrite ?Ec; auto; try nl.
        * right; left. split; [eauto|nl].
        * left. split; [done|nl].
    - assert ((if get then gdeq s - 1 else gdeq s) = D s) as -> by (destruct get; lia).
      apply ginv_cmove; rewrite ?Ec; auto; try nl.
      + by rewrite app_nil_r.
      + intros _. rewrite app_nil_r. apply (g_scan _ Hi). rewrite Ec. nl.
      + rewrite Hdm, gslot_bsl. intros W He Hm Hgf. pose proof (a_t _ _ Hm) as Ht. unfold taking in Ht. rewrite Ec in Ht.
        split; [nl|]. split; [|nl]. split; [done|]. pose proof (a_w _ _ Hm) as EW.
        rewrite (a_b _ _ Hm). subst W. apply (e_win _ _ He); try lia. pose proof (sz_ge2 (eb s)). lia.
      + rewrite Hdm, gslot_bsl. intros W He Hm. pose proof (b_t _ _ Hm) as Ht. unfold taking in Ht. rewrite Ec in Ht.
        split; [|intros [(? & ? & ?)|[? ?]]; done]. split; [done|]. apply (b_win _ _ Hm); try lia. pose proof (sz_ge2 (db s)). lia.
      + intros W He Hm. destruct (c_t _ _ Hm get (snd (gslot s (db s) (deqMask s) (D s)))) as [H _]. done.
    - assert ((if get then gdeq s - 1 else gdeq s) = D s) as -> by (destruct get; lia).
      by apply ginv_take with get.
    - destruct (isGrown s) eqn:Eg; [|destruct get; [destruct slow|]]; apply ginv_cquiet; rewrite ?Ec; auto; try nl.
      + intros _. right. by eexists.
      + split; [by eexists; eexists|done].
    - by apply ginv_switch.
    - by apply ginv_ungrow.
    - rewrite Hdm, gslot_bsl, Hd. replace (D s + 1 - 1) with (D s) by lia. apply (ginv_check s true true); auto.
    - destruct (gstatus s) eqn:Es; apply ginv_cquiet; rewrite ?Ec; auto; try nl; try (left; split; [done|nl]). by apply (g_status _ Hi).
    - destruct (isGrown s); apply ginv_cquiet; rewrite ?Ec; auto; try nl; left; (split; [done|nl]).
    - destruct (genq s =? gdeq s - 1); apply ginv_cquiet; rewrite ?Ec; auto; try nl.
      + right; right; right; right. split; [done|nl].
      + left; (split; [done|nl]).
    - done.
    - destruct (gstatus s) eqn:Es; apply ginv_cquiet; rewrite ?Ec; auto; try nl.
      + left; (split; [done|nl]).
      + by apply (g_status _ Hi).
      + right; left. split; [eauto|nl].
    - apply ginv_cquiet; rewrite ?Ec; auto; try nl. right; left. split; [eauto|nl].
  Qed.

  Lemma ginv_init pr cr : ginv (grow_init junk (2 ^ k) mg pr cr).
  Proof.
    assert (Hsz : 2 ^ k = sz 0) by (unfold sz; f_equal; lia).
    assert (Hm : 2 ^ k - 1 = N.ones (J 0)) by (rewrite Hsz; apply mask_sz).
    pose proof (sz_ge2 0) as H2.
    split; simpl; auto; try (split; [nl|done]).
    - exists 0. split.
      + split; unfold P, win, bsl; simpl; auto; try lia.
        intros t _ Ht. split; [lia|]. intros _. apply N.mod_small. lia.
      + left. split; simpl; auto; try nl. done.
    - by exists [].
    - done.
  Qed.
  Lemma ginv_run s sched : ginv s -> ginv (grun junk s sched).
  Proof.
    revert s. induction sched as [|[|] sched IH]; intros s Hi; [done| |]; simpl; apply IH.
    - by apply ginv_pstep.
    - by apply ginv_cstep.
  Qed.

  (** Every event is justified. *)
  Definition gall (l : list (gev T)) : Prop := forall a e r, l = a ++ e :: r -> gjust (2 ^ k) mg a e.
  Lemma gall_snoc l evs : gall l ->
    match evs with [] => True | e :: r => gjust (2 ^ k) mg l e /\ Forall (fun e => forall l, gjust (2 ^ k) mg l e) r end ->
    gall (l ++ evs).
  Proof.
    intros H He. assert (Hone : forall l e, gall l -> gjust (2 ^ k) mg l e -> gall (l ++ [e])).
    { clear. intros l e H He a x r E. destruct r as [|y r _] using rev_ind.
      - apply app_inj_tail in E as [-> ->]. done.
      - rewrite app_comm_cons, app_assoc in E. apply app_inj_tail in E as [-> _]. by eapply H. }
    destruct evs as [|e r]; [by rewrite app_nil_r|]. destruct He as [He Hr].
    change (e :: r) with ([e] ++ r). rewrite app_assoc. assert (H1 : gall (l ++ [e])) by (by apply Hone).
    revert H1. generalize (l ++ [e]). clear -Hr Hone. induction r as [|x r IH]; intros l H; [by rewrite app_nil_r|].
    apply Forall_cons_iff in Hr as [Hx Hr]. change (x :: r) with ([x] ++ r). rewrite app_assoc. apply IH; [done|].
    apply Hone; [done|]. apply Hx.
  Qed.

  Lemma gall_pstep s : ginv s -> gall (glog s) -> gall (glog (gpstep junk s)).
  Proof.
    intros Hi Ha. destruct (g_ex _ Hi) as (W & He & Hm). pose proof (e_pc _ _ He) as Hpc. pose proof (e_mask _ _ He) as Em.
    unfold gpstep. destruct (gpp s) as [|t v|t v|t v|t v|t v|t v|t v|t v|t v] eqn:Ep; simpl.
    - destruct (gpprog s) as [|[v|v|] rest]; simpl; auto; apply gall_snoc; done.
    - destruct (_ =? _); apply gall_snoc; done.
    - destruct Hpc as [-> Hen]. rewrite Em, gslot_bsl.
      destruct (N.eqb_spec (fst (bsl s (eb s) (P s))) (P s)) as [E0|E0]; apply gall_snoc; auto.
      split; [|constructor]. simpl. pose proof (D_le_W s W He Hm). pose proof (enq_full s W He E0) as Hf.
      rewrite (e_grows _ _ He). fold (D s) (P s). unfold sz in Hf. rewrite N.pow_add_r in Hf. lia.
    - apply gall_snoc; done.
    - done.
    - apply gall_snoc; done.
    - apply gall_snoc; auto. repeat constructor.
    - destruct (_ =? _); apply gall_snoc; done.
    - destruct (_ && _); apply gall_snoc; done.
    - apply gall_snoc; auto. split; [|repeat constructor]. simpl.
      pose proof (e_grow _ _ He) as Hg. rewrite Ep in Hg. destruct Hg. rewrite (e_grows _ _ He). pose proof (e_max _ _ He). lia.
  Qed.

  Lemma gall_cstep s : ginv s -> gall (glog s) -> gall (glog (gcstep s)).
  Proof.
    intros Hi Ha. pose proof (g_deq _ Hi) as Hd. pose proof (g_cl _ Hi) as Hcl. pose proof (D_le _ Hi) as Hle.
    assert (Hdr : genq s = D s -> puts (glog s) = gots (glog s)).
    { intros E0. destruct (g_ex _ Hi) as (W & He & _). pose proof (e_pc _ _ He) as Hpc.
      assert (P s = D s) as Hpd by (destruct (gpp s); try destruct Hpc; lia).
      destruct (g_pre _ Hi) as [r Er]. unfold P, D in Hpd. apply Nat2N.inj in Hpd. rewrite Er, app_length in Hpd.
      destruct r; [by rewrite app_nil_r in Er|simpl in Hpd; lia]. }
    unfold gcstep. destruct (gcp s) as [|get|get v|get slow|get|get| | | | | | |] eqn:Ec; simpl in Hd.
    - destruct (gcprog s) as [|[| |] rest]; [done| | |].
      + destruct (_ =? _); apply gall_snoc; repeat constructor; done.
      + destruct (_ =? _); apply gall_snoc; repeat constructor; done.
      + destruct (isGrown s); apply gall_snoc; repeat constructor; done.
    - apply gall_snoc; done.
    - simpl. apply gall_snoc; auto. split; [|constructor]. simpl.
      assert (Hl : puts (glog s) !! N.to_nat (D s) = Some v).
      { destruct (g_ex _ Hi) as (W & He & [Hm|[Hm|Hm]]).
        - pose proof (a_t _ _ Hm) as H. unfold taking in H. rewrite Ec in H. apply H.
        - pose proof (b_t _ _ Hm) as H. unfold taking in H. rewrite Ec in H. apply H.
        - destruct (c_t _ _ Hm get v). done. }
      destruct (g_pre _ Hi) as [r Er]. rewrite Er in Hl. unfold D in Hl.
      rewrite Nat2N.id, lookup_app_r, Nat.sub_diag in Hl by lia. destruct r as [|x r]; [done|]. injection Hl as ->. by exists r.
    - destruct (isGrown s); [|destruct get]; apply gall_snoc; repeat constructor; done.
    - done.
    - simpl. apply gall_snoc; auto. destruct get; repeat constructor.
    - destruct (_ =? _); apply gall_snoc; repeat constructor; done.
    - destruct (gstatus s); apply gall_snoc; done.
    - destruct (isGrown s); apply gall_snoc; done.
    - destruct (N.eqb_spec (genq s) (gdeq s - 1)) as [E0|E0]; apply gall_snoc; auto.
      split; [|constructor]. simpl. split; [|done]. apply Hdr. lia.
    - done.
    - destruct (gstatus s); apply gall_snoc; repeat constructor; done.
    - apply gall_snoc; auto. split; [|constructor]. simpl. destruct (N.eqb_spec (genq s) (gdeq s)) as [E0|E0]; [|done].
      split; [|done]. apply Hdr. lia.
  Qed.
  Lemma gall_run s sched : ginv s -> gall (glog s) -> gall (glog (grun junk s sched)).
  Proof.
    revert s. induction sched as [|[|] sched IH]; intros s Hi Ha; [done| |]; simpl; apply IH.
    - by apply ginv_pstep.
    - by apply gall_pstep.
    - by apply ginv_cstep.
    - by apply gall_cstep.
  Qed.

  (** Once the unlucky schedule has happened the consumer gets nothing any more. *)
  Lemma lost_modeC s : ginv s -> lost (glog s) = true -> exists W, E s W /\ modeC s W.
  Proof.
    intros Hi Hl. destruct (g_ex _ Hi) as (W & He & [Hm|[Hm|Hm]]); [destruct Hm; congruence|destruct Hm; congruence|eauto].
  Qed.
  Lemma scan_snd_mono (l : list (gev T)) evs : lost l = true -> lost (l ++ evs) = true.
  Proof.
    unfold lost. rewrite scan_app. generalize (scan l). induction evs as [|e evs IH]; intros [a b] H; [done|]. simpl in *.
    apply IH. subst b. by destruct e.
  Qed.
  Lemma pstep_log s : exists evs, glog (gpstep junk s) = glog s ++ evs /\ gots evs = [] /\ List.filter is_gcev evs = [].
  Proof.
    unfold gpstep. repeat case_match; simpl;
      first [by eexists|exists []; by rewrite app_nil_r].
  Qed.
  Definition stuck_ev (e : gev T) : Prop :=
    match e with GGot _ | GClosed | GIsClosed true => False | _ => True end.
  Lemma stuck_cstep s : ginv s -> lost (glog s) = true ->
    exists evs, glog (gcstep s) = glog s ++ evs /\ gots evs = [] /\ Forall stuck_ev evs.
  Proof.
    intros Hi Hl. destruct (lost_modeC s Hi Hl) as (W & He & Hm). pose proof (c_t _ _ Hm) as Hct.
    pose proof (g_deq _ Hi) as Hd. pose proof (e_pc _ _ He) as Hpc. pose proof (c_d _ _ Hm). pose proof (c_w _ _ Hm).
    assert (Hge : genq s <> D s) by (destruct (gpp s); try destruct Hpc; lia).
    unfold gcstep. destruct (gcp s) as [|get|get v|get slow|get|get| | | | | | |] eqn:Ec; simpl in Hd.
    all: try (repeat case_match; simpl; first [ solve [eexists; split; [reflexivity|]; split; [done|repeat (constructor; try done)]]
               | solve [exists []; rewrite app_nil_r; split; [done|split; [done|constructor]]]]; fail).
    - by destruct (Hct get v).
    - destruct (N.eqb_spec (genq s) (gdeq s - 1)) as [E0|E0].
      + exfalso. lia.
      + eexists; split; [reflexivity|]; split; [done|repeat constructor].
    - eexists; split; [reflexivity|]; split; [done|]. constructor; [|constructor]. simpl.
      destruct (N.eqb_spec (genq s) (gdeq s)) as [E0|E0]; [|done]. lia.
  Qed.
  Lemma stuck_run s sched : ginv s -> lost (glog s) = true ->
    exists evs, glog (grun junk s sched) = glog s ++ evs /\ gots evs = [] /\ Forall stuck_ev evs.
  Proof.
    revert s. induction sched as [|b sched IH]; intros s Hi Hl.
    { exists []. rewrite app_nil_r. split; [done|split; [done|constructor]]. }
    assert (Hs : exists evs, glog (if b then gpstep junk s else gcstep s) = glog s ++ evs /\ gots evs = [] /\ Forall stuck_ev evs).
    { destruct b; [|by apply stuck_cstep]. destruct (pstep_log s) as (evs & E0 & E1 & E2). exists evs. split; [done|]. split; [done|].
      apply List.Forall_forall. intros e Hin. destruct e as [| | | | | | |[]| | |]; try done; exfalso;
        (eapply in_nil; rewrite <- E2; apply filter_In; split; [exact Hin|done]). }
    destruct Hs as (e1 & E1 & G1 & F1).
    destruct (IH (if b then gpstep junk s else gcstep s)) as (e2 & E2 & G2 & F2).
    - destruct b; [by apply ginv_pstep|by apply ginv_cstep].
    - rewrite E1. by apply scan_snd_mono.
    - exists (e1 ++ e2). simpl. rewrite E2, E1, app_assoc. split; [done|]. rewrite gots_app, G1, G2. split; [done|].
      by apply Forall_app.
  Qed.

  (** Without it, nobody is held up. *)
  Lemma gots_mono s sched : exists x, gots (glog (grun junk s sched)) = gots (glog s) ++ x.
  Proof.
    revert s. induction sched as [|b sched IH]; intros s; [exists []; by rewrite app_nil_r|]. simpl.
    destruct (IH (if b then gpstep junk s else gcstep s)) as [x Hx]. rewrite Hx.
    enough (exists y, gots (glog (if b then gpstep junk s else gcstep s)) = gots (glog s) ++ y) as [y ->].
    { exists (y ++ x). by rewrite <- app_assoc. }
    destruct b.
    - destruct (pstep_log s) as (evs & -> & E1 & _). exists []. by rewrite gots_app, E1.
    - unfold gcstep. repeat case_match; simpl; rewrite ?gots_app; eauto; exists []; by rewrite app_nil_r.
  Qed.
  Lemma grun_app s a b : grun junk s (a ++ b) = grun junk (grun junk s a) b.
  Proof. revert s. induction a as [|x a IH]; intros s; [done|]. simpl. apply IH. Qed.
  Lemma read_gets s get : gcp s = CRead get ->
    length (gots (glog (grun junk s [false; false]))) = S (length (gots (glog s))).
  Proof.
    intros Hc. simpl. assert (exists v, gcp (gcstep s) = CStore get v /\ gots (glog (gcstep s)) = gots (glog s)) as (v & E1 & E2).
    { unfold gcstep. rewrite Hc. simpl. rewrite gots_app, app_nil_r. eauto. }
    unfold gcstep at 1. rewrite E1. simpl. rewrite gots_app, app_length, E2. simpl. lia.
  Qed.
  Definition will_take s : Prop :=
    gcp s = CSlow \/ (gcp s = CIdle /\ exists rest, gcprog s = GOGet :: rest \/ gcprog s = GOAccept :: rest).
  Lemma check_gets s : ginv s -> will_take s -> fst (bsl s (db s) (D s)) = D s + 1 ->
    length (gots (glog (grun junk s [false; false; false]))) = S (length (gots (glog s))).
  Proof.
    intros Hi Hw Hf. pose proof (g_deq _ Hi) as Hd. pose proof (g_dmask _ Hi) as Hdm.
    assert (exists get, gcp (gcstep s) = CRead get /\ gots (glog (gcstep s)) = gots (glog s)) as (get & E1 & E2).
    { destruct Hw as [Ec|[Ec [rest [Er|Er]]]]; unfold gcstep; rewrite Ec in *; rewrite ?Er; simpl in Hd; rewrite Hdm, gslot_bsl, Hd;
        replace (D s + 1 - 1) with (D s) by lia; rewrite Hf, N.eqb_refl; simpl; rewrite gots_app, app_nil_r; eauto. }
    change [false; false; false] with ([false] ++ [false; false]). rewrite grun_app. simpl grun at 2. rewrite <- E2. by apply read_gets with get.
  Qed.
  Lemma grun_false s l : grun junk s (false :: l) = grun junk (gcstep s) l.
  Proof. done. Qed.
  Lemma lost_cstep s : lost (glog s) = false -> lost (glog (gcstep s)) = false.
  Proof.
    unfold lost. intros H. destruct (scan (glog s)) as [a b] eqn:Es0. simpl in H. subst b.
    unfold gcstep; repeat case_match; simpl; rewrite ?scan_app, ?Es0; try done; by repeat case_match.
  Qed.
  Lemma look_step s get slow : gcp s = CLook get slow -> isGrown s = true ->
    gcp (gcstep s) = CSwitch get /\ gots (glog (gcstep s)) = gots (glog s) /\
    puts (glog (gcstep s)) = puts (glog s) /\ gcprog (gcstep s) = gcprog s.
  Proof. intros C1 C2. unfold gcstep. rewrite C1, C2. simpl. by rewrite gots_app, puts_app, !app_nil_r. Qed.
  Lemma switch_step s get : gcp s = CSwitch get ->
    gcp (gcstep s) = CUngrow get /\ gots (glog (gcstep s)) = gots (glog s) /\
    puts (glog (gcstep s)) = puts (glog s) /\ gcprog (gcstep s) = gcprog s.
  Proof. intros C1. unfold gcstep. by rewrite C1. Qed.
  Lemma ungrow_step s get : gcp s = CUngrow get ->
    gcp (gcstep s) = (if get then CSlow else CIdle) /\ gots (glog (gcstep s)) = gots (glog s) /\
    puts (glog (gcstep s)) = puts (glog s) /\ gcprog (gcstep s) = gcprog s /\ isGrown (gcstep s) = false.
  Proof. intros C1. unfold gcstep. rewrite C1. simpl. rewrite gots_app, puts_app. destruct get; by rewrite !app_nil_r. Qed.
  Lemma switch_steps s get slow : gcp s = CLook get slow -> isGrown s = true -> ginv s -> lost (glog s) = false ->
    exists s4, (forall l, grun junk s (false :: false :: false :: l) = grun junk s4 l) /\ ginv s4 /\ lost (glog s4) = false /\
      gcp s4 = (if get then CSlow else CIdle) /\ D s4 = D s /\ P s4 = P s /\ gots (glog s4) = gots (glog s) /\
      gcprog s4 = gcprog s /\ isGrown s4 = false.
  Proof.
    intros C1 C2 Hi Hl. destruct (look_step s get slow C1 C2) as (D1 & D2 & D3 & D4).
    destruct (switch_step _ get D1) as (F1 & F2 & F3 & F4). destruct (ungrow_step _ get F1) as (K1 & K2 & K3 & K4 & K5).
    exists (gcstep (gcstep (gcstep s))).
    split; [intros l; by rewrite !grun_false|]. split; [by do 3 apply ginv_cstep|]. split; [by do 3 apply lost_cstep|].
    split; [exact K1|]. unfold D, P. rewrite K2, K3, F2, F3, D2, D3. split; [done|]. split; [done|]. split; [done|]. split; [congruence|exact K5].
  Qed.
  Lemma avail s : ginv s -> lost (glog s) = false -> isGrown s = false -> D s < P s -> fst (bsl s (db s) (D s)) = D s + 1.
  Proof.
    intros Hi Hl Hg Hlt. destruct (N.eq_dec (fst (bsl s (db s) (D s))) (D s + 1)) as [|Hf4]; [done|]. exfalso.
    destruct (g_ex _ Hi) as (W4 & He4 & [Hm4|[Hm4|Hm4]]).
    - destruct (deq_slot s W4 He4 (or_introl Hm4) ltac:(lia)) as [_ A]. destruct (A Hf4) as [A2 _]. specialize (A2 Hm4). lia.
    - destruct Hm4. congruence.
    - destruct Hm4. congruence.
  Qed.
  Lemma fail_step s : ginv s -> fst (bsl s (db s) (D s)) <> D s + 1 ->
    (gcp s = CSlow \/ (gcp s = CIdle /\ exists rest, gcprog s = GOGet :: rest \/ gcprog s = GOAccept :: GOAccept :: rest)) ->
    exists get slow, gcp (gcstep s) = CLook get slow /\ isGrown (gcstep s) = isGrown s /\
         gots (glog (gcstep s)) = gots (glog s) /\ puts (glog (gcstep s)) = puts (glog s) /\
         (get = false -> exists rest, gcprog (gcstep s) = GOAccept :: rest).
  Proof.
    intros Hi Hf Hw. pose proof (g_deq _ Hi) as Hd. pose proof (g_dmask _ Hi) as Hdm.
    destruct Hw as [Ec|[Ec [rest [Er|Er]]]]; unfold gcstep; rewrite Ec in *; rewrite ?Er; simpl in Hd; rewrite Hdm, gslot_bsl, Hd;
      replace (D s + 1 - 1) with (D s) by lia; apply N.eqb_neq in Hf; rewrite Hf; simpl; rewrite gots_app, puts_app, !app_nil_r;
      eexists; eexists; (split; [reflexivity|]); (split; [done|]); (split; [done|]); (split; [done|]); try done; eauto.
  Qed.
  Lemma consumer_gets s : ginv s -> lost (glog s) = false -> D s < P s ->
    (gcp s = CSlow \/ (gcp s = CIdle /\ exists rest, gcprog s = GOGet :: rest \/ gcprog s = GOAccept :: GOAccept :: rest)) ->
    (length (gots (glog s)) < length (gots (glog (grun junk s (repeat false 7)))))%nat.
  Proof.
    intros Hi Hl Hlt Hw.
    assert (Hwt : will_take s).
    { destruct Hw as [?|[? [rest [?|?]]]]; [by left|right; eauto..]. }
    destruct (N.eq_dec (fst (bsl s (db s) (D s))) (D s + 1)) as [Hf|Hf].
    { pose proof (check_gets s Hi Hwt Hf) as H. replace (repeat false 7) with ([false; false; false] ++ repeat false 4) by done.
      rewrite grun_app. destruct (gots_mono (grun junk s [false; false; false]) (repeat false 4)) as [x ->].
      rewrite app_length. lia. }
    assert (Hg : isGrown s = true).
    { destruct (isGrown s) eqn:Eg; [done|]. exfalso. apply Hf. by apply avail. }
    destruct (fail_step s Hi Hf Hw) as (get & slow & C1 & C2 & C3 & C4 & C5). rewrite Hg in C2.
    destruct (switch_steps _ get slow C1 C2 (ginv_cstep _ Hi) (lost_cstep _ Hl)) as (s4 & Hrun & Hi4 & Hl4 & K1 & K2 & K3 & K4 & K5 & K6).
    assert (HD4 : D s4 = D s) by (rewrite K2; unfold D; by rewrite C3).
    assert (HP4 : P s4 = P s) by (rewrite K3; unfold P; by rewrite C4).
    assert (Hw4 : will_take s4).
    { destruct get; [left; done|right]. split; [done|]. destruct (C5 eq_refl) as [rest Er]. exists rest. right. congruence. }
    pose proof (check_gets s4 Hi4 Hw4 (avail s4 Hi4 Hl4 K6 ltac:(lia))) as H.
    replace (repeat false 7) with (false :: false :: false :: false :: [false; false; false]) by done.
    rewrite grun_false, Hrun, H, K4, C3. lia.
  Qed.

  Lemma producer_puts s v rest : ginv s ->
    (gpp s = PIdle /\ gpprog s = GOPut v :: rest) \/ (exists t, gpp s = PSlow t v) ->
    D s + sz (eb s) > P s \/ (isGrown s = false /\ maxGrow s <> 0) ->
    puts (glog (grun junk s (repeat true 5))) = puts (glog s) ++ [v] \/
    exists x y, puts (glog (grun junk s (repeat true 5))) = puts (glog s) ++ v :: x :: y.
  Proof.
    intros Hi Hpc Hroom.
    assert (Hmono : forall sched s, exists x, puts (glog (grun junk s sched)) = puts (glog s) ++ x).
    { clear. intros sched. induction sched as [|b sched IH]; intros s; [exists []; by rewrite app_nil_r|]. simpl.
      destruct (IH (if b then gpstep junk s else gcstep s)) as [x Hx]. rewrite Hx.
      enough (exists y, puts (glog (if b then gpstep junk s else gcstep s)) = puts (glog s) ++ y) as [y ->].
      { exists (y ++ x). by rewrite <- app_assoc. }
      destruct b; unfold gpstep, gcstep; repeat case_match; simpl; rewrite ?puts_app; eauto; exists []; by rewrite app_nil_r. }
    assert (Hfin : forall n s', puts (glog (grun junk s (repeat true n))) = puts (glog s) ++ [v] -> (n <= 5)%nat -> s' = grun junk s (repeat true 5) ->
       puts (glog s') = puts (glog s) ++ [v] \/ exists x y, puts (glog s') = puts (glog s) ++ v :: x :: y).
    { intros n s' H Hn ->. replace 5%nat with (n + (5 - n))%nat by lia. rewrite repeat_app, grun_app.
      destruct (Hmono (repeat true (5 - n)) (grun junk s (repeat true n))) as [x ->]. rewrite H, <- app_assoc. simpl.
      destruct x as [|y x]; [by left|right; eauto]. }
    destruct (g_ex _ Hi) as (W & He & Hm). pose proof (D_le_W s W He Hm) as HDW. pose proof (e_mask _ _ He) as Em.
    pose proof (e_pc _ _ He) as Ht.
    (* from PWrite it takes two steps *)
    assert (Hwr : forall s', gpp s' = PWrite (P s) v -> puts (glog s') = puts (glog s) ->
       puts (glog (gpstep junk (gpstep junk s'))) = puts (glog s) ++ [v]).
    { intros s' E1 E2. unfold gpstep at 2. rewrite E1. unfold gpstep. simpl. rewrite puts_app, puts_app, app_nil_r, E2. done. }
    assert (Hslow : forall s', gpp s' = PSlow (P s) v -> eb s' = eb s -> enqMask s' = enqMask s -> gbufs s' = gbufs s ->
        puts (glog s') = puts (glog s) -> isGrown s' = isGrown s -> maxGrow s' = maxGrow s ->
        puts (glog (grun junk s' (repeat true 3))) = puts (glog s) ++ [v]).
    { intros s' E1 E2 E3 E4 E5 E6 E7. simpl. unfold gpstep at 3. rewrite E1, E2, E3.
      assert (Hsl : gslot s' (eb s) (enqMask s) (P s) = bsl s (eb s) (P s)).
      { unfold gslot. rewrite E4. fold (gslot s (eb s) (enqMask s) (P s)). by rewrite Em, gslot_bsl. }
      rewrite Hsl. destruct (N.eqb_spec (fst (bsl s (eb s) (P s))) (P s)) as [E0|E0].
      - apply Hwr; [done|]. simpl. by rewrite puts_app, app_nil_r.
      - pose proof (enq_full s W He E0). destruct Hroom as [Hr|[Hr1 Hr2]]; [lia|].
        unfold gpstep at 2. simpl. rewrite E6, E7, Hr1. apply N.eqb_neq in Hr2. rewrite Hr2. simpl.
        unfold gpstep. simpl. rewrite !puts_app, !app_nil_r, E5. done. }
    destruct Hpc as [[Ep Epr]|[t Ep]]; rewrite Ep in Ht.
    - remember (grun junk s [true]) as s1 eqn:Es1. simpl in Es1. unfold gpstep in Es1. rewrite Ep, Epr in Es1.
      remember (grun junk s [true; true]) as s2 eqn:Es2.
      assert (Es2' : s2 = gpstep junk s1). { rewrite Es2, Es1. simpl. unfold gpstep at 2. rewrite Ep, Epr. done. }
      rewrite Ht in Es1.
      assert (Esl : gslot s1 (eb s1) (enqMask s1) (P s) = bsl s (eb s) (P s)).
      { rewrite Es1. unfold gslot. simpl. fold (gslot s (eb s) (enqMask s) (P s)). by rewrite Em, gslot_bsl. }
      unfold gpstep in Es2'. rewrite Es1 in Es2' at 1. simpl gpp in Es2'. cbn [penq gpp] in Es2'. rewrite Esl in Es2'.
      destruct (N.eqb_spec (fst (bsl s (eb s) (P s))) (P s)) as [E0|E0].
      + apply (Hfin 4%nat _); [|lia|done]. change (repeat true 4) with ([true; true] ++ [true; true]). rewrite grun_app, <- Es2.
        simpl. apply Hwr; rewrite Es2', Es1; [done|]. simpl. by rewrite puts_app, app_nil_r.
      + apply (Hfin 5%nat _); [|lia|done]. change (repeat true 5) with ([true; true] ++ repeat true 3). rewrite grun_app, <- Es2.
        apply Hslow; rewrite Es2', Es1; try done. simpl. by rewrite puts_app, app_nil_r.
    - destruct Ht as [-> _]. apply (Hfin 3%nat _); [|lia|done]. by apply Hslow.
  Qed.
End proofs.

(** Each side's events are the answers to its calls, in program order. *)
Section conf.
  Context {T : Type} (junk : T).
  Implicit Types s : grb T.
  Definition gcur_ok (pc : gppc T) (cur : list (gop T)) : Prop :=
    match pc with
    | PIdle => cur = []
    | PFast _ v | PSlow _ v | PCan _ v | PGrow _ v | PWrite _ v => cur = [GOPut v]
    | POffer _ v | POWrite _ v | POInc _ v => cur = [GOOffer v]
    | PStore _ v => cur = [GOPut v] \/ cur = [GOOffer v]
    end.
  Definition gpconf s prog : Prop := exists don cur,
    prog = don ++ cur ++ gpprog s /\ gcur_ok (gpp s) cur /\ Forall2 ganswer don (List.filter is_gpev (glog s)).
  Definition gkcur_ok (c : gcpc T) (cur : list gcop) : Prop :=
    match c with
    | CIdle | CDone => cur = []
    | CRead b | CStore b _ | CLook b _ | CSwitch b | CUngrow b => cur = [if b then GOGet else GOAccept]
    | CSlow | CStatus | CGrown2 | CEnq => cur = [GOGet]
    | CIStatus | CIEnq => cur = [GOIsClosed]
    end.
  Definition gkconf s prog : Prop := exists don cur,
    prog = don ++ cur ++ gcprog s /\ gkcur_ok (gcp s) cur /\ Forall2 gcanswer don (List.filter is_gcev (glog s)).

  (** A step: [don'] calls answered, [cur'] now open. *)
  Lemma gpconf_step s s' prog : gpconf s prog ->
    (exists evs, glog s' = glog s ++ evs /\
      forall cur, gcur_ok (gpp s) cur -> exists don' cur',
         cur ++ gpprog s = don' ++ cur' ++ gpprog s' /\ gcur_ok (gpp s') cur' /\ Forall2 ganswer don' (List.filter is_gpev evs)) ->
    gpconf s' prog.
  Proof.
    intros (don & cur & -> & B & C) (evs & E & H). destruct (H cur B) as (don' & cur' & A' & B' & C').
    exists (don ++ don'), cur'. rewrite A', <- app_assoc, E, List.filter_app. split; [done|]. split; [done|]. by apply Forall2_app.
  Qed.
  Lemma gkconf_step s s' prog : gkconf s prog ->
    (exists evs, glog s' = glog s ++ evs /\
      forall cur, gkcur_ok (gcp s) cur -> exists don' cur',
         cur ++ gcprog s = don' ++ cur' ++ gcprog s' /\ gkcur_ok (gcp s') cur' /\ Forall2 gcanswer don' (List.filter is_gcev evs)) ->
    gkconf s' prog.
  Proof.
    intros (don & cur & -> & B & C) (evs & E & H). destruct (H cur B) as (don' & cur' & A' & B' & C').
    exists (don ++ don'), cur'. rewrite A', <- app_assoc, E, List.filter_app. split; [done|]. split; [done|]. by apply Forall2_app.
  Qed.

  Ltac stay c := exists [], c; split; [done|]; split; [simpl; auto|constructor].
  Ltac finish c := exists c, []; split; [done|]; split; [done|]; simpl; constructor; [simpl; eauto|constructor].
  Lemma gpconf_pstep s prog : gpconf s prog -> gpconf (gpstep junk s) prog.
  Proof.
    intros H. unfold gpstep. destruct (gpp s) as [|t v|t v|t v|t v|t v|t v|t v|t v|t v] eqn:Ep.
    - destruct (gpprog s) as [|[v|v|] rest] eqn:Epr; [done| | |]; (eapply gpconf_step; [exact H|]); rewrite Ep, Epr.
      + eexists; split; [done|]. intros cur ->. stay [GOOffer v].
      + exists []; split; [simpl; by rewrite app_nil_r|]. intros cur ->. stay [GOPut v].
      + eexists; split; [done|]. intros cur ->. finish [@GOClose T].
    - destruct (_ =? _); (eapply gpconf_step; [exact H|]); rewrite Ep; eexists; (split; [done|]); intros cur ->; stay [GOPut v].
    - destruct (_ =? _); (eapply gpconf_step; [exact H|]); rewrite Ep; eexists; (split; [done|]); intros cur ->; [stay [GOOffer v]|finish [GOOffer v]].
    - (eapply gpconf_step; [exact H|]); rewrite Ep; eexists; (split; [done|]); intros cur ->; stay [GOOffer v].
    - (eapply gpconf_step; [exact H|]); rewrite Ep; exists []; split; [simpl; by rewrite app_nil_r|]; intros cur ->; stay [GOOffer v].
    - (eapply gpconf_step; [exact H|]); rewrite Ep; eexists; (split; [done|]); intros cur ->; stay [GOPut v].
    - (eapply gpconf_step; [exact H|]); rewrite Ep; eexists; (split; [done|]); intros cur [-> | ->]; [finish [GOPut v]|finish [GOOffer v]].
    - destruct (_ =? _); (eapply gpconf_step; [exact H|]); rewrite Ep; eexists; (split; [done|]); intros cur ->; stay [GOPut v].
    - destruct (_ && _); (eapply gpconf_step; [exact H|]); rewrite Ep; eexists; (split; [done|]); intros cur ->; stay [GOPut v].
    - (eapply gpconf_step; [exact H|]); rewrite Ep; eexists; (split; [done|]); intros cur ->; finish [GOPut v].
  Qed.
  Lemma gkconf_cstep s prog : gkconf s prog -> gkconf (gcstep s) prog.
  Proof.
    intros H. unfold gcstep. destruct (gcp s) as [|get|get v|get slow|get|get| | | | | | |] eqn:Ec.
    - destruct (gcprog s) as [|[| |] rest] eqn:Er; [done| | |].
      + destruct (_ =? _); (eapply gkconf_step; [exact H|]); rewrite Ec, Er; eexists; (split; [done|]); intros cur ->; stay [GOAccept].
      + destruct (_ =? _); (eapply gkconf_step; [exact H|]); rewrite Ec, Er; eexists; (split; [done|]); intros cur ->; stay [GOGet].
      + destruct (isGrown s); (eapply gkconf_step; [exact H|]); rewrite Ec, Er; eexists; (split; [done|]); intros cur ->; [finish [GOIsClosed]|stay [GOIsClosed]].
    - (eapply gkconf_step; [exact H|]); rewrite Ec; eexists; (split; [done|]); intros cur ->. stay [if get then GOGet else GOAccept].
    - (eapply gkconf_step; [exact H|]); rewrite Ec; eexists; (split; [done|]); intros cur ->. destruct get; [finish [GOGet]|finish [GOAccept]].
    - destruct (isGrown s); [|destruct get; [destruct slow|]]; (eapply gkconf_step; [exact H|]); rewrite Ec; eexists; (split; [done|]); intros cur ->;
        [stay [if get then GOGet else GOAccept]|stay [GOGet]|stay [GOGet]|finish [GOAccept]].
    - (eapply gkconf_step; [exact H|]); rewrite Ec; exists []; split; [simpl; by rewrite app_nil_r|]; intros cur ->. stay [if get then GOGet else GOAccept].
    - (eapply gkconf_step; [exact H|]); rewrite Ec; eexists; (split; [done|]); intros cur ->. destruct get; [stay [GOGet]|finish [GOAccept]].
    - destruct (_ =? _); (eapply gkconf_step; [exact H|]); rewrite Ec; eexists; (split; [done|]); intros cur ->; stay [GOGet].
    - destruct (gstatus s); (eapply gkconf_step; [exact H|]); rewrite Ec; eexists; (split; [done|]); intros cur ->; stay [GOGet].
    - destruct (isGrown s); (eapply gkconf_step; [exact H|]); rewrite Ec; eexists; (split; [done|]); intros cur ->; stay [GOGet].
    - destruct (_ =? _); (eapply gkconf_step; [exact H|]); rewrite Ec; eexists; (split; [done|]); intros cur ->; [finish [GOGet]|stay [GOGet]].
    - done.
    - destruct (gstatus s); (eapply gkconf_step; [exact H|]); rewrite Ec; eexists; (split; [done|]); intros cur ->; [stay [GOIsClosed]|finish [GOIsClosed]].
    - (eapply gkconf_step; [exact H|]); rewrite Ec; eexists; (split; [done|]); intros cur ->; finish [GOIsClosed].
  Qed.
  Lemma gkconf_pstep s prog : gkconf s prog -> gkconf (gpstep junk s) prog.
  Proof.
    intros (don & cur & A & B & C). exists don, cur. destruct (pstep_log junk s) as (evs & E & _ & F).
    rewrite E, List.filter_app, F, app_nil_r. split; [|split; [|done]].
    - rewrite A. unfold gpstep. by repeat case_match.
    - enough (gcp (gpstep junk s) = gcp s) as -> by done. unfold gpstep. by repeat case_match.
  Qed.
  Lemma gpconf_cstep s prog : gpconf s prog -> gpconf (gcstep s) prog.
  Proof.
    intros (don & cur & A & B & C). exists don, cur.
    assert (exists evs, glog (gcstep s) = glog s ++ evs /\ List.filter is_gpev evs = []) as (evs & E & F).
    { unfold gcstep. repeat case_match; simpl; try (by eexists); exists []; by rewrite app_nil_r. }
    rewrite E, List.filter_app, F, app_nil_r. split; [|split; [|done]].
    - rewrite A. unfold gcstep. by repeat case_match.
    - enough (gpp (gcstep s) = gpp s) as -> by done. unfold gcstep. by repeat case_match.
  Qed.
  Lemma gconf_run s sched pr cr : gpconf s pr -> gkconf s cr -> gpconf (grun junk s sched) pr /\ gkconf (grun junk s sched) cr.
  Proof.
    revert s. induction sched as [|[|] sched IH]; intros s H1 H2; [done| |]; simpl; apply IH.
    - by apply gpconf_pstep.
    - by apply gkconf_pstep.
    - by apply gpconf_cstep.
    - by apply gkconf_cstep.
  Qed.
  Lemma gconf_init size mg pr cr : gpconf (grow_init junk size mg pr cr) pr /\ gkconf (grow_init junk size mg pr cr) cr.
  Proof. split; exists [], []; simpl; split; try done; split; done || constructor. Qed.
End conf.
