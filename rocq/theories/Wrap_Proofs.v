From Verif Require Import Base MPSC_Spec MPSC_Model MPSC_Proofs Wrap_Model.
Open Scope N_scope.

Lemma word_eq a b : a < b + 2 ^ 64 -> b < a + 2 ^ 64 -> (word a =? word b) = (a =? b).
Proof.
  intros H1 H2. unfold word. destruct (N.eqb_spec a b) as [-> |Hn]; [apply N.eqb_refl|]. apply N.eqb_neq. intros E. apply Hn.
  pose proof (N.div_mod a (2 ^ 64) ltac:(done)) as Ea. pose proof (N.div_mod b (2 ^ 64) ltac:(done)) as Eb. rewrite E in Ea.
  set (qa := a / 2 ^ 64) in *. set (qb := b / 2 ^ 64) in *. set (r := b mod 2 ^ 64) in *. assert (qa = qb); [|congruence].
  destruct (N.lt_trichotomy qa qb) as [H|[H|H]]; [|done|]; exfalso; nia.
Qed.
Lemma word_add a c : word (word a + c) = word (a + c).
Proof. unfold word. apply N.add_mod_idemp_l. done. Qed.
Lemma word_lt a : word a < 2 ^ 64.
Proof. by apply N.mod_lt. Qed.
Lemma word_slot k t : k < 64 -> slot_of (N.ones k) (word t) = slot_of (N.ones k) t.
Proof.
  intros Hk. unfold slot_of, word. rewrite <- (N.land_ones t 64), <- N.land_assoc. f_equal. rewrite N.land_comm, N.land_ones. apply N.mod_small. rewrite N.ones_equiv.
  assert (2 ^ k < 2 ^ 64) by (apply N.pow_lt_mono_r; lia). lia.
Qed.
Lemma word_before d : 1 <= d -> before (word d) = word (d - 1).
Proof.
  intros H. unfold before. replace (word d + 2 ^ 64 - 1) with (word d + (2 ^ 64 - 1)) by lia. rewrite word_add. unfold word.
  replace (d + (2 ^ 64 - 1)) with (d - 1 + 1 * 2 ^ 64) by lia. by apply N.mod_add.
Qed.
Lemma word_range e d : d <= e + 1 -> word (word e + 2 ^ 64 - word d) = (e + 2 ^ 64 - d) mod 2 ^ 64.
Proof.
  intros H. unfold word at 1. pose proof (N.div_mod e (2 ^ 64) ltac:(done)) as Ee. pose proof (N.div_mod d (2 ^ 64) ltac:(done)) as Ed. pose proof (word_lt e). pose proof (word_lt d).
  fold (word e) in Ee. fold (word d) in Ed. set (qe := e / 2 ^ 64) in *. set (qd := d / 2 ^ 64) in *.
  assert (E : e + 2 ^ 64 - d + qd * 2 ^ 64 = word e + 2 ^ 64 - word d + qe * 2 ^ 64) by lia.
  rewrite <- (N.mod_add (e + 2 ^ 64 - d) qd), E by done. symmetry. by apply N.mod_add.
Qed.

Section sim.
  Context {T : Type} (k : N) (Hk : 1 <= k) (Hk2 : k < 64).
  Notation mask := (N.ones k).
  Notation size := (2 ^ k).
  Implicit Types s w : mrb T.

  Definition wpc (pc : mppc T) : mppc T :=
    match pc with
    | MIdle => MIdle
    | MCheck t v => MCheck (word t) v
    | MWrite t v => MWrite (word t) v
    | MStore t v => MStore (word t) v
    | MOfferCheck t v => MOfferCheck (word t) v
    | MOfferCas t v => MOfferCas (word t) v
    end.
  Definition wev (e : mev T) : mev T := match e with EDone p t v => EDone p (word t) v | e => e end.
  Record sim s w : Prop := {
    s_enq : menq w = word (menq s);
    s_deq : mdeq w = word (mdeq s);
    s_slots : forall i, slots w i = (word (fst (slots s i)), snd (slots s i));
    s_status : mstatus w = mstatus s;
    s_prods : prods w = map (fun x => (wpc (fst x), snd x)) (prods s);
    s_kp : kp w = kp s;
    s_kprog : kprog w = kprog s;
    s_log : mlog w = map wev (mlog s) }.
  (** Nobody offers. *)
  Definition calm (x : mppc T * list (mop T)) : Prop :=
    match fst x with MOfferCheck _ _ | MOfferCas _ _ => False | _ => True end /\ forall v, ~ In (MOffer v) (snd x).
  Definition calms s : Prop := forall p x, prods s !! p = Some x -> calm x.

  (** How far the tickets can be ahead: one per producer beyond the size. *)
  Definition ticket (x : mppc T * list (mop T)) : list N := match fst x with MCheck t _ | MWrite t _ | MStore t _ => [t] | _ => [] end.
  Lemma tickets_length (l : list (mppc T * list (mop T))) : (length (flat_map ticket l) <= length l)%nat.
  Proof. induction l as [|[pc pr] l IH]; cbn; [lia|]. rewrite app_length. destruct pc; cbn; lia. Qed.
  Lemma ahead s : minv k s -> menq s <= D s + size + N.of_nat (length (prods s)).
  Proof.
    intros H. destruct (N.le_gt_cases (menq s) (D s + size)) as [|Hgt]; [lia|].
    set (l := map (fun i => D s + size + N.of_nat i) (seq 0 (N.to_nat (menq s - (D s + size))))).
    assert (HN : List.NoDup l). { apply FinFun.Injective_map_NoDup; [|apply seq_NoDup]. intros i j E. lia. }
    assert (HI : incl l (flat_map ticket (prods s))).
    { intros t Ht. apply in_map_iff in Ht as (i & <- & Hi). apply in_seq in Hi. set (t := D s + size + N.of_nat i) in *.
      destruct (m_claimed _ _ H t) as [Hd|(p & pc & pr & v & Hp & Hh)]. { rewrite <- (m_enq _ _ H). unfold t. lia. }
      - apply (m_dn _ _ H) in Hd. unfold t in Hd. lia.
      - apply in_flat_map. exists (pc, pr). split; [apply elem_of_list_In; by eapply elem_of_list_lookup_2|]. unfold holds in Hh. destruct Hh as [->|[->| ->]]; cbn; by left. }
    pose proof (NoDup_incl_length HN HI) as HL. unfold l in HL. rewrite map_length, seq_length in HL. pose proof (tickets_length (prods s)). lia.
  Qed.
  Lemma slot_near s t : minv k s -> D s <= t -> D s <= fst (slots s (slot_of mask t)) /\ fst (slots s (slot_of mask t)) <= D s + size.
  Proof.
    intros H Ht. rewrite slot_mod. destruct (window_rep k Hk Hk2 (D s) t Ht) as (t' & W1 & W2 & W3 & _). rewrite <- W3. change (slots s (t' mod size)) with (sl k s t').
    destruct (in_dec N.eq_dec t' (done_tickets (mlog s))) as [Hd|Hd].
    - destruct (m_full _ _ H t' W1 W2 Hd) as [-> _]. lia.
    - rewrite (m_free _ _ H t' W1 W2 Hd). lia.
  Qed.
  Lemma slot_any s t : minv k s -> D s <= fst (slots s (slot_of mask t)) /\ fst (slots s (slot_of mask t)) <= D s + size.
  Proof.
    intros H. replace (slot_of mask t) with (slot_of mask (t + D s * size)); [apply slot_near; [done|]; nia|].
    rewrite !slot_mod. apply N.mod_add. lia.
  Qed.

  Definition f (x : mppc T * list (mop T)) := (wpc (fst x), snd x).
  Lemma sim_p s w p enq sl sl' st pc pr evs : sim s w -> (forall i, sl' i = (word (fst (sl i)), snd (sl i))) ->
    sim (upd_p s p enq sl st pc pr evs) (upd_p w p (word enq) sl' st (wpc pc) pr (map wev evs)).
  Proof.
    intros [S1 S2 S3 S4 S5 S6 S7 S8] Hsl. split; cbn; try done.
    - rewrite S5. change (<[p:=f (pc, pr)]> (f <$> prods s) = f <$> <[p:=(pc, pr)]> (prods s)). by rewrite list_fmap_insert.
    - by rewrite S8, map_app.
  Qed.
  Lemma sim_k s w d sl sl' kp' pr evs : sim s w -> (forall i, sl' i = (word (fst (sl i)), snd (sl i))) ->
    sim (upd_k s d sl kp' pr evs) (upd_k w (word d) sl' kp' pr (map wev evs)).
  Proof. intros [S1 S2 S3 S4 S5 S6 S7 S8] Hsl. split; cbn; try done. by rewrite S8, map_app. Qed.
  Lemma sim_set (a b : N -> N * T) i x v : (forall i, b i = (word (fst (a i)), snd (a i))) -> forall j, set_slot b i (word x, v) j = (word (fst (set_slot a i (x, v) j)), snd (set_slot a i (x, v) j)).
  Proof. intros H j. unfold set_slot. by destruct (j =? i). Qed.

  Lemma sim_pstep s w p : minv k s -> calms s \/ menq s + size < 2 ^ 64 -> N.of_nat (length (prods s)) < 2 ^ 63 -> sim s w -> sim (mpstep mask s p) (wpstep mask w p).
  Proof.
    intros H Hc Hn S. unfold mpstep, wpstep. rewrite (s_prods _ _ S). change (map _ (prods s)) with (f <$> prods s). rewrite list_lookup_fmap.
    destruct (prods s !! p) as [[pc pr]|] eqn:Ep; cbn [fmap option_fmap option_map]; [|done]. unfold f at 1. cbn [fst snd].
    rewrite ?(s_enq _ _ S), (s_status _ _ S).
    assert (Hsz : size <= 2 ^ 63) by (apply N.pow_le_mono_r; lia). pose proof (D_le k Hk Hk2 s H) as HD. rewrite <- (m_enq _ _ H) in HD.
    destruct pc as [|t v|t v|t v|t v|t v]; cbn [wpc].
    - destruct pr as [|[v|v|] pr]; [done| | |].
      + apply (sim_p _ _ _ _ _ _ _ (MOfferCheck (menq s) v) _ [EStart p]); [done|apply S].
      + rewrite word_add. apply (sim_p _ _ _ _ _ _ _ (MCheck (menq s) v) _ [EClaim p v]); [done|apply S].
      + apply (sim_p _ _ _ _ _ _ _ MIdle _ [EClose p]); [done|apply S].
    - rewrite word_slot by done. rewrite (s_slots _ _ S). cbn [fst snd].
      assert (Hh : holds (MCheck t v) t v) by by left. pose proof (held_ge k s p _ _ _ _ H Ep Hh) as Hge.
      destruct (m_held _ _ H _ _ _ _ _ Ep Hh) as (Hat & _). assert (Hlt : t < menq s). { rewrite (m_enq _ _ H). apply lookup_lt_Some in Hat. lia. }
      pose proof (ahead s H). pose proof (slot_near s t H Hge). rewrite word_eq by lia.
      destruct (_ =? t).
      + apply (sim_p _ _ _ _ _ _ _ (MWrite t v) _ []); [done|apply S].
      + apply (sim_p _ _ _ _ _ _ _ (MCheck t v) _ []); [done|apply S].
    - rewrite word_slot by done. rewrite (s_slots _ _ S). cbn [fst snd]. apply (sim_p _ _ _ _ _ _ _ (MStore t v) _ []); [done|]. apply sim_set, S.
    - rewrite word_slot by done. rewrite (s_slots _ _ S). cbn [fst snd]. rewrite word_add. apply (sim_p _ _ _ _ _ _ _ MIdle _ [EDone p t v]); [done|]. apply sim_set, S.
    - destruct Hc as [Hc|Hc]; [by destruct (Hc _ _ Ep)|]. destruct (m_offer _ _ H p pr t v) as [Ht _]. specialize (Ht Ep). rewrite <- (m_enq _ _ H) in Ht.
      rewrite word_slot by done. rewrite (s_slots _ _ S). cbn [fst snd]. pose proof (slot_any s t H). rewrite word_eq by lia.
      destruct (_ =? t).
      + apply (sim_p _ _ _ _ _ _ _ (MOfferCas t v) _ []); [done|apply S].
      + apply (sim_p _ _ _ _ _ _ _ MIdle _ [ERefuse p v]); [done|apply S].
    - destruct Hc as [Hc|Hc]; [by destruct (Hc _ _ Ep)|]. destruct (m_offer _ _ H p pr t v) as [_ Ht]. destruct (Ht Ep) as [Ht' _]. rewrite <- (m_enq _ _ H) in Ht'.
      rewrite word_eq by lia. destruct (_ =? t).
      + rewrite word_add. apply (sim_p _ _ _ _ _ _ _ (MWrite t v) _ [EClaim p v]); [done|apply S].
      + apply (sim_p _ _ _ _ _ _ _ MIdle _ [ERefuse p v]); [done|apply S].
  Qed.
  Lemma sim_kstep s w : minv k s -> sim s w -> sim (kstep mask s) (wkstep mask w).
  Proof.
    intros H S. unfold kstep, wkstep. rewrite (s_kp _ _ S), (s_kprog _ _ S), (s_deq _ _ S), (s_status _ _ S), ?(s_enq _ _ S).
    assert (Hsz : size <= 2 ^ 63) by (apply N.pow_le_mono_r; lia). pose proof (m_deq _ _ H) as Hd. pose proof (D_le k Hk Hk2 s H) as HD. rewrite <- (m_enq _ _ H) in HD.
    pose proof (slot_near s (D s) H ltac:(lia)) as Hs.
    destruct (kp s) as [| | |g|g v|]; [| | | | |done].
    - destruct (kprog s) as [|[] pr]; [done| | |]; rewrite ?word_slot by done; rewrite ?(s_slots _ _ S); cbn [fst snd]; rewrite ?word_add.
      + rewrite Hd in *. rewrite word_eq by lia. destruct (_ =? _); [apply (sim_k _ _ _ _ _ _ _ []); [done|apply S]|apply (sim_k _ _ _ _ _ _ _ [EEmpty]); [done|apply S]].
      + rewrite Hd in *. rewrite word_eq by lia. destruct (_ =? _); apply (sim_k _ _ _ _ _ _ _ []); try done; apply S.
      + rewrite word_range by lia. apply (sim_k _ _ _ _ _ _ _ [EAvail _]); [done|apply S].
    - rewrite Hd in *. rewrite word_before by lia. rewrite word_slot by done. rewrite (s_slots _ _ S). cbn [fst snd]. replace (D s + 1 - 1) with (D s) by lia. rewrite word_eq by lia.
      destruct (_ =? _); [apply (sim_k _ _ _ _ _ _ _ []); [done|apply S]|apply (sim_k _ _ _ _ _ _ _ [EChecked]); [done|apply S]].
    - destruct (mstatus s); [apply (sim_k _ _ _ _ _ _ _ [EClosed]); [done|apply S]|apply (sim_k _ _ _ _ _ _ _ []); [done|apply S]].
    - cbv zeta. assert (E : (if g then before (word (mdeq s)) else word (mdeq s)) = word (if g then mdeq s - 1 else mdeq s)). { destruct g; [|done]. apply word_before. lia. }
      rewrite E, word_slot by done. rewrite (s_slots _ _ S). cbn [fst snd]. apply (sim_k _ _ _ _ _ _ _ []); [done|apply S].
    - cbv zeta. assert (E : (if g then before (word (mdeq s)) else word (mdeq s)) = word (if g then mdeq s - 1 else mdeq s)). { destruct g; [|done]. apply word_before. lia. }
      rewrite E, word_slot by done. rewrite (s_slots _ _ S). cbn [fst snd]. rewrite word_add. replace (word (word (if g then mdeq s - 1 else mdeq s) + 1 + mask)) with (word ((if g then mdeq s - 1 else mdeq s) + 1 + mask)).
      + apply (sim_k _ _ _ _ _ _ _ [EGot v]); [done|]. apply sim_set, S.
      + rewrite <- !N.add_assoc. by rewrite word_add.
  Qed.

  Lemma calm_pstep s p : calms s -> calms (mpstep mask s p) /\ length (prods (mpstep mask s p)) = length (prods s).
  Proof.
    intros Hc. unfold mpstep. destruct (prods s !! p) as [[pc pr]|] eqn:Ep; [|done]. pose proof (Hc _ _ Ep) as [Hpc Hpr]. cbn [fst snd] in *.
    assert (G : forall enq sl st pc' pr' evs, calm (pc', pr') -> calms (upd_p s p enq sl st pc' pr' evs) /\ length (prods (upd_p s p enq sl st pc' pr' evs)) = length (prods s)).
    { intros enq sl st pc' pr' evs Hx. split; [|cbn; apply insert_length]. intros p' x Hp'. cbn in Hp'. apply list_lookup_insert_Some in Hp' as [(-> & <- & _)|[_ Hp']]; [done|by eapply Hc]. }
    destruct pc as [|t v|t v|t v|t v|t v]; try done.
    - destruct pr as [|[v|v|] pr]; [done|exfalso; apply (Hpr v); by left| |]; apply G; (split; [done|]); intros v' Hv'; apply (Hpr v'); by right.
    - destruct (_ =? _); apply G; done.
    - apply G; done.
    - apply G; done.
  Qed.
  Lemma calm_kstep s : prods (kstep mask s) = prods s.
  Proof. unfold kstep. destruct (kp s); try done; [destruct (kprog s) as [|[] ?]; [done| | |done]| |]; try destruct (_ =? _); try destruct (mstatus s); done. Qed.

  Lemma sim_run sched : forall s w, minv k s -> calms s -> N.of_nat (length (prods s)) < 2 ^ 63 -> sim s w -> sim (mrun mask s sched) (wmrun mask w sched).
  Proof.
    induction sched as [|x sched IH]; intros s w H Hc Hn S; [done|]. unfold wmrun. cbn [mrun fold_left]. destruct x as [p|].
    - destruct (calm_pstep s p Hc) as [C1 C2]. apply IH; [by apply minv_pstep|done|by rewrite C2|apply sim_pstep; [done|by left|done|done]].
    - apply IH; [by apply minv_kstep|unfold calms; by rewrite calm_kstep|by rewrite calm_kstep|by apply sim_kstep].
  Qed.

  (** With offers: while at most 2^64 - size tickets have been handed out. *)
  Lemma enq_pstep s p : menq s <= menq (mpstep mask s p) /\ length (prods (mpstep mask s p)) = length (prods s).
  Proof.
    unfold mpstep. destruct (prods s !! p) as [[pc pr]|]; [|done].
    destruct pc as [|t v|t v|t v|t v|t v]; try (destruct pr as [|[] pr]); try destruct (_ =? _); cbn; rewrite ?insert_length; split; (done || lia).
  Qed.
  Lemma enq_kstep s : menq (kstep mask s) = menq s.
  Proof. unfold kstep. destruct (kp s); try done; [destruct (kprog s) as [|[] ?]; [done| | |done]| |]; try destruct (_ =? _); try destruct (mstatus s); done. Qed.
  Lemma enq_run sched : forall s, menq s <= menq (mrun mask s sched).
  Proof.
    induction sched as [|x sched IH]; intros s; [done|]. cbn [mrun fold_left]. destruct x as [p|].
    - pose proof (enq_pstep s p) as [? _]. pose proof (IH (mpstep mask s p)) as HI. lia.
    - pose proof (IH (kstep mask s)) as HI. rewrite enq_kstep in HI. exact HI.
  Qed.
  Lemma sim_run_offers sched : forall s w, minv k s -> menq (mrun mask s sched) + size < 2 ^ 64 -> N.of_nat (length (prods s)) < 2 ^ 63 -> sim s w ->
    sim (mrun mask s sched) (wmrun mask w sched).
  Proof.
    induction sched as [|x sched IH]; intros s w H Hc Hn S; [done|]. pose proof (enq_run (x :: sched) s). unfold wmrun. cbn [mrun fold_left] in *. destruct x as [p|].
    - destruct (enq_pstep s p) as [_ C2]. apply IH; [by apply minv_pstep|done|by rewrite C2|apply sim_pstep; [done| |done|done]]. right. lia.
    - apply IH; [by apply minv_kstep|done|by rewrite calm_kstep|by apply sim_kstep].
  Qed.
End sim.
