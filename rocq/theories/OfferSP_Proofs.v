From Verif Require Import Base MPSC_Spec MPSC_Model MPSC_Proofs OfferSP_Model.
Open Scope N_scope.

Section sim.
  Context {T : Type} (k : N) (Hk : 1 <= k) (Hk2 : k < 64).
  Notation mask := (N.ones k).
  Notation size := (2 ^ k).
  Notation slot := (slot_of mask).
  Implicit Types s c : mrb T.

  Definition full (l : list (mev T)) : Prop := N.of_nat (length (gots l)) + size <= N.of_nat (length (claims l)).
  Definition fair_no (lg : list (mev T)) : Prop := forall l p v r, lg = l ++ ERefuse p v :: r -> full l.
  Lemma fair_one lg e : fair_no lg -> match e with ERefuse _ _ => full lg | _ => True end -> fair_no (lg ++ [e]).
  Proof.
    intros H He l p v r E. destruct r as [|x r] using rev_ind.
    - apply app_inj_tail in E as [-> ->]. exact He.
    - change (l ++ ERefuse p v :: r ++ [x]) with (l ++ (ERefuse p v :: r) ++ [x]) in E. rewrite app_assoc in E. apply app_inj_tail in E as [-> _]. by eapply H.
  Qed.
  Lemma fair_nil lg : fair_no lg -> fair_no (lg ++ []).
  Proof. by rewrite app_nil_r. Qed.

  (** [c] runs the single-producer code, [s] the multi-producer code with one producer. *)
  Definition near (pc : mppc T) (fl : bool) (a b : N -> N * T) : Prop :=
    if fl then exists t v, pc = MOfferCas t v /\ forall i, a i = set_slot b (slot t) (fst (b (slot t)), v) i else forall i, a i = b i.
  Definition rel (x : mrb T * bool) s : Prop := exists pc pr sl,
    near pc (snd x) sl (slots s) /\ prods s = [(pc, pr)] /\ fst x = Mrb (menq s) (mdeq s) sl (mstatus s) [(pc, pr)] (kp s) (kprog s) (mlog s) /\
    match pc with MOfferCheck t _ | MOfferCas t _ => t = menq s | _ => True end.

  Lemma near_pos pc fl a b i : near pc fl a b -> fst (a i) = fst (b i).
  Proof. destruct fl; cbn; [|by intros ->]. intros (t & v & _ & E). rewrite E. unfold set_slot. by destruct (N.eqb_spec i (slot t)) as [-> |]. Qed.
  (** The consumer does not see the element that has been written too early. *)
  Lemma near_taken s pc pr fl a : minv k s -> prods s = [(pc, pr)] -> match pc with MOfferCheck t _ | MOfferCas t _ => t = menq s | _ => True end ->
    near pc fl a (slots s) -> dn s (D s) -> snd (a (slot (D s))) = snd (slots s (slot (D s))).
  Proof.
    intros H Hp Ht Hn Hd. destruct fl; cbn in Hn; [|by rewrite Hn]. destruct Hn as (t & v & -> & E). rewrite E.
    pose proof (m_dn _ _ H _ Hd) as [_ H2]. destruct (m_offer _ _ H 0%nat pr t v) as [_ Ho]. rewrite Hp in Ho. destruct (Ho eq_refl) as [H3 H4].
    rewrite Ht, (m_enq _ _ H) in H3, H4. rewrite set_ne; [done|]. rewrite !slot_mod. intros Es. apply (mod_inj k Hk Hk2 (D s)) in Es; rewrite ?Ht, ?(m_enq _ _ H) in *; lia.
  Qed.
  Lemma near_store s pc pr fl a x : minv k s -> prods s = [(pc, pr)] -> match pc with MOfferCheck t _ | MOfferCas t _ => t = menq s | _ => True end ->
    near pc fl a (slots s) -> dn s (D s) -> near pc fl (set_slot a (slot (D s)) (x, snd (a (slot (D s))))) (set_slot (slots s) (slot (D s)) (x, snd (slots s (slot (D s))))).
  Proof.
    intros H Hp Ht Hn Hd. pose proof (near_taken s pc pr fl a H Hp Ht Hn Hd) as ->. destruct fl; cbn in Hn |- *.
    - destruct Hn as (t & v & -> & E). exists t, v. split; [done|]. intros i. unfold set_slot at 1.
      pose proof (m_dn _ _ H _ Hd) as [_ H2]. destruct (m_offer _ _ H 0%nat pr t v) as [_ Ho]. rewrite Hp in Ho. destruct (Ho eq_refl) as [H3 H4].
      assert (Hne : slot t <> slot (D s)). { rewrite !slot_mod. intros Es. apply (mod_inj k Hk Hk2 (D s)) in Es; rewrite ?Ht, ?(m_enq _ _ H) in *; lia. }
      rewrite (set_ne _ (slot (D s)) _ (slot t)) by done. unfold set_slot at 1. destruct (N.eqb_spec i (slot (D s))) as [-> |].
      + destruct (N.eqb_spec (slot (D s)) (slot t)); [congruence|]. by rewrite set_eq.
      + rewrite E. unfold set_slot at 1. destruct (i =? slot t); [done|]. by rewrite set_ne.
    - intros i. unfold set_slot. destruct (i =? _); [done|apply Hn].
  Qed.

  Lemma rel_k x s d a b kp' pr evs pc pr0 : rel x s -> prods s = [(pc, pr0)] -> near pc (snd x) a b ->
    rel (upd_k (fst x) d a kp' pr evs, snd x) (upd_k s d b kp' pr evs).
  Proof.
    intros (pc' & pr' & sl & Hn & Hp & E & Ht) Hp' Ha. rewrite Hp in Hp'. injection Hp' as -> ->. exists pc, pr0, a. cbn. rewrite E. cbn. by rewrite Hp.
  Qed.
  Lemma rel_kstep x s : minv k s -> rel x s -> fair_no (mlog s) -> rel (kstep mask (fst x), snd x) (kstep mask s) /\ fair_no (mlog (kstep mask s)).
  Proof.
    intros H R Hf. pose proof R as (pc & pr & sl & Hn & Hp & E & Ht).
    assert (Ef : slots (fst x) = sl /\ menq (fst x) = menq s /\ mdeq (fst x) = mdeq s /\ mstatus (fst x) = mstatus s /\ kp (fst x) = kp s /\ kprog (fst x) = kprog s) by (rewrite E; done).
    destruct Ef as (E1 & E2 & E3 & E4 & E5 & E6). unfold kstep. rewrite E1, E2, E3, E4, E5, E6, !(near_pos _ _ _ _ _ Hn).
    pose proof (m_deq _ _ H) as Hd. pose proof (m_kp _ _ H) as Hkp.
    destruct (kp s) as [| | |g|g v|] eqn:Ek.
    - destruct (kprog s) as [|[] kr] eqn:Er.
      + split; [|done]. by destruct x.
      + destruct (_ =? _); (split; [by eapply rel_k|]); [by apply fair_nil|by apply fair_one].
      + destruct (_ =? _); (split; [by eapply rel_k|]); by apply fair_nil.
      + split; [by eapply rel_k|by apply fair_one].
    - destruct (_ =? _); (split; [by eapply rel_k|]); [by apply fair_nil|by apply fair_one].
    - destruct (mstatus s); (split; [by eapply rel_k|]); [by apply fair_one|by apply fair_nil].
    - cbv zeta. assert (Ed : (if g then mdeq s - 1 else mdeq s) = D s) by (destruct g; lia). rewrite Ed, (near_taken s pc pr _ sl H Hp Ht Hn Hkp). split; [by eapply rel_k|by apply fair_nil].
    - cbv zeta. assert (Ed : (if g then mdeq s - 1 else mdeq s) = D s) by (destruct g; lia). rewrite Ed. destruct Hkp as [Hkp _].
      split; [eapply rel_k; [done|done|]; by eapply near_store|by apply fair_one].
    - split; [|done]. by destruct x.
  Qed.

  Lemma set_near (a b : N -> N * T) i f : (forall j, a j = b j) -> forall j, set_slot a i (f (a i)) j = set_slot b i (f (b i)) j.
  Proof. intros E j. unfold set_slot. rewrite E. by destruct (j =? i). Qed.
  Lemma rel_pstep x s : minv k s -> rel x s -> fair_no (mlog s) -> exists n, rel (sp_step mask x) (mrun mask s (repeat (Some 0%nat) n)) /\ fair_no (mlog (mrun mask s (repeat (Some 0%nat) n))).
  Proof.
    intros H R Hf. pose proof R as (pc & pr & sl & Hn & Hp & E & Ht). destruct x as [c fl]. cbn [fst snd] in *. subst c.
    assert (F : (forall t v, pc <> MOfferCas t v) -> fl = false). { destruct fl; [|done]. cbn in Hn. destruct Hn as (t & v & -> & _). intros Hx. by destruct (Hx t v). }
    assert (G : forall enq a b st pc' pr' evs, near pc' fl a b -> match pc' with MOfferCheck t _ | MOfferCas t _ => t = enq | _ => True end ->
      rel (upd_p (Mrb (menq s) (mdeq s) sl (mstatus s) [(pc, pr)] (kp s) (kprog s) (mlog s)) 0 enq a st pc' pr' evs, fl) (upd_p s 0 enq b st pc' pr' evs)).
    { intros enq a b st pc' pr' evs Ha Ht'. exists pc', pr', a. cbn. rewrite Hp. done. }
    unfold sp_step. cbn [prods lookup list_lookup slots menq mstatus].
    destruct pc as [|t v|t v|t v|t v|t v].
    - specialize (F ltac:(done)). subst fl. destruct pr as [|[v|v|] pr].
      + exists 0%nat. done.
      + exists 1%nat. cbn [repeat mrun]. unfold mpstep. rewrite Hp. cbn [lookup list_lookup]. split; [by apply G|by apply fair_one].
      + exists 1%nat. cbn [repeat mrun]. unfold mpstep. rewrite Hp. cbn [lookup list_lookup]. split; [by apply G|by apply fair_one].
      + exists 1%nat. cbn [repeat mrun]. unfold mpstep. rewrite Hp. cbn [lookup list_lookup]. split; [by apply G|by apply fair_one].
    - specialize (F ltac:(done)). subst fl. exists 1%nat. cbn [repeat mrun]. unfold mpstep. rewrite Hp. cbn [lookup list_lookup]. rewrite (near_pos _ _ _ _ _ Hn).
      destruct (_ =? t); (split; [by apply G|by apply fair_nil]).
    - specialize (F ltac:(done)). subst fl. exists 1%nat. cbn [repeat mrun]. unfold mpstep. rewrite Hp. cbn [lookup list_lookup].
      split; [|by apply fair_nil]. apply G; [|done]. exact (set_near sl (slots s) (slot t) (fun y => (fst y, v)) Hn).
    - specialize (F ltac:(done)). subst fl. exists 1%nat. cbn [repeat mrun]. unfold mpstep. rewrite Hp. cbn [lookup list_lookup].
      split; [|by apply fair_one]. apply G; [|done]. exact (set_near sl (slots s) (slot t) (fun y => (t + 1, snd y)) Hn).
    - specialize (F ltac:(done)). subst fl. exists 1%nat. cbn [repeat mrun]. unfold mpstep. rewrite Hp. cbn [lookup list_lookup]. rewrite (near_pos _ _ _ _ _ Hn).
      destruct (N.eqb_spec (fst (slots s (slot t))) t) as [Eq|Ne].
      + split; [by apply G|by apply fair_nil].
      + split; [by apply G|]. apply fair_one; [done|]. unfold full. destruct (N.le_gt_cases (D s + size) t) as [Hle|Hlt]; [rewrite Ht, (m_enq _ _ H) in Hle; exact Hle|].
        exfalso. apply Ne. rewrite slot_mod. apply (m_free _ _ H); [|done|].
        * pose proof (D_le k Hk Hk2 s H). rewrite Ht, (m_enq _ _ H). done.
        * intros Hd. apply (m_dn _ _ H) in Hd as [_ Hd]. rewrite Ht, (m_enq _ _ H) in Hd. lia.
    - destruct fl.
      + exists 2%nat. cbn [repeat mrun]. unfold mpstep at 2 4. rewrite Hp. cbn [lookup list_lookup]. rewrite Ht, N.eqb_refl. unfold mpstep. cbn [prods upd_p]. rewrite Hp. cbn.
        split; [|apply fair_nil; by apply fair_one]. exists (MStore (menq s) v), pr, sl. split; [|split; [|split; [|done]]].
        * destruct Hn as (t' & v' & Ee & Hn). injection Ee as <- <-. subst t. exact Hn.
        * cbn. by rewrite Hp.
        * cbn. by rewrite app_nil_r.
      + exists 0%nat. cbn [repeat mrun]. split; [|done]. exists (MOfferCas t v), pr, (set_slot sl (slot t) (fst (sl (slot t)), v)). split; [|split; [done|split; [|done]]].
        * exists t, v. split; [done|]. cbn in Hn. exact (set_near sl (slots s) (slot t) (fun y => (fst y, v)) Hn).
        * cbn. unfold upd_p. cbn. by rewrite app_nil_r.
  Qed.

  Lemma rel_run sched : forall x s, minv k s -> rel x s -> fair_no (mlog s) ->
    exists sched', rel (sp_run mask x sched) (mrun mask s sched') /\ fair_no (mlog (mrun mask s sched')).
  Proof.
    induction sched as [|b sched IH]; intros x s H R Hf. { by exists []. }
    assert (App : forall a b s, mrun mask s (a ++ b) = mrun mask (mrun mask s a) b). { induction a as [|y a IHa]; intros b' s'; [done|]. cbn. apply IHa. }
    unfold sp_run. cbn [fold_left]. destruct b.
    - destruct (rel_pstep x s H R Hf) as (n & R' & F'). destruct (IH _ _ (minv_run k Hk Hk2 s _ H) R' F') as (sched' & HH). exists (repeat (Some 0%nat) n ++ sched'). rewrite App. exact HH.
    - destruct (rel_kstep x s H R Hf) as [R' F']. destruct (IH _ _ (minv_kstep k Hk Hk2 s H) R' F') as (sched' & HH). exists (None :: sched'). exact HH.
  Qed.
End sim.
