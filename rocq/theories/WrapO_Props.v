(** C96, several producers: an offer that stands still between its check and its compare-and-swap (utils/ring-buffer.go:333-334) while exactly
    2^64 items go by finds the counter it has read, although the queue may be full by then, and overwrites an item that has not been taken. *)
From Verif Require Import Base MPSC_Spec MPSC_Model MPSC_Proofs Wrap_Model Wrap_Proofs.
Open Scope N_scope.

Section stale.
  Context {T : Type} (k : N) (Hk : 1 <= k) (Hk2 : k < 64) (v w : T).
  Notation mask := (N.ones k).
  Notation size := (2 ^ k).
  Notation slot := (slot_of mask).
  Notation P0 := (@MOfferCas T 0 v, @nil (mop T)).

  Lemma put4 e d sl kpr pr lg : fst (sl (slot e)) = e ->
    wmrun mask (Mrb e d sl false [P0; (MIdle, MPut w :: pr)] KIdle kpr lg) [Some 1%nat; Some 1%nat; Some 1%nat; Some 1%nat] =
    let sl1 := set_slot sl (slot e) (fst (sl (slot e)), w) in
    Mrb (word (e + 1)) d (set_slot sl1 (slot e) (word (e + 1), snd (sl1 (slot e)))) false [P0; (MIdle, pr)] KIdle kpr ((((lg ++ [EClaim 1%nat w]) ++ []) ++ []) ++ [EDone 1%nat e w]).
  Proof.
    intros E. unfold wmrun. cbn [fold_left].
    change (wpstep mask (Mrb e d sl false [P0; (MIdle, MPut w :: pr)] KIdle kpr lg) 1) with (Mrb (word (e + 1)) d sl false [P0; (MCheck e w, pr)] KIdle kpr (lg ++ [EClaim 1%nat w])).
    assert (E2 : forall e1 lg, wpstep mask (Mrb e1 d sl false [P0; (MCheck e w, pr)] KIdle kpr lg) 1 = Mrb e1 d sl false [P0; (MWrite e w, pr)] KIdle kpr (lg ++ [])).
    { intros e1 lg'. unfold wpstep. cbn [prods lookup list_lookup slots]. rewrite E, N.eqb_refl. reflexivity. }
    rewrite E2. reflexivity.
  Qed.
  Lemma get3 e d (sl : N -> N * T) kpr ps lg : fst (sl (slot d)) = word (d + 1) ->
    wmrun mask (Mrb e d sl false ps KIdle (MAccept :: kpr) lg) [None; None; None] =
    Mrb e (word (d + 1)) (set_slot sl (slot d) (word (d + 1 + mask), snd (sl (slot d)))) false ps KIdle kpr (((lg ++ []) ++ []) ++ [EGot (snd (sl (slot d)))]).
  Proof.
    intros E. unfold wmrun. cbn [fold_left].
    assert (E2 : forall lg, wkstep mask (Mrb e d sl false ps KIdle (MAccept :: kpr) lg) = Mrb e d sl false ps (KRead false) kpr (lg ++ [])).
    { intros lg'. unfold wkstep. cbn [kp kprog slots mdeq]. rewrite E, N.eqb_refl. reflexivity. }
    rewrite E2. reflexivity.
  Qed.

  Definition at_pos (s : mrb T) (e d : nat) pr kpr : Prop := exists sl lg,
    s = Mrb (word (N.of_nat e)) (word (N.of_nat d)) sl false [P0; (MIdle, pr)] KIdle kpr lg /\
    (forall t, N.of_nat e <= t -> t < N.of_nat d + size -> fst (sl (slot t)) = word t) /\
    (forall t, N.of_nat d <= t -> t < N.of_nat e -> sl (slot t) = (word (t + 1), w)) /\
    map snd (claims lg) = repeat w e /\ gots lg = repeat w d.

  Lemma slot_ne a b d : d <= a -> a < d + size -> d <= b -> b < d + size -> a <> b -> slot a <> slot b.
  Proof. intros H1 H2 H3 H4 Hn E. apply Hn. rewrite !slot_mod in E. by apply (mod_inj k Hk Hk2 d). Qed.
  Lemma repeat_snoc (x : T) n : repeat x n ++ [x] = repeat x (S n).
  Proof. induction n as [|n IH]; cbn; [done|]. by rewrite IH. Qed.

  Lemma put s e d pr kpr : at_pos s e d (MPut w :: pr) kpr -> (d <= e)%nat -> N.of_nat e < N.of_nat d + size ->
    at_pos (wmrun mask s [Some 1%nat; Some 1%nat; Some 1%nat; Some 1%nat]) (S e) d pr kpr.
  Proof.
    intros (sl & lg & -> & F & U & C & G) Hle Hlt. rewrite put4 by (rewrite word_slot by done; apply F; lia). cbv zeta. rewrite word_add, word_slot by done.
    replace (N.of_nat e + 1) with (N.of_nat (S e)) by lia. eexists _, _. split; [reflexivity|]. split_and!.
    - intros t H1 H2. rewrite !set_ne by (apply (slot_ne _ _ (N.of_nat d)); lia). apply F; lia.
    - intros t H1 H2. destruct (N.eq_dec t (N.of_nat e)) as [-> |Hn].
      + rewrite !set_eq. cbn [snd]. do 2 f_equal. lia.
      + rewrite !set_ne by (apply (slot_ne _ _ (N.of_nat d)); lia). apply U; lia.
    - rewrite !claims_app. cbn. rewrite !app_nil_r, map_app, C. cbn. apply repeat_snoc.
    - rewrite !gots_app. cbn. by rewrite !app_nil_r.
  Qed.
  Lemma take s e d pr kpr : at_pos s e d pr (MAccept :: kpr) -> (d < e)%nat -> N.of_nat e <= N.of_nat d + size ->
    at_pos (wmrun mask s [None; None; None]) e (S d) pr kpr.
  Proof.
    intros (sl & lg & -> & F & U & C & G) Hlt Hle. pose proof (U (N.of_nat d) ltac:(lia) ltac:(lia)) as Ud.
    rewrite get3 by (rewrite word_slot by done; rewrite Ud; cbn [fst]; by rewrite word_add). rewrite word_slot by done. rewrite <- (N.add_assoc (word _)), !word_add, Ud. cbn [snd].
    assert (Hs : 1 + mask = size) by (rewrite N.ones_equiv; lia).
    eexists _, _. split; [by replace (N.of_nat d + 1) with (N.of_nat (S d)) by lia|]. split_and!.
    - intros t H1 H2. destruct (N.eq_dec t (N.of_nat d + size)) as [-> |Hn].
      + assert (E : slot (N.of_nat d + size) = slot (N.of_nat d)). { rewrite !slot_mod. replace (N.of_nat d + size) with (N.of_nat d + 1 * size) by lia. apply N.mod_add. lia. }
        rewrite E, set_eq. cbn [fst]. f_equal. lia.
      + rewrite set_ne by (apply (slot_ne _ _ (N.of_nat d)); lia). apply F; lia.
    - intros t H1 H2. rewrite set_ne by (apply (slot_ne _ _ (N.of_nat d)); lia). apply U; lia.
    - rewrite !claims_app. cbn. by rewrite !app_nil_r.
    - rewrite !gots_app. cbn. rewrite G, !app_nil_r. apply repeat_snoc.
  Qed.
  Lemma wm_app (s : mrb T) a b : wmrun mask s (a ++ b) = wmrun mask (wmrun mask s a) b.
  Proof. apply fold_left_app. Qed.

  Definition a_put : list (option nat) := [Some 1%nat; Some 1%nat; Some 1%nat; Some 1%nat].
  Definition a_take : list (option nat) := [None; None; None].
  Lemma go_round n : forall s e pr kpr, at_pos s e e (repeat (MPut w) n ++ pr) (repeat MAccept n ++ kpr) ->
    at_pos (wmrun mask s (concat (repeat (a_put ++ a_take) n))) (e + n) (e + n) pr kpr.
  Proof.
    induction n as [|n IH]; intros s e pr kpr H. { cbn. by rewrite Nat.add_0_r. }
    cbn [repeat concat]. rewrite !wm_app. replace (e + S n)%nat with (S e + n)%nat by lia. apply IH. cbn [repeat app] in H. pose proof (size_ge2 k Hk).
    apply take; [apply put; [exact H|lia|lia]|lia|lia].
  Qed.
  Lemma fill n : forall s e d pr kpr, at_pos s e d (repeat (MPut w) n ++ pr) kpr -> (d <= e)%nat -> N.of_nat e + N.of_nat n <= N.of_nat d + size ->
    at_pos (wmrun mask s (concat (repeat a_put n))) (e + n) d pr kpr.
  Proof.
    induction n as [|n IH]; intros s e d pr kpr H Hle Hs. { cbn. by rewrite Nat.add_0_r. }
    cbn [repeat concat]. rewrite wm_app. replace (e + S n)%nat with (S e + n)%nat by lia. apply IH; [|lia|lia]. cbn [repeat app] in H. apply put; [exact H|lia|lia].
  Qed.
  (** The offer goes on: the counter is 0 again, and it writes into the slot of the oldest item, which the consumer then takes. *)
  Lemma overwrite d kpr pr sl lg : sl (slot 0) = (word (d + 1), w) -> slot d = slot 0 -> exists s,
    wmrun mask (Mrb 0 d sl false [P0; (MIdle, pr)] KIdle (MAccept :: kpr) lg) [Some 0%nat; Some 0%nat; None; None; None] = s /\
    claims (mlog s) = claims lg ++ [(0%nat, v)] /\ gots (mlog s) = gots lg ++ [v].
  Proof.
    intros E Ed. eexists. split; [reflexivity|]. change [Some 0%nat; Some 0%nat; None; None; None] with ([Some 0%nat; Some 0%nat] ++ [@None nat; None; None]). rewrite wm_app.
    assert (E2 : wmrun mask (Mrb 0 d sl false [P0; (MIdle, pr)] KIdle (MAccept :: kpr) lg) [Some 0%nat; Some 0%nat] =
      Mrb (word (0 + 1)) d (set_slot sl (slot 0) (fst (sl (slot 0)), v)) false [(MStore 0 v, []); (MIdle, pr)] KIdle (MAccept :: kpr) ((lg ++ [EClaim 0%nat v]) ++ [])) by reflexivity.
    rewrite E2. rewrite get3 by (rewrite Ed, set_eq, E; done). cbn [mlog]. rewrite Ed, set_eq. cbn [snd].
    rewrite !claims_app, !gots_app. cbn. by rewrite !app_nil_r.
  Qed.
End stale.

(** With one offer among the puts the queue is not first-in first-out for every number of items: the consumer gets the offered item in the place
    of an older one, which is lost.  Programs: one offer; 2^64 puts. *)
Theorem C96_offer_refuted {T} (junk v w : T) k : 1 <= k -> k < 64 -> v <> w -> exists m kpr sched,
  N.of_nat m = 2 ^ 64 /\ let l := mlog (wmrun (N.ones k) (wmpsc_init junk [[MOffer v]; repeat (MPut w) m] kpr) sched) in
  map snd (claims l) = repeat w m ++ [v] /\ (exists j, (j < m)%nat /\ gots l = repeat w j ++ [v]) /\ ~ exists pending, map snd (claims l) = gots l ++ pending.
Proof.
  intros Hk Hk2 Hvw. assert (Hlt : 2 ^ k < 2 ^ 64) by (apply N.pow_lt_mono_r; lia). pose proof (size_ge2 k Hk) as Hs2.
  assert (Hj : exists j, N.of_nat j = 2 ^ 64 - 2 ^ k) by (exists (N.to_nat (2 ^ 64 - 2 ^ k)); apply N2Nat.id). destruct Hj as [j Hj].
  assert (Hz : exists z, N.of_nat z = 2 ^ k) by (exists (N.to_nat (2 ^ k)); apply N2Nat.id). destruct Hz as [z Hz].
  exists (j + z)%nat, (repeat MAccept j ++ [MAccept]), ([Some 0%nat; Some 0%nat] ++ concat (repeat (a_put ++ a_take) j) ++ concat (repeat a_put z) ++ [Some 0%nat; Some 0%nat; None; None; None]).
  split; [lia|]. intros l.
  assert (L : map snd (claims l) = repeat w (j + z) ++ [v] /\ gots l = repeat w j ++ [v]).
  { subst l. rewrite !wm_app. set (s0 := wmrun _ (wmpsc_init _ _ _) _).
    assert (A0 : at_pos k v w s0 0 0 (repeat (MPut w) j ++ repeat (MPut w) z ++ []) (repeat MAccept j ++ [MAccept])).
    { exists (fun i => (word i, junk)), [EStart 0%nat]. split_and!; [| |intros; lia|done|done].
      - subst s0. rewrite app_nil_r, repeat_app. change (word (N.of_nat 0)) with 0. unfold wmrun. cbn [fold_left].
        change (wpstep (N.ones k) (wmpsc_init junk [[MOffer v]; repeat (MPut w) j ++ repeat (MPut w) z] (repeat MAccept j ++ [MAccept])) 0) with
          (Mrb 0 0 (fun i => (word i, junk)) false [(MOfferCheck 0 v, []); (MIdle, repeat (MPut w) j ++ repeat (MPut w) z)] KIdle (repeat MAccept j ++ [MAccept]) [EStart 0%nat]).
        unfold wpstep. cbn [prods lookup list_lookup slots]. change (slot_of (N.ones k) 0) with 0. reflexivity.
      - intros t _ Ht. cbn [fst]. rewrite slot_mod, N.mod_small by (change (N.of_nat 0) with 0 in Ht; lia). done. }
    clearbody s0. apply (go_round k Hk Hk2 v w) in A0. set (s1 := wmrun _ s0 _) in *. clearbody s1.
    apply (fill k Hk Hk2 v w) in A0; [|lia|lia]. set (s2 := wmrun _ s1 _) in *. clearbody s2. cbn [Nat.add] in A0.
    destruct A0 as (sl & lg & -> & F & U & C & G). replace (word (N.of_nat (j + z))) with 0 by (replace (N.of_nat (j + z)) with (2 ^ 64) by lia; reflexivity).
    assert (Es : slot_of (N.ones k) (N.of_nat j) = slot_of (N.ones k) 0).
    { transitivity (slot_of (N.ones k) (N.of_nat j + 1 * 2 ^ k)); [rewrite !slot_mod; symmetry; apply N.mod_add; lia|].
      rewrite <- word_slot by done. replace (N.of_nat j + 1 * 2 ^ k) with (2 ^ 64) by lia. done. }
    destruct (overwrite k v w (word (N.of_nat j)) [] [] sl lg) as (s & -> & C' & G').
    - rewrite <- Es, word_add. apply U; lia.
    - by rewrite word_slot.
    - split; [by rewrite C', map_app, C|by rewrite G', G]. }
  clearbody l. destruct L as [C G]. split; [done|]. split; [exists j; split; [lia|done]|].
  intros [pend E]. rewrite C, G, <- app_assoc, repeat_app, <- app_assoc in E. apply app_inv_head in E. destruct z as [|z]; [lia|]. cbn in E. by injection E.
Qed.

(** A full queue of 4 whose counter has come round to 0: the offer overwrites item 10. *)
Example C96_offer_case :
  mlog (wmrun 3 (Mrb 0 (2 ^ 64 - 4) (fun i => (word (2 ^ 64 - 4 + i + 1), (10 + N.to_nat i)%nat)) false [(MOfferCas 0 7%nat, [])] KIdle [MAccept; MAccept] [])
    [Some 0%nat; Some 0%nat; None; None; None; None; None; None]) = [EClaim 0%nat 7%nat; EGot 7%nat; EGot 11%nat].
Proof. vm_compute. reflexivity. Qed.

Print Assumptions C96_offer_refuted.
