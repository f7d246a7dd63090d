(** C12 and the multi-producer part of C11: RingBuffMPSC. *)
From Verif Require Import Base Helpers_RoundUp Helpers_RoundUp_Props MPSC_Spec MPSC_Model MPSC_Proofs.
Open Scope N_scope.

(** A queue made with Init(n), producer i running the i-th program of [progs] and the consumer
    [kpr], under the schedule [sched]. *)
Definition mpsc_run {T} (n : N) (junk : T) progs kpr sched : mrb T :=
  mrun (round_up_pow n - 1) (mpsc_init junk progs kpr) sched.

Lemma mpsc_mask n : 2 <= n -> n <= 2 ^ 63 ->
  exists k, 1 <= k /\ k < 64 /\ round_up_pow n - 1 = N.ones k /\ round_up_pow n = 2 ^ k.
Proof.
  intros H1 H2. destruct (C03_round_up_pow_least_power n ltac:(lia) H2) as (k & E & Hk & Hle & _).
  exists k. split; [|split; [lia|]].
  - destruct (N.eq_dec k 0) as [->|]; [|lia]. change (2 ^ 0) with 1 in Hle. lia.
  - rewrite E, N.ones_equiv. split; [lia|done].
Qed.

(** C12: every event of every interleaving is one a ticket queue of capacity RoundUpPow(n)
    may produce after the events before it; each producer's and the consumer's events are
    answers to their calls, in program order. *)
Theorem C12_ticket_queue {T} (junk : T) : forall n progs kpr sched,
  2 <= n -> n <= 2 ^ 63 ->
  forall lg, lg = mlog (mpsc_run n junk progs kpr sched) ->
  (forall l e r, lg = l ++ e :: r -> mjust (round_up_pow n) l e) /\
  (forall p prog, progs !! p = Some prog ->
     exists answered rest, prog = answered ++ rest /\ Forall2 (manswer p) answered (List.filter (ends_call p) lg)) /\
  (exists answered rest, kpr = answered ++ rest /\ Forall2 mcanswer answered (List.filter ends_ccall lg)).
Proof.
  intros n progs kpr sched H1 H2 lg ->. unfold mpsc_run.
  destruct (mpsc_mask n H1 H2) as (k & Hk1 & Hk & Em & Ep). rewrite Em, Ep. split; [|split].
  - apply (linv_run k Hk1 Hk); [apply (minv_init k Hk1 Hk)|apply linv_init].
  - intros p prog Hp. destruct (conf_init junk progs kpr p prog Hp) as [A B].
    destruct (conf_run (N.ones k) _ sched _ _ _ A B) as [(pc & pr & don & cur & _ & -> & _ & F & _) _].
    eauto.
  - assert (B : kconf (mpsc_init junk progs kpr) kpr).
    { exists [], []. simpl. split_and!; done. }
    assert (Hall : forall sched (s : mrb T), kconf s kpr -> kconf (mrun (N.ones k) s sched) kpr).
    { intros sc. induction sc as [|[q|] sc IH]; intros s0 H0; [done| |]; simpl; apply IH.
      - by apply kconf_pstep.
      - by apply kconf_kstep. }
    destruct (Hall sched _ B) as (don & cur & -> & _ & F). eauto.
Qed.
Print Assumptions C12_ticket_queue.

(** The consequences in plain words. What the consumer has got is the items of the first
    tickets, in ticket order; each producer's tickets are the items it has finished putting,
    in its own order, and at most one more; every delivered ticket was finished exactly once
    (so no slot is read before it is written), and no producer writes before the slot's
    previous item was handed over. *)
Theorem C12_fifo_no_loss {T} (junk : T) : forall n progs kpr sched,
  2 <= n -> n <= 2 ^ 63 ->
  forall l, l = mlog (mpsc_run n junk progs kpr sched) ->
  (exists pending, map snd (claims l) = gots l ++ pending) /\
  (forall p, (p < length progs)%nat ->
     exists held, claims_of p l = dones_of p l ++ held /\ (length held <= 1)%nat) /\
  NoDup (done_tickets l) /\
  (forall t, t < N.of_nat (length (gots l)) -> In t (done_tickets l)) /\
  (forall t, In t (done_tickets l) -> t < N.of_nat (length (gots l)) + round_up_pow n).
Proof.
  intros n progs kpr sched H1 H2 l ->. unfold mpsc_run.
  destruct (mpsc_mask n H1 H2) as (k & Hk1 & Hk & Em & Ep). rewrite Em, Ep.
  pose proof (minv_run k Hk1 Hk _ sched (minv_init k Hk1 Hk junk progs kpr)) as Hi.
  split; [apply (m_gots _ _ Hi)|]. split.
  - intros p Hp. apply lookup_lt_is_Some in Hp as [prog Hp].
    destruct (conf_init junk progs kpr p prog Hp) as [A B].
    destruct (conf_run (N.ones k) _ sched _ _ _ A B) as [(pc & pr & don & cur & _ & _ & _ & _ & E) _].
    exists (holding pc). split; [done|]. destruct pc; simpl; lia.
  - split; [apply (m_nodup _ _ Hi)|]. split; [apply (m_old _ _ Hi)|].
    intros t Ht. by destruct (m_dn _ _ Hi t Ht).
Qed.
Print Assumptions C12_fifo_no_loss.

(** Nothing is forgotten: whenever the consumer is told there is nothing and every ticket taken
    so far is finished, it has got everything. *)
Lemma just_prefix {T} cap (lg : list (mev T)) : (forall l e r, lg = l ++ e :: r -> mjust cap l e) ->
  exists rest, map snd (claims lg) = gots lg ++ rest.
Proof.
  induction lg as [|e lg IH] using rev_ind; intros H; [by exists []|].
  destruct IH as [rest E].
  { intros l e0 r ->. apply (H l e0 (r ++ [e])). by rewrite <- app_assoc. }
  pose proof (H lg e [] eq_refl) as He. rewrite claims_app, gots_app, map_app, E.
  destruct e; simpl; rewrite ?app_nil_r; try (by exists rest).
  - exists (rest ++ [v]). by rewrite <- app_assoc.
  - destruct He as [p Hin]. apply in_split in Hin as (a & b & El). rewrite El in H.
    pose proof (H a _ (b ++ [EGot v]) ltac:(by rewrite <- app_assoc)) as (Hn & _).
    rewrite Nat2N.id in Hn. rewrite nth_error_lookup in Hn.
    assert (Hl : claims lg !! length (gots lg) = Some (p, v)).
    { rewrite El, claims_app. rewrite El in Hn. by apply lookup_app_l_Some. }
    assert (Hm : map snd (claims lg) !! length (gots lg) = Some v).
    { change (map snd (claims lg)) with (snd <$> claims lg). by rewrite list_lookup_fmap, Hl. }
    rewrite E, lookup_app_r, Nat.sub_diag in Hm by lia. destruct rest as [|x rest]; [done|]. injection Hm as ->.
    exists rest. by rewrite <- app_assoc.
Qed.
Theorem C12_empty_means_drained {T} (junk : T) : forall n progs kpr sched,
  2 <= n -> n <= 2 ^ 63 ->
  forall l e r, mlog (mpsc_run n junk progs kpr sched) = l ++ e :: r -> e = EEmpty \/ e = EChecked ->
  (forall t, t < N.of_nat (length (claims l)) -> In t (done_tickets l)) ->
  gots l = map snd (claims l).
Proof.
  intros n progs kpr sched H1 H2 l e r E He Hall.
  destruct (C12_ticket_queue junk n progs kpr sched H1 H2 _ eq_refl) as [Hj _].
  assert (Hn : ~ In (N.of_nat (length (gots l))) (done_tickets l)).
  { specialize (Hj _ _ _ E). by destruct He as [-> | ->]. }
  destruct (just_prefix (round_up_pow n) l) as [rest Er].
  { intros a x b ->. apply (Hj a x (b ++ e :: r)). rewrite E, <- app_assoc. done. }
  destruct rest as [|x rest]; [by rewrite Er, app_nil_r|]. exfalso. apply Hn, Hall.
  apply (f_equal length) in Er. rewrite map_length, app_length in Er. simpl in Er. lia.
Qed.
Print Assumptions C12_empty_means_drained.

(** No goroutine can hold up another inside a call, except by the queue being full or the next
    ticket unfinished: a producer with ticket [t] finishes within three of its own steps once
    fewer than the capacity separate it from the consumer, and a consumer that looks when the
    next ticket is finished has it after three of its own steps. *)
Theorem C12_progress {T} (junk : T) : forall n progs kpr sched s,
  2 <= n -> n <= 2 ^ 63 -> s = mpsc_run n junk progs kpr sched ->
  (forall p pc pr t v, prods s !! p = Some (pc, pr) -> holds pc t v ->
     t < N.of_nat (length (gots (mlog s))) + round_up_pow n ->
     In (EDone p t v) (mlog (mpsc_run n junk progs kpr (sched ++ [Some p; Some p; Some p])))) /\
  (In (N.of_nat (length (gots (mlog s)))) (done_tickets (mlog s)) ->
   (kp s = KSlow \/ (kp s = KIdle /\ exists o rest, kprog s = o :: rest /\ o <> MAvail) \/ exists g, kp s = KRead g) ->
   length (gots (mlog (mpsc_run n junk progs kpr (sched ++ [None; None; None])))) = S (length (gots (mlog s)))).
Proof.
  intros n progs kpr sched s H1 H2 Es.
  assert (Ea : forall r, mpsc_run n junk progs kpr (sched ++ r) = mrun (round_up_pow n - 1) s r).
  { intros r. rewrite Es. unfold mpsc_run. generalize (mpsc_init junk progs kpr). clear.
    induction sched as [|x sched IH]; intros s; [done|]. simpl. apply IH. }
  split.
  - intros p pc pr t v Hp Hv Ht. rewrite Ea. clear Ea. unfold mpsc_run in Es.
    destruct (mpsc_mask n H1 H2) as (k & Hk1 & Hk & Em & Ep). rewrite Em in *. rewrite Ep in Ht.
    pose proof (minv_run k Hk1 Hk _ sched (minv_init k Hk1 Hk junk progs kpr)) as Hi. rewrite <- Es in Hi.
    by eapply producer_finishes.
  - intros Hd Hc. rewrite Ea. clear Ea. unfold mpsc_run in Es.
    destruct (mpsc_mask n H1 H2) as (k & Hk1 & Hk & Em & Ep). rewrite Em in *.
    pose proof (minv_run k Hk1 Hk _ sched (minv_init k Hk1 Hk junk progs kpr)) as Hi. rewrite <- Es in Hi.
    by apply (consumer_gets k Hk1 Hk).
Qed.
Print Assumptions C12_progress.

(** Size 1 (RoundUpPow(1) = 1) does not work: the slot's "free for ticket 1" and "holds
    ticket 0" marks are the same number. Producer 1 overwrites item 7 before it is read; the
    consumer then sees ticket 1's mark and waits for ever, with both items finished. *)
Theorem C12_size_one_refuted : exists progs kpr sched,
  let s := mpsc_run 1 0 progs kpr sched in
  map snd (claims (mlog s)) = [7; 8] /\ done_tickets (mlog s) = [0; 1] /\
  gots (mlog s) = [] /\ mlog (mrun 0 s (repeat None 6)) = mlog s ++ [EChecked; EChecked; EChecked].
Proof.
  exists [[MPut 7]; [MPut 8]], [MGet],
    ([Some 0; Some 0; Some 0; Some 0; Some 1; Some 1; Some 1; Some 1; None])%nat.
  vm_compute. done.
Qed.
Print Assumptions C12_size_one_refuted.

(** C11 for GetSlow of the multi-producer queue: "closed" is only reported after a Close and
    after a look that saw the next ticket unfinished, with nothing delivered since. So if
    every ticket taken before the report was finished before that look, everything has been
    delivered. *)
Theorem C11_mpsc_closed_exactly {T} (junk : T) : forall n progs kpr sched,
  2 <= n -> n <= 2 ^ 63 ->
  forall l r, mlog (mpsc_run n junk progs kpr sched) = l ++ EClosed :: r ->
  (exists p, In (EClose p) l) /\
  exists l1 l2, l = l1 ++ EChecked :: l2 /\ gots l2 = [] /\
    ~ In (N.of_nat (length (gots l1))) (done_tickets l1) /\
    ((forall t, t < N.of_nat (length (claims l)) -> In t (done_tickets l1)) -> gots l = map snd (claims l)).
Proof.
  intros n progs kpr sched H1 H2 l r E.
  destruct (C12_ticket_queue junk n progs kpr sched H1 H2 _ eq_refl) as [Hj _].
  destruct (Hj _ _ _ E) as [Hc (l1 & l2 & -> & Hg)]. split; [done|]. exists l1, l2.
  split; [done|]. split; [done|].
  assert (E' : mlog (mpsc_run n junk progs kpr sched) = l1 ++ EChecked :: l2 ++ EClosed :: r) by (by rewrite E, <- app_assoc).
  split; [by apply (Hj _ _ _ E')|]. intros Hall.
  assert (Hgl : gots (l1 ++ EChecked :: l2) = gots l1).
  { rewrite gots_app. change (EChecked :: l2) with ([EChecked] ++ l2). rewrite gots_app, Hg. simpl. by rewrite app_nil_r. }
  destruct (just_prefix (round_up_pow n) (l1 ++ EChecked :: l2)) as [rest Er].
  { intros a x b Ea. apply (Hj a x (b ++ EClosed :: r)). rewrite E, Ea, <- app_assoc. done. }
  rewrite Er. destruct rest as [|x rest]; [by rewrite app_nil_r|]. exfalso.
  apply (Hj _ _ _ E'). apply Hall. apply (f_equal length) in Er. rewrite map_length, app_length, Hgl in Er. simpl in Er. lia.
Qed.
Print Assumptions C11_mpsc_closed_exactly.

(** Without that, an item put between the look and the status load is lost. *)
Theorem C11_mpsc_refuted : exists progs kpr sched,
  let l := mlog (mpsc_run 8 0 progs kpr sched) in
  (exists l', l = l' ++ [EClosed]) /\ claims_of 0 l = [7] /\ dones_of 0 l = [7] /\ gots l = [].
Proof.
  exists [[MPut 7; MClose]], [MGet],
    ([None; None; Some 0; Some 0; Some 0; Some 0; Some 0; None])%nat.
  vm_compute. split; [|done]. by exists [EChecked; EClaim 0%nat 7; EDone 0%nat 0 7; EClose 0%nat].
Qed.
Print Assumptions C11_mpsc_refuted.

(** Two producers and a consumer on two slots: ticket 1 is finished before ticket 0, an offer
    finds the queue full. *)
Example C12_case :
  mlog (mpsc_run 2 0 [[MPut 1; MOffer 3; MPut 5]; [MPut 2; MOffer 4; MClose]] [MAccept; MGet; MGet; MAccept; MAvail; MGet]
    ([Some 0; Some 1; Some 1; Some 1; Some 1; None; Some 1; Some 1; Some 0; Some 0; Some 0;
      None; None; None; Some 0; Some 0; None; Some 0; None; None; Some 0; Some 0; Some 0; Some 0; Some 0;
      None; None; None; Some 1; Some 0; Some 0; Some 0; Some 0; None; None; None; None])%nat)
  = [EClaim 0%nat 1; EClaim 1%nat 2; EDone 1%nat 1 2; EEmpty; EStart 1%nat; ERefuse 1%nat 4; EDone 0%nat 0 1; EGot 1;
     EStart 0%nat; EClaim 0%nat 3; EGot 2; EDone 0%nat 2 3; EClaim 0%nat 5; EGot 3; EClose 1%nat; EDone 0%nat 3 5;
     EAvail 1; EGot 5].
Proof. vm_compute. done. Qed.

(** A producer that loses the compare-and-swap to another one is refused although there is
    room. *)
Example C12_offer_race :
  mlog (mpsc_run 4 0 [[MOffer 1]; [MPut 2]] []
    ([Some 0; Some 0; Some 1; Some 0])%nat) = [EStart 0%nat; EClaim 1%nat 2; ERefuse 0%nat 1].
Proof. vm_compute. done. Qed.
