(** C22, C23, C46, C52: from the emitter to the graph threads. *)
From Verif Require Import Base Vertex_Model Vertex_Proofs Vertex_Props Load_Spec Load_Model Load_Proofs Remit_Spec Remit_Model Remit_Proofs.
Open Scope N_scope.

Section props.
  Context {P : Type} (zero : P) (get_ts : P -> N).

  (** The pipeline with [nthr] threads on the events [evs], under the schedule [sched]. *)
  Definition pipe_run (nthr : N) (evs : list (tev P)) (sched : list who) : pipe P := prun zero nthr (pipe_init evs) sched.
  (** Everything thread [t] has received, taken or not. *)
  Definition received (s : pipe P) (t : N) : list (sev P * N) := map pview (taken s (N.to_nat t) ++ tq s (N.to_nat t)).

  Lemma run_always nthr evs sched : always nthr evs (pipe_run nthr evs sched).
  Proof. apply always_run, always_init. Qed.

  Lemma rlog_prefix nthr evs sched s : s = pipe_run nthr evs sched -> spurious s = false ->
    map pview (rlog s) = deliver (map view (take (length (rlog s)) evs)).
  Proof.
    intros Es Hs. pose proof (run_always nthr evs sched) as Ha. rewrite <- Es in Ha. clear Es. pose proof (p_good _ _ _ Ha Hs) as Hg.
    destruct (p_rlog _ _ Hg) as (E2 & HE & Hr). rewrite Hr. f_equal. rewrite <- (p_evs _ _ _ Ha).
    unfold E in HE. apply map_eq_app in HE as (l1 & l2 & -> & El1 & _). rewrite <- El1.
    assert (length (rlog s) = length l1) as -> by (rewrite <- (map_length pev), <- El1, map_length; done).
    by rewrite <- app_assoc, take_app.
  Qed.
  Lemma share_map nthr t l : 0 < nthr -> share nthr t (map pview l) = map pview (List.filter (fun r => Nat.eqb (wth nthr (rsrc r)) (N.to_nat t)) l : list (rev P)).
  Proof.
    intros Hn. unfold share. induction l as [|r l IH]; [done|]. cbn [map List.filter]. rewrite IH. simpl. unfold wth, within.
    destruct (N.eqb_spec (rsrc r mod nthr) t) as [->|Hne]; [by rewrite Nat.eqb_refl|].
    destruct (Nat.eqb_spec (N.to_nat (rsrc r mod nthr)) (N.to_nat t)); [lia|done].
  Qed.

  (** C22.  At every moment of every schedule in which the Remitter has not been answered
      "closed" by a ToRemitQueue, every thread has received exactly the events of its own
      source vertices among the first k emitted (k = number remitted), in emission order,
      unchanged and with the position the specification gives them. *)
  Theorem C22_per_thread_order : forall nthr evs sched s,
    0 < nthr -> s = pipe_run nthr evs sched -> spurious s = false ->
    forall t, received s t = share nthr t (deliver (map view (take (length (rlog s)) evs))).
  Proof.
    intros nthr evs sched s Hn Es Hs t. rewrite <- (rlog_prefix nthr evs sched s Es Hs), share_map by done.
    unfold received. f_equal. subst s. apply (p_taken _ _ _ (run_always nthr evs sched)).
  Qed.

  (** C22.  When the Remitter stops by itself, everything has been delivered. *)
  Theorem C22_complete : forall nthr evs sched s,
    0 < nthr -> s = pipe_run nthr evs sched -> spurious s = false -> rst s = RDone ->
    forall t, received s t = share nthr t (deliver (map view evs)).
  Proof.
    intros nthr evs sched s Hn Es Hs Hd t. rewrite (C22_per_thread_order nthr evs sched s Hn Es Hs). do 3 f_equal.
    apply take_ge. pose proof (run_always nthr evs sched) as Ha. rewrite <- Es in Ha. pose proof (p_good _ _ _ Ha Hs) as Hg.
    destruct (p_done _ _ Hg Hd) as [Hc Ho]. destruct (p_close _ _ Hg Hc) as [Ht Hb].
    pose proof (p_evs _ _ _ Ha) as He. rewrite Ht, app_nil_r in He.
    pose proof (p_order _ _ Hg) as H. unfold cur, pend in H. rewrite Hd, Ho, Hb, app_nil_r in H.
    apply (f_equal length) in H. rewrite !map_length in H. rewrite <- He, H. done.
  Qed.

  (** C22.  In particular for one vertex: its events arrive in emission order. *)
  Theorem C22_per_source : forall nthr evs sched s v,
    0 < nthr -> s = pipe_run nthr evs sched -> spurious s = false -> rst s = RDone ->
    List.filter (fun x => src (fst x) =? v) (received s (v mod nthr)) =
    List.filter (fun x => src (fst x) =? v) (deliver (map view evs)).
  Proof.
    intros nthr evs sched s v Hn Es Hs Hd. rewrite (C22_complete nthr evs sched s Hn Es Hs Hd). unfold share.
    induction (deliver (map view evs)) as [|x l IH]; [done|]. cbn [List.filter].
    destruct (N.eqb_spec (src (fst x)) v) as [Ev|Hne].
    - rewrite Ev, N.eqb_refl. cbn [List.filter]. rewrite Ev, N.eqb_refl. by rewrite IH.
    - destruct (_ =? _); cbn [List.filter]; [|done]. destruct (N.eqb_spec (src (fst x)) v); [done|]. apply IH.
  Qed.

  (** C23.  The positions of a destination's added edges are 0, 1, 2, ... in emission order,
      whatever the schedule, as long as there are at most 2^32 of them; everything else
      carries the reserved value. *)
  Theorem C23_positions_dense : forall nthr evs sched s d,
    0 < nthr -> s = pipe_run nthr evs sched -> spurious s = false ->
    N.of_nat (adds_to d (map view evs)) <= 2 ^ 32 ->
    exists k, map snd (List.filter (fun x => ((kind (fst x) =? ADD) && (dst (fst x) =? d))%bool) (map pview (rlog s))) =
              map N.of_nat (seq 0 k).
  Proof.
    intros nthr evs sched s d Hn Es Hs Hb. rewrite (rlog_prefix nthr evs sched s Es Hs).
    assert (Hb' : N.of_nat (adds_to d (map view (take (length (rlog s)) evs))) <= 2 ^ 32).
    { rewrite <- (take_drop (length (rlog s)) evs), map_app, adds_app in Hb. lia. }
    set (l := map view (take (length (rlog s)) evs)) in *. exists (adds_to d l). clearbody l. clear -Hb'.
    induction l as [|e l IH] using rev_ind; [done|]. rewrite adds_app in *. rewrite deliver_snoc, List.filter_app, map_app.
    rewrite IH by lia. unfold adds_to in Hb' |- *. cbn [List.filter fst]. fold (adds_to d l) in Hb' |- *.
    destruct ((kind e =? ADD) && (dst e =? d))%bool eqn:Ea; cbn [length map]; [|by rewrite Nat.add_0_r, app_nil_r].
    cbn [List.filter] in Hb'. rewrite Ea in Hb'. cbn [length] in Hb'.
    rewrite seq_app, map_app. f_equal. cbn [seq map]. apply andb_prop in Ea as [E1 E2]. apply N.eqb_eq in E2.
    unfold pos_after. rewrite E1, E2. cbn [snd]. f_equal. apply N.mod_small. lia.
  Qed.
  Theorem C23_position_reserved : forall nthr evs sched s i r,
    0 < nthr -> s = pipe_run nthr evs sched -> spurious s = false -> rlog s !! i = Some r ->
    rpos r = if event_type (rword r) =? ADD
             then N.of_nat (adds_to (rdst r) (map view (take i evs))) mod 2 ^ 32
             else 2 ^ 32 - 1.
  Proof.
    intros nthr evs sched s i r Hn Es Hs Hi. pose proof (rlog_prefix nthr evs sched s Es Hs) as H.
    assert (Hlt : (i < length (rlog s))%nat) by (apply lookup_lt_is_Some; eauto).
    apply (f_equal (fun l => l !! i)) in H. rewrite list_lookup_fmap, Hi in H. cbn [fmap option_fmap option_map] in H.
    assert (Hd : forall (l : list (sev P)), deliver l !! i = (fun e => (e, pos_after (take i l) e)) <$> (l !! i)).
    { intros l. unfold deliver. assert (G : forall l b j, deliver_from b l !! j = (fun e => (e, pos_after (b ++ take j l) e)) <$> ((l : list (sev P)) !! j)).
      { clear. induction l as [|e l IH]; intros b j; [by destruct j|]. destruct j as [|j]; [simpl; by rewrite app_nil_r|].
        simpl. rewrite IH, <- app_assoc. done. }
      rewrite G. done. }
    rewrite Hd in H. rewrite list_lookup_fmap, lookup_take in H by done. destruct (evs !! i) as [e|]; [|done].
    cbn [fmap option_fmap option_map] in H.
    assert (H0 : pview r = (view e, pos_after (take i (map view (take (length (rlog s)) evs))) (view e))) by congruence.
    assert (Hv : pev r = view e) by exact (f_equal fst H0).
    assert (Hp : rpos r = pos_after (take i (map view (take (length (rlog s)) evs))) (view e)) by exact (f_equal snd H0).
    rewrite Hp, <- Hv, <- fmap_take, take_take. replace (i `min` length (rlog s))%nat with i by lia. done.
  Qed.

  (** C52.  The destination's internal id attached to an event denotes the event's destination:
      it is the packed (thread, offset) of the vertex whose RawId is the event's DstRaw, in the
      final vertex table of that thread, and no other vertex has it. *)
  Theorem C52_didx_denotes_destination : forall nthr evs sched s r,
    0 < nthr <= 32 -> s = pipe_run nthr evs sched -> spurious s = false -> In r (rlog s) ->
    (forall t, N.of_nat (length (verts s t)) <= 2 ^ 27) ->
    let '(i, t) := internal_expand (rdidx r) in
    t = rdst r mod nthr /\ verts s (N.to_nat t) !! N.to_nat i = Some (rdst r) /\
    forall j, verts s (N.to_nat t) !! j = Some (rdst r) -> j = N.to_nat i.
  Proof.
    intros nthr evs sched s r Hn Es Hs Hr Hb. pose proof (run_always nthr evs sched) as Ha. rewrite <- Es in Ha.
    pose proof (p_good _ _ _ Ha Hs) as Hg.
    destruct (p_didx _ _ Hg (wth nthr (rdst r)) r) as (i & Hi & ->).
    { unfold passed, rfor. apply in_app_iff. left. apply filter_In. split; [done|]. apply Nat.eqb_refl. }
    unfold wth in *. rewrite N2Nat.id. unfold within in *.
    assert (rdst r mod nthr < nthr) by (apply N.mod_lt; lia).
    assert (Hlt : (i < length (verts s (N.to_nat (rdst r mod nthr))))%nat) by (apply lookup_lt_is_Some; eauto).
    specialize (Hb (N.to_nat (rdst r mod nthr))).
    destruct (C18_pack_expand (rdst r mod nthr) (N.of_nat i)) as (_ & _ & ->); [lia|lia|].
    rewrite Nat2N.id. split; [done|]. split; [done|]. intros j Hj.
    eapply NoDup_lookup; [apply (p_nodup _ _ _ Ha)| |]; eauto.
  Qed.

  (** C46.  Queries by event count: exactly after every multiple of the interval. *)
  Theorem C46_count_points : forall interval (l : list (rev P)),
    1 <= interval -> N.of_nat (length l) + interval < 2 ^ 64 ->
    count_points interval (N.of_nat (length l)) (queries get_ts true true interval l).
  Proof.
    intros k l Hk Hl. unfold queries.
    assert (G : forall l n j, n < (j + 1) * k -> j * k <= n -> n + N.of_nat (length l) + k < 2 ^ 64 ->
      forall qs, query_count k ((j + 1) * k) n (l : list (rev P)) = qs ->
      (forall x, In x qs <-> n < x <= n + N.of_nat (length l) /\ exists i, x = i * k) /\
      (forall a x b y c, qs = a ++ x :: b ++ y :: c -> x < y)).
    { clear l Hl. induction l as [|r l IH]; intros n j H1 H2 H3 qs Hq.
      - cbn in Hq. subst qs. split; [|by intros [] x b y c]. intros x. split; [done|]. intros [H _]. simpl in H. lia.
      - cbn [query_count length] in Hq. rewrite (N.mod_small (n + 1)) in Hq by (unfold w64; lia).
        destruct (N.leb_spec ((j + 1) * k) (n + 1)) as [Hge|Hlt].
        + assert (n + 1 = (j + 1) * k) as En by lia.
          assert (Hnx : ((j + 1) * k + k) mod w64 = ((j + 1) + 1) * k).
          { rewrite N.mod_small; [lia|]. unfold w64. simpl length in H3. lia. }
          rewrite Hnx in Hq. destruct qs as [|q qs]; [done|]. injection Hq as <- Hq.
          destruct (IH (n + 1) (j + 1)) with (qs := qs) as [G1 G2]; [lia|lia|simpl length in H3; lia|done|].
          split.
          * intros x. cbn [In]. rewrite G1. simpl length. split.
            -- intros [<-|[A B]]; split; [lia|by exists (j + 1)|lia|done].
            -- intros [A B]. destruct (N.eq_dec x (n + 1)); [by left|right]. split; [lia|done].
          * intros [|a0 a] x b y c E; simpl in E.
            -- injection E as <- ->. assert (In y (b ++ y :: c)) as Hy by (apply in_app_iff; right; by left).
               apply G1 in Hy. lia.
            -- injection E as _ E. eapply G2; eauto.
        + destruct (IH (n + 1) j) with (qs := qs) as [G1 G2]; [lia|lia|simpl length in H3; lia|done|].
          split; [|done]. intros x. rewrite G1. simpl length. split.
          * intros [A B]. split; [lia|done].
          * intros [A [i ->]]. split; [|eauto]. assert (i * k <> n + 1); [|lia]. intros E.
            assert (j < i) by nia. assert ((j + 1) * k <= i * k) by (apply N.mul_le_mono_r; lia). lia. }
    replace (query_count k k 0 l) with (query_count k ((0 + 1) * k) 0 l) by (f_equal; lia).
    destruct (G l 0 0) with (qs := query_count k ((0 + 1) * k) 0 l) as [G1 G2]; [lia|lia|lia|done|].
    split; [|exact G2]. intros x. rewrite G1. intuition lia.
  Qed.

  (** C46.  Queries by time. *)
  Theorem C46_time_points : forall interval (l : list (rev P)),
    Forall (fun r => get_ts (rprop r) + interval < 2 ^ 64) l ->
    time_points interval interval (map (fun r => get_ts (rprop r)) l) (queries get_ts true false interval l).
  Proof.
    intros k l Hl. unfold queries.
    assert (G : forall l quiet target, Forall (fun t => t < target) quiet -> Forall (fun r => get_ts (rprop r) + k < 2 ^ 64) (l : list (rev P)) ->
      time_points k target (quiet ++ map (fun r => get_ts (rprop r)) l) (query_time get_ts k target l)).
    { clear l Hl. induction l as [|r l IH]; intros quiet target Hq Hl; simpl.
      - rewrite app_nil_r. by constructor.
      - apply Forall_cons_iff in Hl as [H1 H2]. destruct (N.leb_spec target (get_ts (rprop r))).
        + constructor; try done. rewrite N.mod_small by done. apply (IH []); [constructor|done].
        + change (?a :: ?b) with ([a] ++ b) at 1. rewrite app_assoc. apply IH; [|done]. apply Forall_app. split; [done|]. by constructor. }
    apply (G l []); [constructor|done].
  Qed.
End props.
Print Assumptions C22_per_thread_order.
Print Assumptions C22_complete.
Print Assumptions C22_per_source.
Print Assumptions C23_positions_dense.
Print Assumptions C23_position_reserved.
Print Assumptions C52_didx_denotes_destination.
Print Assumptions C46_count_points.
Print Assumptions C46_time_points.

(** The proviso is needed: with one thread and one event, the Remitter looks into the empty
    ToRemitQueue, the thread passes the event on, finds its input closed and closes
    ToRemitQueue, and the Remitter is answered "closed", an answer it ignores: what reaches the
    topology queue is an edge 0 -> 0 nobody sent, and the real event never arrives. *)
Theorem C22_zero_event_refuted : exists (evs : list (tev N)) sched,
  forall s, s = pipe_run 0 1 evs sched ->
  rst s = RDone /\ map (fun e => (tsrc e, tdst e)) evs = [(7, 9)] /\
  map (fun r => (event_type (rword r), rsrc r, rdst r)) (tq s 0 ++ taken s 0) = [(ADD, 0, 0)] /\ tr s 0 <> [].
Proof.
  exists [Tev 0 7 9 5], [WEmit; WEmit; WRemit; WRemit; WThread 0; WEmit; WThread 0; WRemit; WRemit; WRemit].
  intros s ->. vm_compute. split_and!; done.
Qed.
Print Assumptions C22_zero_event_refuted.

(** Two threads; events 1->2, 3->2, 2->1, 1->2 deleted, 4->2. *)
Example C22_case : forall s, s = pipe_run 0 2
    [Tev 0 1 2 5; Tev 4 3 2 6; Tev 8 2 1 7; Tev 13 1 2 5; Tev 16 4 2 9]
    (concat (repeat [WEmit; WThread 1; WRemit; WEmit; WThread 0; WRemit; WEmit; WTake 1; WTake 0] 6) ++ [WRemit; WRemit; WRemit; WRemit; WRemit; WRemit]) ->
  spurious s = false /\ rst s = RDone /\
  map (fun x => (kind (fst x), idx (fst x), src (fst x), dst (fst x), snd x)) (received s 1) =
    [(ADD, 0, 1, 2, 0); (ADD, 1, 3, 2, 1); (DEL, 3, 1, 2, 4294967295)] /\
  map (fun x => (kind (fst x), idx (fst x), src (fst x), dst (fst x), snd x)) (received s 0) =
    [(ADD, 2, 2, 1, 0); (ADD, 4, 4, 2, 2)] /\
  map (fun r => rdidx r) (rlog s) = [0; 0; 134217728; 0; 0].
Proof. intros s ->. vm_compute. auto 10. Qed.
Example C46_case :
  query_count 3 3 0 (repeat (Rev 0 0 0 0 0 0) 10) = [3; 6; 9] /\
  query_time (fun p => p) 10 10 (map (Rev 0 0 0 0 0) [1; 9; 12; 13; 21; 22; 40; 49; 50]) = [12; 22; 40; 50].
Proof. vm_compute. auto. Qed.
(** The run of C22_case: positions at destination 2 are 0, 1, 2, the deletion has the reserved one; vertex tables, and
    the internal id of each destination expanded to (offset, thread). *)
Example C23_case : forall s, s = pipe_run 0 2
    [Tev 0 1 2 5; Tev 4 3 2 6; Tev 8 2 1 7; Tev 13 1 2 5; Tev 16 4 2 9]
    (concat (repeat [WEmit; WThread 1; WRemit; WEmit; WThread 0; WRemit; WEmit; WTake 1; WTake 0] 6) ++ [WRemit; WRemit; WRemit; WRemit; WRemit; WRemit]) ->
  map (fun r => (rdst r, rpos r)) (rlog s) = [(2, 0); (2, 1); (1, 0); (2, 4294967295); (2, 2)].
Proof. intros s ->. vm_compute. auto. Qed.
Example C52_case : forall s, s = pipe_run 0 2
    [Tev 0 1 2 5; Tev 4 3 2 6; Tev 8 2 1 7; Tev 13 3 1 5; Tev 16 4 3 9]
    (concat (repeat [WEmit; WThread 1; WRemit; WEmit; WThread 0; WRemit; WEmit; WTake 1; WTake 0] 6) ++ [WRemit; WRemit; WRemit; WRemit; WRemit; WRemit]) ->
  map (verts s) [0; 1]%nat = [[2; 4]; [1; 3]] /\ map (fun r => (rdst r, internal_expand (rdidx r))) (rlog s) = [(2, (0, 0)); (2, (0, 0)); (1, (0, 1)); (1, (0, 1)); (3, (1, 1))].
Proof. intros s ->. vm_compute. auto. Qed.
