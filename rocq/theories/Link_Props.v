(** C56: what the pipeline delivers is what the algorithms assume of their edges. *)
From Verif Require Import Base IO_Model Load_Spec Load_Model Load_Proofs Load_Props Remit_Spec Remit_Model Remit_Proofs Remit_Props.
From Verif Require Import Colour_Spec Window_Spec Path_Spec Link_Spec Link_Proofs.
Open Scope N_scope.

Section props.
  Context {P : Type} (zero : P) (ts : P -> N).

  Section any.
  Context {T : Type} (key : P -> T).
  (** The edges of vertex [u] as its thread has received them, oldest first: (destination, (timestamp or
      weight, position)).
      C25: EnactTopologyEvents appends additions to the list of their source in this order, whatever the batches.
      Vertices are named by their raw ids (C18, C52). *)
  Definition arrived (nthr : N) (s : pipe P) (u : nat) : list (nat * (T * nat)) :=
    edges_from key (received s (N.of_nat u mod nthr)) u.
  Lemma edges_share nthr l u : edges_from key (share nthr (N.of_nat u mod nthr) l) u = edges_from key l u.
  Proof.
    unfold edges_from, share. f_equal. induction l as [|x l IH]; [done|]. cbn [List.filter].
    destruct (is_add_from u x) eqn:Ex.
    - assert (src (fst x) = N.of_nat u) as -> by (unfold is_add_from in Ex; apply andb_prop in Ex as [_ Ex]; by apply N.eqb_eq in Ex).
      rewrite N.eqb_refl. cbn [List.filter]. by rewrite Ex, IH.
    - destruct (_ =? _); [|done]. cbn [List.filter]. by rewrite Ex.
  Qed.
  Lemma arrived_is nthr evs sched s u : 0 < nthr -> s = pipe_run zero nthr evs sched -> spurious s = false ->
    arrived nthr s u = edges_from key (deliver (map view (take (length (rlog s)) evs))) u.
  Proof. intros Hn Es Hs. unfold arrived. rewrite (C22_per_thread_order zero ts nthr evs sched s Hn Es Hs). apply edges_share. Qed.
  End any.
  (** Destination and position only. *)
  Definition slots (es : nat -> list (nat * (N * nat))) (u : nat) : list (nat * nat) := map (fun x => (fst x, snd (snd x))) (es u).
  Lemma few_take (evs : list (tev P)) k : few (map view evs) -> few (map view (take k evs)).
  Proof. intros H d. specialize (H d). rewrite <- (take_drop k evs), map_app, adds_app in H. lia. Qed.

  (** At every moment of every schedule, no two edges share destination and position. *)
  Theorem C56_slots : forall nthr evs sched s, 0 < nthr -> s = pipe_run zero nthr evs sched -> spurious s = false ->
    (forall d, N.of_nat (adds_to d (map view evs)) <= 2 ^ 32) ->
    slots_once (arrived ts nthr s) /\ slots_unique (slots (arrived ts nthr s)) /\
    (forall u d p, (d, p) ∈ slots (arrived ts nthr s) u -> (p < adds_to (N.of_nat d) (map view evs))%nat).
  Proof.
    intros nthr evs sched s Hn Es Hs HF. pose proof (few_take evs (length (rlog s)) HF) as HF'.
    assert (HO : slots_once (arrived ts nthr s)).
    { intros u1 u2 i1 i2 d a1 a2 p H1 H2. rewrite (arrived_is ts nthr evs sched s u1 Hn Es Hs) in H1. rewrite (arrived_is ts nthr evs sched s u2 Hn Es Hs) in H2. set (l := map view (take _ _)) in *.
      apply edges_lookup in H1 as (j1 & e1 & L1 & K1 & S1 & D1 & _ & P1 & _ & I1); [|done].
      apply edges_lookup in H2 as (j2 & e2 & L2 & K2 & S2 & D2 & _ & P2 & _ & I2); [|done].
      assert (j1 = j2) as <-.
      { destruct (lt_eq_lt_dec j1 j2) as [[H|H]|H]; [|done|].
        - pose proof (slot_index l j1 j2 e1 e2 L1 L2 K1 K2 ltac:(congruence) H). lia.
        - pose proof (slot_index l j2 j1 e2 e1 L2 L1 K2 K1 ltac:(congruence) H). lia. }
      rewrite L1 in L2. injection L2 as <-. assert (u1 = u2) as <- by lia. split; [done|congruence]. }
    split_and!; [done| |].
    - intros u1 u2 i1 i2 x H1 H2. unfold slots in H1, H2. rewrite list_lookup_fmap in H1, H2.
      destruct (arrived ts nthr s u1 !! i1) as [[d1 [a1 p1]]|] eqn:E1; [|done]. destruct (arrived ts nthr s u2 !! i2) as [[d2 [a2 p2]]|] eqn:E2; [|done].
      cbn in H1, H2. assert (d1 = d2 /\ p1 = p2) as [-> ->] by (split; congruence). by apply (HO u1 u2 i1 i2 d2 a1 a2 p2).
    - intros u d p H. apply elem_of_list_lookup in H as (i & H). unfold slots in H. rewrite list_lookup_fmap in H.
      destruct (arrived ts nthr s u !! i) as [[d1 [a1 p1]]|] eqn:E1; [|done]. cbn in H. injection H as -> ->.
      rewrite (arrived_is ts nthr evs sched s _ Hn Es Hs) in E1. apply edges_lookup in E1 as (j & e & _ & _ & _ & D & _ & _ & Hp & _); [|done].
      rewrite <- D. rewrite <- (take_drop (length (rlog s)) evs), map_app, adds_app. lia.
  Qed.

  (** When the timestamps of the events do not fall, every vertex gets its edges in the order of time, and
      positions at a destination are in the order of time. *)
  Theorem C56_times : forall nthr evs sched s bound, 0 < nthr -> s = pipe_run zero nthr evs sched -> spurious s = false ->
    (forall d, N.of_nat (adds_to d (map view evs)) <= 2 ^ 32) ->
    (forall i j e f, evs !! i = Some e -> evs !! j = Some f -> (i <= j)%nat -> ts (tprop e) <= ts (tprop f)) ->
    (forall e, e ∈ evs -> ts (tprop e) < bound) ->
    by_time (arrived ts nthr s) /\ slots_by_time (arrived ts nthr s) /\ times_below bound (arrived ts nthr s).
  Proof.
    intros nthr evs sched s bound Hn Es Hs HF HT HB. pose proof (few_take evs (length (rlog s)) HF) as HF'.
    set (k := length (rlog s)) in *.
    assert (HL : forall j e, map view (take k evs) !! j = Some e -> exists e', evs !! j = Some e' /\ ts (prop e) = ts (tprop e')).
    { intros j e H. rewrite list_lookup_fmap in H. destruct (take k evs !! j) as [e'|] eqn:E; [|done]. cbn in H. injection H as <-.
      apply lookup_take_Some in E as [E _]. by exists e'. }
    assert (HT' : forall i j e f, map view (take k evs) !! i = Some e -> map view (take k evs) !! j = Some f -> (i <= j)%nat -> ts (prop e) <= ts (prop f)).
    { intros i j e f H1 H2 Hle. apply HL in H1 as (e' & H1 & ->). apply HL in H2 as (f' & H2 & ->). eauto. }
    split_and!.
    - intros u. rewrite (arrived_is ts nthr evs sched s _ Hn Es Hs). fold k. unfold edges_from.
      assert (HS : StronglySorted (fun e f : sev P * N => ts (prop (fst e)) <= ts (prop (fst f))) (deliver (map view (take k evs)))).
      { assert (HD : forall j x, deliver (map view (take k evs)) !! j = Some x -> map view (take k evs) !! j = Some (fst x)).
        { intros j x H. rewrite deliver_lookup in H. destruct (map view (take k evs) !! j); [|done]. cbn in H. by injection H as <-. }
        revert HD HT'. generalize (deliver (map view (take k evs))) as D. generalize (map view (take k evs)) as L. clear. intros L D. revert L.
        induction D as [|x D IH]; intros L HD HT; constructor.
        - destruct L as [|e L]; [by specialize (HD O x eq_refl)|]. apply (IH L).
          + intros j y H. apply (HD (S j) y H).
          + intros i j e1 e2 H1 H2 Hle. apply (HT (S i) (S j) e1 e2 H1 H2). lia.
        - apply list.Forall_forall. intros y Hy. apply elem_of_list_lookup in Hy as (j & Hy).
          apply (HT O (S j) (fst x) (fst y)); [by apply HD|by apply HD|lia]. }
      revert HS. generalize (deliver (map view (take k evs))) as D. clear. induction D as [|x D IH]; intros H; cbn; [constructor|].
      inversion H as [|? ? H1 H2]; subst. specialize (IH H1). destruct (is_add_from u x); [|done]. cbn [map]. constructor; [done|].
      apply list.Forall_forall. intros y Hy. apply elem_of_list_In, in_map_iff in Hy as (z & <- & Hz). apply filter_In in Hz as [Hz _].
      rewrite list.Forall_forall in H2. apply (H2 z). by apply elem_of_list_In.
    - intros u1 u2 d a1 a2 p1 p2 H1 H2 Hp. rewrite (arrived_is ts nthr evs sched s u1 Hn Es Hs) in H1. rewrite (arrived_is ts nthr evs sched s u2 Hn Es Hs) in H2. fold k in H1, H2.
      apply elem_of_list_lookup in H1 as (i1 & H1). apply elem_of_list_lookup in H2 as (i2 & H2).
      apply edges_lookup in H1 as (j1 & e1 & L1 & K1 & S1 & D1 & <- & P1 & _ & I1); [|done].
      apply edges_lookup in H2 as (j2 & e2 & L2 & K2 & S2 & D2 & <- & P2 & _ & I2); [|done].
      apply (HT' j1 j2); [done|done|]. destruct (le_lt_dec j1 j2) as [H|H]; [done|].
      pose proof (slot_index _ j2 j1 e2 e1 L2 L1 K2 K1 ltac:(congruence) H). lia.
    - intros u d a p H. rewrite (arrived_is ts nthr evs sched s _ Hn Es Hs) in H. fold k in H. apply elem_of_list_lookup in H as (i & H).
      apply edges_lookup in H as (j & e & L & _ & _ & _ & <- & _); [|done]. apply HL in L as (e' & L & ->). apply HB. by eapply elem_of_list_lookup_2.
  Qed.
End props.
Print Assumptions C56_slots.
Print Assumptions C56_times.

(** The run of C22_case: four additions, three of them into vertex 2, and a deletion. *)
Example C56_case : forall s, s = pipe_run 0 2
    [Tev 0 1 2 5; Tev 4 3 2 6; Tev 8 2 1 7; Tev 13 1 2 7; Tev 16 4 2 9]
    (concat (repeat [WEmit; WThread 1; WRemit; WEmit; WThread 0; WRemit; WEmit; WTake 1; WTake 0] 6) ++ [WRemit; WRemit; WRemit; WRemit; WRemit; WRemit]) ->
  spurious s = false /\
  map (arrived (fun p => p) 2 s) [1; 2; 3; 4]%nat = [[(2, (5%N, 0))]; [(1, (7%N, 0))]; [(2, (6%N, 1))]; [(2, (9%N, 2))]]%nat.
Proof. intros s ->. vm_compute. auto. Qed.
