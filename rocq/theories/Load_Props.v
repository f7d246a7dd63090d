(** C20, C21: the loaders and the emitter. *)
From Verif Require Import Base IO_Spec IO_Model IO_Proofs IO_Props Load_Spec Load_Model Load_Proofs.
Open Scope N_scope.

Section props.
  Context {P : Type} (prop_of : list (list N) -> P) (set_ts set_raw : N -> P -> P).

  (** [m] loaders on the file [lines] and the emitter, under the schedule [sched]. *)
  Definition load_run (o : opts) (nf m : nat) (lines : list (list N)) (sched : list (option nat)) : load P :=
    lrun prop_of set_ts set_raw o nf m (load_init lines) sched.
  (** The events handed on, decoded with EventType and EventIdx. *)
  Definition decoded (s : load P) : list (sev P) := map view (elog s).

  Lemma load_inv o nf m lines wss sched : (0 < m)%nat -> reads nf lines wss -> N.of_nat (length wss) < 2 ^ 61 ->
    exists n, inv prop_of set_ts set_raw o nf m wss (load_run o nf m lines sched) n.
  Proof. intros H1 H2 H3. eapply inv_run; [done|done|]. by apply inv_init. Qed.

  (** C20 and C21 together.  At every moment of every schedule the decoded events are the
      beginning of the stream of the file: in file order, numbered consecutively, with the
      right kind, ends, property and logical timestamp. *)
  Theorem C20_emitted_in_file_order : forall o nf m lines wss sched,
    (0 < m)%nat -> reads nf lines wss -> N.of_nat (length wss) < 2 ^ 61 ->
    exists rest, stream prop_of set_ts set_raw o nf wss = decoded (load_run o nf m lines sched) ++ rest.
  Proof.
    intros o nf m lines wss sched H1 H2 H3. destruct (load_inv o nf m lines wss sched H1 H2 H3) as [n Hi].
    pose proof (i_n _ _ _ _ _ _ _ _ _ Hi) as Hn. pose proof (i_em _ _ _ _ _ _ _ _ _ Hi) as He.
    assert (Hpre : forall k, (k <= length wss)%nat -> exists rest, stream prop_of set_ts set_raw o nf wss = map view (emitted prop_of set_ts set_raw o nf wss k) ++ rest).
    { intros k Hk. rewrite (view_emitted _ _ _ _ _ m _ H1 H3) by done. unfold stream. eexists. rewrite <- (take_drop k wss) at 1. apply (stream_app _ _ _ _ _ m wss H1 H3). }
    unfold decoded. destruct (em (load_run o nf m lines sched)) as [| |e|].
    - destruct He as (_ & _ & ->). by apply Hpre.
    - destruct He as (_ & _ & ->). by apply Hpre.
    - destruct He as (Eu & n' & -> & -> & _ & _ & ->). destruct (Hpre (S n') Hn) as [rest E]. rewrite E, emitted_S.
      unfold both. rewrite Eu. rewrite !map_app, <- !app_assoc. simpl. eexists. rewrite <- app_assoc. reflexivity.
    - destruct He as (_ & _ & ->). by apply Hpre.
  Qed.

  (** When the emitter has stopped and the queue it stopped at is empty, that beginning is the
      whole stream.  (It stops at the first queue it finds empty and then closed.) *)
  Theorem C20_complete : forall o nf m lines wss sched,
    (0 < m)%nat -> reads nf lines wss -> N.of_nat (length wss) < 2 ^ 61 ->
    forall s, s = load_run o nf m lines sched ->
    em s = EDone -> eq s (ei s) = [] ->
    decoded s = stream prop_of set_ts set_raw o nf wss /\ forall i, (i < m)%nat -> eq s i = [].
  Proof.
    intros o nf m lines wss sched H1 H2 H3 s -> Ed Eq. destruct (load_inv o nf m lines wss sched H1 H2 H3) as [n Hi].
    pose proof (done_all _ _ _ _ _ _ _ H1 H3 _ _ Hi Ed Eq) as ->.
    pose proof (i_em _ _ _ _ _ _ _ _ _ Hi) as He. rewrite Ed in He. destruct He as (_ & _ & El). split.
    - unfold decoded. rewrite El, (view_emitted _ _ _ _ _ m _ H1 H3) by done. by rewrite take_ge by lia.
    - intros i _. rewrite (i_eq _ _ _ _ _ _ _ _ _ Hi). pose proof (i_cnt _ _ _ _ _ _ _ _ _ Hi i).
      unfold cnt. replace (N.to_nat _ - length wss)%nat with O by lia. done.
  Qed.

  (** No loader panics on such a file, and the number of events handed on is the emitter's
      counter: C21, numbering. *)
  Theorem C21_numbering : forall o nf m lines wss sched,
    (0 < m)%nat -> reads nf lines wss -> N.of_nat (length wss) < 2 ^ 61 ->
    forall s, s = load_run o nf m lines sched ->
    forall k e, elog s !! k = Some e ->
    event_idx (word e) = N.of_nat k /\ event_type (word e) = ADD /\ word e < 2 ^ 64.
  Proof.
    intros o nf m lines wss sched H1 H2 H3 s -> k e He.
    destruct (C20_emitted_in_file_order o nf m lines wss sched H1 H2 H3) as [rest E]. unfold decoded in E.
    set (L := elog _) in *.
    assert (Hst : forall l j x, forall b, stream_from prop_of set_ts set_raw o nf b l !! j = Some x ->
       idx x = (if undirected o then 2 * b else b) + N.of_nat j /\ kind x = ADD).
    { clear. intros l. induction l as [|w l IH]; intros j x b; [done|]. cbn [stream_from]. unfold events_of.
      destruct (ids o w) as [p q]. destruct (undirected o).
      - destruct j as [|[|j]]; cbn [lookup list_lookup app]; [intros [= <-]; simpl; lia|intros [= <-]; simpl; split; [lia|done]|].
        intros H. destruct (IH j x _ H) as [-> ->]. lia.
      - destruct j as [|j]; cbn [lookup list_lookup app]; [intros [= <-]; simpl; lia|].
        intros H. destruct (IH j x _ H) as [-> ->]. lia. }
    assert (Hx : stream prop_of set_ts set_raw o nf wss !! k = Some (view e)).
    { rewrite E. apply lookup_app_l_Some. by rewrite list_lookup_fmap, He. }
    destruct (Hst _ _ _ _ Hx) as [A B]. simpl in A, B.
    split; [destruct (undirected o); lia|]. split; [done|].
    apply (f_equal (fun x => x)) in A.
    destruct (N.lt_ge_cases (word e) (2 ^ 64)) as [|Hge]; [done|]. exfalso.
    assert (Hk : (k < length (stream prop_of set_ts set_raw o nf wss))%nat) by (apply lookup_lt_is_Some; eauto).
    assert (Hl : forall l b, (length (stream_from prop_of set_ts set_raw o nf b l) <= 2 * length l)%nat).
    { clear. induction l as [|w l IH]; intros b; [done|]. cbn [stream_from length]. rewrite app_length. specialize (IH (b + 1)).
      unfold events_of. destruct (ids o w) as [p q]. destruct (undirected o); simpl; lia. }
    specialize (Hl wss 0). unfold stream in Hk. unfold event_idx, EVENT_TYPE_BITS in A. rewrite N.shiftr_div_pow2 in A.
    assert (2 ^ 64 / 2 ^ 2 <= word e / 2 ^ 2) as Hd by (by apply N.div_le_mono). change (2 ^ 64 / 2 ^ 2) with (2 * 2 ^ 61) in Hd.
    destruct (undirected o); lia.
  Qed.

  (** Logical time: the timestamp is the event's number (for any property type whose
      ReplaceTimestamp and ReplaceRaw do what they say). *)
  Theorem C21_logical_time (get_ts : P -> N) : forall o nf m lines wss sched,
    (forall t p, get_ts (set_ts t p) = t) -> (forall r p, get_ts (set_raw r p) = get_ts p) ->
    (0 < m)%nat -> reads nf lines wss -> N.of_nat (length wss) < 2 ^ 61 -> logical o = true ->
    forall s, s = load_run o nf m lines sched ->
    forall k e, elog s !! k = Some e -> get_ts (tprop e) = N.of_nat k.
  Proof.
    intros o nf m lines wss sched L1 L2 H1 H2 H3 Hlog s -> k e He.
    destruct (C20_emitted_in_file_order o nf m lines wss sched H1 H2 H3) as [rest E]. unfold decoded in E.
    set (L := elog _) in *.
    assert (Hst : forall l j x, forall b, stream_from prop_of set_ts set_raw o nf b l !! j = Some x ->
       get_ts (prop x) = (if undirected o then 2 * b else b) + N.of_nat j).
    { clear -L1 L2 Hlog. intros l. induction l as [|w l IH]; intros j x b; [done|]. cbn [stream_from]. unfold events_of, stamp. rewrite Hlog.
      destruct (ids o w) as [p q]. destruct (undirected o).
      - destruct j as [|[|j]]; cbn [lookup list_lookup app]; [intros [= <-]; simpl; rewrite ?L1, ?L2, ?L1; lia|intros [= <-]; simpl; rewrite ?L1, ?L2, ?L1; lia|].
        intros H. rewrite (IH j x _ H). lia.
      - destruct j as [|j]; cbn [lookup list_lookup app]; [intros [= <-]; simpl; rewrite ?L1, ?L2, ?L1; lia|].
        intros H. rewrite (IH j x _ H). lia. }
    assert (Hx : stream prop_of set_ts set_raw o nf wss !! k = Some (view e)).
    { rewrite E. apply lookup_app_l_Some. by rewrite list_lookup_fmap, He. }
    rewrite (Hst _ _ _ _ Hx : get_ts (tprop e) = _). destruct (undirected o); lia.
  Qed.
End props.
Print Assumptions C20_emitted_in_file_order.
Print Assumptions C20_complete.
Print Assumptions C21_numbering.
Print Assumptions C21_logical_time.

(** C21, packing: kind and index are recovered from the packed word, for every kind and every
    index below 2^62. *)
Theorem C21_packing : forall k n, k < 4 -> n < 2 ^ 62 ->
  let w := N.lor k (N.shiftl n EVENT_TYPE_BITS mod 2 ^ 64) in
  event_type w = k /\ event_idx w = n /\ w < 2 ^ 64.
Proof.
  intros k n Hk Hn w. subst w. unfold EVENT_TYPE_BITS.
  assert (Hs : N.shiftl n 2 mod 2 ^ 64 = N.shiftl n 2).
  { apply N.mod_small. rewrite N.shiftl_mul_pow2. change (2 ^ 64) with (2 ^ 62 * 2 ^ 2). apply N.mul_lt_mono_pos_r; [done|lia]. }
  rewrite Hs.
  assert (Hsum : N.lor k (N.shiftl n 2) = k + n * 2 ^ 2).
  { rewrite <- N.shiftl_mul_pow2.
    assert (Hl : N.land k (N.shiftl n 2) = 0).
    { apply N.bits_inj_0. intros i. rewrite N.land_spec.
      destruct (N.lt_ge_cases i 2) as [H|H]; [rewrite N.shiftl_spec_low by done; by rewrite andb_false_r|].
      rewrite (N.bits_above_log2 k i); [done|]. destruct (N.eq_dec k 0) as [->|]; [simpl; lia|].
      apply N.lt_le_trans with 2; [|done]. apply N.log2_lt_pow2; [lia|]. by change (2 ^ 2) with 4. }
    rewrite (N.add_nocarry_lxor _ _ Hl). symmetry. by apply N.lxor_lor. }
  unfold event_type, event_idx, EVENT_TYPE_BITS. change EVENT_TYPE_MASK with (N.ones 2).
  rewrite N.land_ones, N.shiftr_div_pow2, Hsum. split; [|split].
  - rewrite N.mod_add by done. by apply N.mod_small.
  - rewrite N.div_add by done. by rewrite N.div_small.
  - change (2 ^ 64) with (2 ^ 62 * 2 ^ 2). change (2 ^ 2) with 4. lia.
Qed.
Print Assumptions C21_packing.

(** A property that is a timestamp only, as graph-edge.go WithTimestamp. *)
Definition ts_prop (ws : list (list N)) : N := 0.
Definition ts_set (t p : N) : N := t.
Definition ts_raw (r p : N) : N := p.

(** The race of C11 at the end of a file: with one loader and one line, the emitter looks at
    the queue, the loader puts the line and closes, the emitter sees the queue closed and stops:
    the last line never enters the graph. *)
Theorem C20_last_line_lost_refuted : exists lines wss sched,
  reads 2 lines wss /\ length wss = 1%nat /\
  forall s, s = load_run ts_prop ts_set ts_raw (Opts false true false) 2 1 lines sched ->
  em s = EDone /\ elog s = [] /\ lst s 0 = LClosed.
Proof.
  exists [[49; 32; 50]], [[[49]; [50]]], [None; Some 0%nat; Some 0%nat; None]. split; [|split; [done|]].
  - apply rd_edge; simpl; auto; try lia; try done.
    + by intros [r [=]].
    + repeat constructor.
    + change [49; 32; 50] with ([] ++ [49] ++ 32 :: [50]). constructor; try done.
      * repeat constructor. unfold space. simpl. intuition lia.
      * unfold space; simpl; tauto.
      * change [50] with ([] ++ [50]) at 1. constructor; try done. repeat constructor. unfold space. simpl. intuition lia.
    + repeat constructor; lia.
    + repeat constructor; lia.
    + constructor.
  - intros s ->. vm_compute. auto.
Qed.
Print Assumptions C20_last_line_lost_refuted.

(** An empty line makes its loader panic (index out of range). *)
Theorem C20_empty_line_refuted : exists sched,
  forall s, s = load_run ts_prop ts_set ts_raw (Opts false true false) 2 1 [[49; 32; 50]; []] sched -> lst s 0 = LPanic.
Proof. exists [Some 0%nat; Some 0%nat]. intros s ->. vm_compute. done. Qed.
Print Assumptions C20_empty_line_refuted.

(** Five lines "1 2", "# c", "2 3", "3 4", "4 1" read by three loaders, undirected, logical
    time: (src, dst, number = timestamp). *)
Example C20_case :
  forall s, s = load_run ts_prop ts_set ts_raw (Opts true true false) 2 3
     [[49; 32; 50]; [35; 99]; [50; 32; 51]; [51; 32; 52]; [52; 32; 49]]
     (concat (repeat [Some 2; None; Some 1; None; Some 0]%nat 12)) ->
  em s = EDone /\ eq s (ei s) = [] /\
  map (fun e => (src e, dst e, idx e, prop e)) (decoded s) =
    [(1, 2, 0, 0); (2, 1, 1, 1); (2, 3, 2, 2); (3, 2, 3, 3); (3, 4, 4, 4); (4, 3, 5, 5); (4, 1, 6, 6); (1, 4, 7, 7)].
Proof. intros s ->. vm_compute. auto. Qed.
(** The same run: numbers and timestamps as the code packs and unpacks them. *)
Example C21_case :
  forall s, s = load_run ts_prop ts_set ts_raw (Opts true true false) 2 3
     [[49; 32; 50]; [35; 99]; [50; 32; 51]; [51; 32; 52]; [52; 32; 49]]
     (concat (repeat [Some 2; None; Some 1; None; Some 0]%nat 12)) ->
  map (fun e => (event_idx (word e), event_type (word e), tprop e)) (elog s) = map (fun k => (N.of_nat k, ADD, N.of_nat k)) (seq 0 8).
Proof. intros s ->. vm_compute. auto. Qed.
