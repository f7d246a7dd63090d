(** C83: lines with too few words. *)
From Verif Require Import Base IO_Spec IO_Model IO_Proofs IO_Props Load_Spec Load_Model Load_Props Short_Spec Short_Proofs.
From Verif Require Load_Proofs.
Open Scope N_scope.

Lemma loose_five lines wss : loose lines wss -> forall c, (length (nth c wss []) <= 5)%nat.
Proof. induction 1; intros c; [destruct c; cbn; lia|done|]. destruct c as [|c]; [done|]. cbn. auto. Qed.
Lemma loose_digits lines wss : loose lines wss -> forall c j, (j < 2)%nat -> Forall digit (nth j (nth c wss []) []).
Proof.
  induction 1; intros c j Hj; [destruct c, j; cbn; constructor|auto|]. destruct c as [|c]; [|cbn; auto].
  cbn [nth]. destruct j as [|[|j]]; [done|done|lia].
Qed.

Section props.
  Context {P : Type} (prop_of : list (list N) -> P) (set_ts set_raw : N -> P -> P).

  Lemma short_inv o nf m lines wss sched : (0 < m)%nat -> loose lines wss -> N.of_nat (length wss) < 2 ^ 61 ->
    exists n, inv prop_of set_ts set_raw o nf m wss (load_run prop_of set_ts set_raw o nf m lines sched) n.
  Proof.
    intros H1 H2 H3. eapply inv_run; [done|done|by eapply loose_five|by eapply loose_digits|]. apply inv_init; [done|done|by eapply loose_five|by eapply loose_digits|done].
  Qed.

  (** C83.  At every moment of every schedule the events handed on are the beginning of the
      stream of the lines, each filled up with words of the earlier lines of its loader. *)
  Theorem C83_filled : forall o nf m lines wss sched,
    (0 < m)%nat -> loose lines wss -> N.of_nat (length wss) < 2 ^ 61 ->
    exists rest, stream prop_of set_ts set_raw o nf (filled m wss) = decoded (load_run prop_of set_ts set_raw o nf m lines sched) ++ rest.
  Proof.
    intros o nf m lines wss sched H1 H2 H3. pose proof (loose_five _ _ H2) as H4. pose proof (loose_digits _ _ H2) as H5.
    destruct (short_inv o nf m lines wss sched H1 H2 H3) as [n Hi].
    pose proof (i_n _ _ _ _ _ _ _ _ _ Hi) as Hn. pose proof (i_em _ _ _ _ _ _ _ _ _ Hi) as He.
    assert (Hpre : forall k, (k <= length wss)%nat -> exists rest, stream prop_of set_ts set_raw o nf (filled m wss) = map Load_Proofs.view (emitted prop_of set_ts set_raw o nf m wss k) ++ rest).
    { intros k Hk. rewrite (view_emitted _ _ _ _ _ m _ H1 H3 H4 H5) by done. unfold stream. eexists. rewrite <- (take_drop k (filled m wss)) at 1. apply (stream_app _ _ _ _ _ m wss H1 H3 H4 H5). }
    unfold decoded. destruct (em (load_run _ _ _ o nf m lines sched)) as [| |e|].
    - destruct He as (_ & _ & ->). by apply Hpre.
    - destruct He as (_ & _ & ->). by apply Hpre.
    - destruct He as (Eu & n' & -> & -> & _ & _ & ->). destruct (Hpre (S n') Hn) as [rest E]. rewrite E, emitted_S by done.
      unfold both. rewrite Eu. rewrite !map_app, <- !app_assoc. simpl. eexists. rewrite <- app_assoc. reflexivity.
    - destruct He as (_ & _ & ->). by apply Hpre.
  Qed.
  (** Once the emitter has stopped with its queue empty, they are that stream. *)
  Theorem C83_complete : forall o nf m lines wss sched,
    (0 < m)%nat -> loose lines wss -> N.of_nat (length wss) < 2 ^ 61 ->
    forall s, s = load_run prop_of set_ts set_raw o nf m lines sched ->
    em s = EDone -> eq s (ei s) = [] -> decoded s = stream prop_of set_ts set_raw o nf (filled m wss).
  Proof.
    intros o nf m lines wss sched H1 H2 H3 s -> Ed Eq. pose proof (loose_five _ _ H2) as H4. pose proof (loose_digits _ _ H2) as H5.
    destruct (short_inv o nf m lines wss sched H1 H2 H3) as [n Hi].
    pose proof (done_all _ _ _ _ _ _ _ H1 H3 H4 H5 _ _ Hi Ed Eq) as ->.
    pose proof (i_em _ _ _ _ _ _ _ _ _ Hi) as He. rewrite Ed in He. destruct He as (_ & _ & El).
    unfold decoded. rewrite El, (view_emitted _ _ _ _ _ m _ H1 H3 H4 H5) by done. rewrite take_ge; [done|]. unfold filled. by rewrite map_length, seq_length.
  Qed.

  (** Filling up changes nothing if all lines have the words that matter (so this is C20). *)
  Lemma filled_enough m wss k nf : (nf <= length (nth k wss []))%nat -> (nf <= 5)%nat -> take nf (filled_line m wss k) = take nf (nth k wss []).
  Proof.
    intros H1 H2. apply list_eq. intros j. destruct (decide (j < nf)%nat) as [Hj|Hj].
    - rewrite !lookup_take by done. unfold filled_line. rewrite list_lookup_fmap, seq_at by lia. cbn [fmap option_fmap option_map last_word Nat.add].
      rewrite Nat.eqb_refl, (proj2 (Nat.ltb_lt j _)) by lia. cbn [andb]. rewrite nth_lookup. destruct (lookup_lt_is_Some_2 (nth k wss []) j ltac:(lia)) as [w ->]. done.
    - rewrite !lookup_take_ge by lia. done.
  Qed.
  Theorem C83_enough : forall o nf m lines wss, reads nf lines wss ->
    stream prop_of set_ts set_raw o nf (filled m wss) = stream prop_of set_ts set_raw o nf wss.
  Proof.
    intros o nf m lines wss Hr.
    assert (HW : forall k, (k < length wss)%nat -> (2 <= nf <= length (nth k wss []))%nat /\ (length (nth k wss []) <= 5)%nat).
    { induction Hr; intros k Hk; [cbn in Hk; lia|auto|]. destruct k as [|k]; [cbn; lia|]. cbn in Hk |- *. apply IHHr. lia. }
    assert (HE : forall k ws, (k < length wss)%nat -> ws = nth k wss [] -> forall i, events_of prop_of set_ts set_raw o nf i (filled_line m wss k) = events_of prop_of set_ts set_raw o nf i ws).
    { intros k ws Hk -> i. destruct (HW k Hk) as [[H1 H2] H3]. pose proof (filled_enough m wss k nf H2 ltac:(lia)) as E. unfold events_of, ids.
      assert (N0 : forall j, (j < 2)%nat -> nth j (filled_line m wss k) [] = nth j (nth k wss []) []).
      { intros j Hj. rewrite !nth_lookup. rewrite <- (lookup_take (filled_line m wss k) nf j) by lia. rewrite E, lookup_take by lia. by rewrite (nth_lookup wss k). }
      rewrite !N0 by lia. change (firstn nf (filled_line m wss k)) with (take nf (filled_line m wss k)). rewrite E. done. }
    unfold stream, filled.
    assert (G : forall l a i, (forall j, (j < length l)%nat -> (a + j < length wss)%nat /\ nth j l [] = nth (a + j) wss []) ->
      stream_from prop_of set_ts set_raw o nf i (map (filled_line m wss) (seq a (length l))) = stream_from prop_of set_ts set_raw o nf i l).
    { induction l as [|w l IH]; intros a i H; [done|]. cbn [length seq map stream_from]. f_equal.
      - apply HE; destruct (H 0%nat) as [A B]; cbn [length]; try lia; rewrite ?Nat.add_0_r in *; done.
      - apply IH. intros j Hj. destruct (H (S j)) as [A B]; [cbn; lia|]. split; [lia|]. cbn in B. rewrite B. f_equal. lia. }
    apply (G wss 0%nat). intros j Hj. split; [lia|done].
  Qed.
End props.
Print Assumptions C83_filled.
Print Assumptions C83_complete.
Print Assumptions C83_enough.

(** Refutation of "the stream does not depend on the number of loaders" for such files:
    "1 2", "3 4", "5".  The last edge is 5 -> 4 with one loader and 5 -> 2 with two. *)
Definition short_file : list (list N) := [[49; 32; 50]; [51; 32; 52]; [53]].
Definition ends_of (s : load N) : list (N * N) := map (fun e => (src e, dst e)) (decoded s).
Lemma short_loose : loose short_file [[[49]; [50]]; [[51]; [52]]; [[53]]].
Proof.
  assert (W : forall a b, digit a -> digit b -> splits [a; 32; b] [[a]; [b]]).
  { intros a b Ha Hb. change [a; 32; b] with ([] ++ [a] ++ 32 :: [b]). unfold digit in *. constructor; try done.
    - repeat constructor. unfold space. simpl. intuition lia.
    - unfold space; simpl; tauto.
    - change [b] with ([] ++ [b]) at 1. constructor; try done. repeat constructor. unfold space. simpl. intuition lia. }
  assert (D : forall a, 48 <= a <= 57 -> ~ comment [a] /\ forall l, ~ comment (a :: l)) by (intros a Ha; split; [|intros l]; intros [r [= -> ?]]; lia).
  repeat (apply lo_edge; [done| | | | | | |]); try (apply D; lia); try (apply W; unfold digit; lia); try (cbn; lia); try (repeat constructor; unfold digit; lia); try constructor.
  change [53] with ([] ++ [53]) at 1. constructor; try done. repeat constructor. unfold space. simpl. intuition lia.
Qed.
Theorem C83_loaders_refuted : exists lines wss sched1 sched2, loose lines wss /\
  let s1 := load_run ts_prop ts_set ts_raw (Opts false true false) 2 1 lines sched1 in
  let s2 := load_run ts_prop ts_set ts_raw (Opts false true false) 2 2 lines sched2 in
  em s1 = EDone /\ eq s1 (ei s1) = [] /\ em s2 = EDone /\ eq s2 (ei s2) = [] /\
  ends_of s1 = [(1, 2); (3, 4); (5, 4)] /\ ends_of s2 = [(1, 2); (3, 4); (5, 2)].
Proof.
  exists short_file, [[[49]; [50]]; [[51]; [52]]; [[53]]],
    (replicate 4 (Some 0%nat) ++ replicate 9 None), (replicate 4 (Some 0%nat) ++ replicate 4 (Some 1%nat) ++ replicate 9 None).
  split; [apply short_loose|]. vm_compute. repeat split.
Qed.
Print Assumptions C83_loaders_refuted.

(** Refutation of "an edge in the graph is an edge of the file": a line of one blank (as an
    empty line with carriage return is) repeats the edge before it; with two loaders it is
    the edge 0 -> 0. *)
Theorem C83_blank_refuted : exists lines sched1 sched2,
  lines = [[49; 32; 50]; [13]] /\ loose lines [[[49]; [50]]; []] /\
  let s1 := load_run ts_prop ts_set ts_raw (Opts false true false) 2 1 lines sched1 in
  let s2 := load_run ts_prop ts_set ts_raw (Opts false true false) 2 2 lines sched2 in
  em s1 = EDone /\ eq s1 (ei s1) = [] /\ em s2 = EDone /\ eq s2 (ei s2) = [] /\
  ends_of s1 = [(1, 2); (1, 2)] /\ ends_of s2 = [(1, 2); (0, 0)].
Proof.
  exists [[49; 32; 50]; [13]], (replicate 4 (Some 0%nat) ++ replicate 9 None), (replicate 4 (Some 0%nat) ++ replicate 4 (Some 1%nat) ++ replicate 9 None).
  split; [done|]. split; [|vm_compute; repeat split].
  assert (H := short_loose). inversion H as [|? ? ? Hc|? ? ? ? H1 H2 H3 H4 H5 H6 H7 H8]; subst.
  - destruct Hc as [r [= ]].
  - apply lo_edge; try done. apply lo_edge; try done; try (cbn; lia).
    + intros [r [= ]].
    + repeat constructor.
    + apply sp_blank. apply List.Forall_cons; [unfold space; cbn; tauto|apply List.Forall_nil].
    + constructor.
    + constructor.
    + constructor.
Qed.
Print Assumptions C83_blank_refuted.

(** A non-trivial case: the words of the lines of two loaders. *)
Example C83_case : filled 2 [[[49]; [50]; [51]]; [[52]]; [[53]]; []] =
  [[[49]; [50]; [51]; []; []]; [[52]; []; []; []; []]; [[53]; [50]; [51]; []; []]; [[52]; []; []; []; []]].
Proof. vm_compute. reflexivity. Qed.
