(** Proofs about the loaders and the emitter on files with short lines: those of
    Load_Proofs.v, with the contents of the field buffer as part of the invariant. *)
From Verif Require Import Base IO_Spec IO_Model IO_Proofs IO_Props Load_Spec Load_Model Short_Spec.
From Verif Require Load_Proofs.
Open Scope N_scope.

Lemma seq_at a n j : (j < n)%nat -> seq a n !! j = Some (a + j)%nat.
Proof. revert a j. induction n as [|n IH]; intros a [|j] H; cbn; [lia|lia|f_equal; lia|]. change (seq (S a) n !! j = Some (a + S j)%nat). rewrite IH by lia. f_equal. lia. Qed.

Section proofs.
  Context {P : Type} (prop_of : list (list N) -> P) (set_ts set_raw : N -> P -> P).
  Context (o : opts) (nf m : nat) (wss : list (list (list N))).
  Hypothesis Hm : (0 < m)%nat.
  Hypothesis Hlen : N.of_nat (length wss) < 2 ^ 61.
  Hypothesis Hfive : forall c, (length (nth c wss []) <= 5)%nat.
  Hypothesis Hdig : forall c j, (j < 2)%nat -> Forall digit (nth j (nth c wss []) []).
  Implicit Types s : load P.

  Notation view := Load_Proofs.view.
  Definition ws_at (j : nat) : list (list N) := filled_line m wss j.
  Definition buffer (i c : nat) : list (list N) := map (fun j => last_word m wss i j c) (seq 0 5).
  Definition mul : N := if undirected o then 2 else 1.
  Definition num (j : nat) : N := mul * N.of_nat j.
  (** The event the loader makes of the j-th edge line, and what the emitter makes of that. *)
  Definition raw (j : nat) : tev P :=
    Tev ADD (fst (ids o (ws_at j))) (snd (ids o (ws_at j)))
      (set_raw (snd (ids o (ws_at j))) (stamp set_ts o (num j) (prop_of (drop 2 (take nf (ws_at j)))))).
  Definition pack (k n : N) (e : tev P) : tev P := Tev (N.lor k (N.shiftl n 2 mod w64)) (tsrc e) (tdst e) (tprop e).
  Definition first (j : nat) : tev P := pack ADD (num j) (raw j).
  Definition twin (j : nat) : tev P :=
    pack ADD (num j + 1) (Tev 0 (tdst (raw j)) (tsrc (raw j)) (stamp set_ts o (num j + 1) (set_raw (tsrc (raw j)) (tprop (raw j))))).
  Definition both (j : nat) : list (tev P) := first j :: if undirected o then [twin j] else [].
  Definition emitted (n : nat) : list (tev P) := concat (map both (seq 0 n)).
  Lemma emitted_S n : emitted (S n) = emitted n ++ both n.
  Proof. unfold emitted. rewrite seq_S, map_app, concat_app. simpl. by rewrite app_nil_r. Qed.

  Definition mine (i : nat) (j : nat) : bool := (j mod m =? i)%nat.
  Definition cnt s i : nat := N.to_nat (lcnt s i).

  Record inv s (n : nat) : Prop := {
    i_cnt : forall i, lcnt s i <= N.of_nat (length wss);
    i_reads : forall i, loose (lrest s i) (drop (cnt s i) wss);
    i_fields : forall i, lfields s i = buffer i (cnt s i);
    i_closed : forall i, lst s i = LClosed -> lrest s i = [];
    i_nopanic : forall i, lst s i <> LPanic;
    i_eq : forall i, eq s i = map raw (List.filter (mine i) (seq n (cnt s i - n)));
    i_put : forall j, (j < n)%nat -> (j < cnt s (j mod m))%nat;
    i_n : (n <= length wss)%nat;
    i_em : match em s with
           | ETwin e => undirected o = true /\ exists n', n = S n' /\ e = first n' /\ ei s = (n' mod m)%nat /\
                          eidx s = num n' + 1 /\ elog s = emitted n' ++ [first n']
           | EDone => lst s (ei s) = LClosed /\ ei s = (n mod m)%nat /\ elog s = emitted n
           | _ => ei s = (n mod m)%nat /\ eidx s = num n /\ elog s = emitted n
           end }.

  Lemma mine_spec i j : mine i j = true <-> (j mod m = i)%nat.
  Proof. unfold mine. apply Nat.eqb_eq. Qed.
  Lemma next_mod n : next_queue m (n mod m) = (S n mod m)%nat.
  Proof.
    unfold next_queue. pose proof (Nat.mod_upper_bound n m ltac:(lia)) as Hb.
    replace (S n) with (n + 1)%nat by lia.
    destruct (Nat.ltb_spec (S (n mod m)) m) as [H|H].
    - rewrite (Nat.add_mod n 1 m) by lia. rewrite (Nat.mod_small 1 m) by lia. rewrite (Nat.mod_small (n mod m + 1)) by lia. lia.
    - rewrite (Nat.add_mod n 1 m) by lia. destruct (Nat.eq_dec m 1%nat) as [->|Hm1]; [by rewrite !Nat.mod_1_r|].
      rewrite (Nat.mod_small 1 m) by lia. replace (n mod m + 1)%nat with (1 * m)%nat by lia. by rewrite Nat.mod_mul by lia.
  Qed.

  Lemma loose_head b rest c : loose (b :: rest) (drop c wss) ->
    (comment b /\ loose rest (drop c wss)) \/
    (exists x r, b = x :: r /\ x <> 35 /\ (c < length wss)%nat /\ Forall (fun b => b < 256) b /\ splits b (nth c wss []) /\
       (length (nth c wss []) <= 5)%nat /\
       Forall digit (nth 0 (nth c wss []) []) /\ Forall digit (nth 1 (nth c wss []) []) /\ loose rest (drop (S c) wss)).
  Proof using All.
    inversion 1 as [|? ? ? Hc Hr|? ? ws wss' H1 H2 H3 H4 H7 H8 H9 H10 H11 H12]; subst; [by left|right].
    assert (Ew : wss !! c = Some ws) by (rewrite <- (Nat.add_0_r c), <- lookup_drop, <- H12; done).
    assert (Ews : nth c wss [] = ws) by (by rewrite nth_lookup, Ew).
    rewrite Ews. destruct b as [|x r]; [done|]. exists x, r. split; [done|]. split; [intros ->; apply H2; by exists r|].
    split; [by apply lookup_lt_is_Some|]. do 5 (split; [done|]).
    erewrite drop_S in H12 by done. by injection H12 as [= <-].
  Qed.
  (** The words of the ids are digits. *)
  Lemma last_digits i j c : (forall k, (k < c)%nat -> Forall digit (nth j (nth k wss []) [])) -> Forall digit (last_word m wss i j c).
  Proof using. clear. induction c as [|c IH]; intros H; cbn [last_word]; [constructor|]. destruct (_ && _); [apply H; lia|]. apply IH. intros k Hk. apply H. lia. Qed.
  Lemma buffer_S i c : buffer i (S c) = if mine i c then nth c wss [] ++ drop (length (nth c wss [])) (buffer i c) else buffer i c.
  Proof using All.
    unfold buffer. apply list_eq. intros j. destruct (decide (j < 5)%nat) as [Hj|Hj].
    - rewrite list_lookup_fmap, seq_at by done. cbn [fmap option_fmap option_map last_word Nat.add]. unfold mine.
      destruct (c mod m =? i)%nat; cbn [andb]; [|by rewrite list_lookup_fmap, seq_at].
      destruct (Nat.ltb_spec j (length (nth c wss []))) as [Hl|Hl].
      + rewrite lookup_app_l by done. rewrite nth_lookup. destruct (lookup_lt_is_Some_2 _ _ Hl) as [w ->]. done.
      + rewrite lookup_app_r by done. rewrite lookup_drop, list_lookup_fmap. replace (length (nth c wss []) + (j - length (nth c wss [])))%nat with j by lia.
        by rewrite seq_at.
    - rewrite (proj2 (lookup_ge_None _ j)) by (rewrite map_length, seq_length; lia). symmetry. apply lookup_ge_None.
      destruct (mine i c) eqn:Em; [|rewrite map_length, seq_length; lia]. rewrite app_length, drop_length, map_length, seq_length.
      destruct (decide (length (nth c wss []) <= 5)%nat) as [Hl|Hl]; [lia|]. exfalso. by apply Hl, Hfive.
  Qed.
  Lemma buffer_digits i c j : (j < 2)%nat -> Forall digit (nth j (buffer i c) []).
  Proof using All.
    intros Hj. unfold buffer. destruct j as [|[|j]]; [| |lia]; cbn [seq map nth]; apply last_digits; intros k _; apply Hdig; lia.
  Qed.
  Lemma make_event_raw c fields : fields = ws_at c -> Forall digit (nth 0 fields []) -> Forall digit (nth 1 fields []) -> (c < length wss)%nat ->
    make_event prop_of set_ts set_raw o nf (N.of_nat c) fields = raw c.
  Proof using All.
    intros -> D0 D1 Hc. unfold make_event, raw, ids, stamp, num, mul.
    rewrite !C08_to_int by done. rewrite (N.mod_small (_ * _) w64).
    2:{ unfold w64. assert (2 ^ 64 = 8 * 2 ^ 61) as -> by done. destruct (undirected o); lia. }
    rewrite (N.mul_comm (N.of_nat c)). by destruct (transpose o).
  Qed.

  Lemma seq_cons n c : (n < c)%nat -> seq n (c - n) = n :: seq (S n) (c - S n).
  Proof. intros H. replace (c - n)%nat with (S (c - S n)) by lia. done. Qed.
  Lemma filter_next i n c : (n < c)%nat -> (n mod m <> i)%nat ->
    List.filter (mine i) (seq n (c - n)) = List.filter (mine i) (seq (S n) (c - S n)).
  Proof.
    intros H1 H2. rewrite seq_cons by done. simpl. destruct (mine i n) eqn:E; [|done]. by apply mine_spec in E.
  Qed.

  Lemma inv_lstep s n i : (i < m)%nat -> inv s n -> inv (lstep prop_of set_ts set_raw o nf m i s) n.
  Proof.
    intros Hi Hinv. unfold lstep. destruct (lst s i) eqn:Est; try done.
    pose proof (i_cnt _ _ Hinv i) as Hcnt. pose proof (i_reads _ _ Hinv i) as Hr.
    destruct (lrest s i) as [|b rest] eqn:Erest.
    { destruct Hinv. split; simpl; auto; unfold fset.
      - intros j. destruct (Nat.eqb_spec j i) as [->|]; auto.
      - intros j. by destruct (Nat.eqb_spec j i) as [->|].
      - destruct (em s); auto. destruct (Nat.eqb_spec (ei s) i); [|done]. by split_and!; try apply i_em0. }
    apply loose_head in Hr as [[[r ->] Hr]|(x & r & -> & Hx & Hc & Hb & Hsp & H4 & H5 & H6 & Hr)].
    { rewrite N.eqb_refl. destruct Hinv. split; simpl; auto; unfold fset.
      - intros j. destruct (Nat.eqb_spec j i) as [->|]; [exact Hr|apply i_reads0].
      - intros j. destruct (Nat.eqb_spec j i) as [->|]; auto. congruence. }
    apply N.eqb_neq in Hx. rewrite Hx.
    assert (Hc1 : (lcnt s i + 1) mod w64 = lcnt s i + 1).
    { apply N.mod_small. unfold w64. assert (2 ^ 64 = 8 * 2 ^ 61) as -> by done. lia. }
    rewrite Hc1.
    assert (Hc2 : N.to_nat (lcnt s i + 1) = S (cnt s i)) by (unfold cnt; lia).
    assert (Hput : forall j, (j < n)%nat -> (j < N.to_nat (fset (lcnt s) i (lcnt s i + 1)%N (j mod m)))%nat).
    { intros j Hj. pose proof (i_put _ _ Hinv j Hj) as Hp. unfold fset. destruct (Nat.eqb_spec (j mod m) i) as [E|]; [|done].
      rewrite E in Hp. lia. }
    assert (Hmine : (lcnt s i mod N.of_nat m =? N.of_nat i) = mine i (cnt s i)).
    { unfold mine, cnt. destruct (Nat.eqb_spec (N.to_nat (lcnt s i) mod m) i) as [E|E].
      - apply N.eqb_eq. rewrite <- E at 2. rewrite Nat2N.inj_mod, N2Nat.id. done.
      - apply N.eqb_neq. intros E'. apply E. apply Nat2N.inj. by rewrite Nat2N.inj_mod, N2Nat.id. }
    rewrite Hmine.
    assert (Hgrow : List.filter (mine i) (seq n (S (cnt s i) - n)) =
       List.filter (mine i) (seq n (cnt s i - n)) ++ (if mine i (cnt s i) then [cnt s i] else [])).
    { destruct (mine i (cnt s i)) eqn:Em.
      - assert (Hn : (n <= cnt s i)%nat).
        { destruct (Nat.le_gt_cases n (cnt s i)) as [|Hlt]; [done|]. pose proof (i_put _ _ Hinv _ Hlt) as Hp.
          apply mine_spec in Em. rewrite Em in Hp. lia. }
        replace (S (cnt s i) - n)%nat with (S (cnt s i - n)) by lia. rewrite seq_S, List.filter_app. simpl.
        replace (n + (cnt s i - n))%nat with (cnt s i) by lia. by rewrite Em.
      - destruct (Nat.le_gt_cases n (cnt s i)) as [Hn|Hlt].
        + replace (S (cnt s i) - n)%nat with (S (cnt s i - n)) by lia. rewrite seq_S, List.filter_app. simpl.
          replace (n + (cnt s i - n))%nat with (cnt s i) by lia. by rewrite Em.
        + replace (S (cnt s i) - n)%nat with O by lia. replace (cnt s i - n)%nat with O by lia. done. }
    destruct (mine i (cnt s i)) eqn:Em.
    - destruct (C08_fast_fields (lfields s i) (x :: r) Hb) as (ws & Hs1 & Hs2 & ->).
      rewrite (Hs2 _ Hsp) in *. clear Hs2. assert (Hlf : length (lfields s i) = 5%nat) by (rewrite (i_fields _ _ Hinv i); done). rewrite Hlf.
      replace (length ws <=? 5)%nat with true.
      2:{ symmetry. apply Nat.leb_le. lia. }
      assert (Efl : ws ++ drop (length ws) (lfields s i) = buffer i (S (cnt s i))).
      { assert (nth (cnt s i) wss [] = ws) as <- by (apply (splits_iff (x :: r)) in Hsp; apply (splits_iff (x :: r)) in Hs1; congruence).
        by rewrite buffer_S, Em, (i_fields _ _ Hinv i). }
      assert (Emk : make_event prop_of set_ts set_raw o nf (lcnt s i) (ws ++ drop (length ws) (lfields s i)) = raw (cnt s i)).
      { replace (lcnt s i) with (N.of_nat (cnt s i)) at 1 by (unfold cnt; lia).
        apply make_event_raw; [|rewrite Efl; apply buffer_digits..|done]; [|lia|lia]. rewrite Efl. unfold ws_at, filled_line, buffer. apply mine_spec in Em. by rewrite Em. }
      destruct Hinv. split; simpl; auto; unfold fset, cnt; simpl.
      + intros j. destruct (Nat.eqb_spec j i) as [->|]; auto. lia.
      + intros j. destruct (Nat.eqb_spec j i) as [->|]; [by rewrite Hc2|apply i_reads0].
      + intros j. destruct (Nat.eqb_spec j i) as [->|]; [by rewrite Efl, Hc2|apply i_fields0].
      + intros j. destruct (Nat.eqb_spec j i) as [->|]; auto. congruence.
      + intros j. destruct (Nat.eqb_spec j i) as [->|]; [|apply i_eq0].
        rewrite Emk, Hc2, Hgrow, map_app, i_eq0. done.
    - destruct Hinv. split; simpl; auto; unfold fset, cnt; simpl.
      + intros j. destruct (Nat.eqb_spec j i) as [->|]; auto. lia.
      + intros j. destruct (Nat.eqb_spec j i) as [->|]; [by rewrite Hc2|apply i_reads0].
      + intros j. destruct (Nat.eqb_spec j i) as [->|]; [by rewrite Hc2, buffer_S, Em|apply i_fields0].
      + intros j. destruct (Nat.eqb_spec j i) as [->|]; auto. congruence.
      + intros j. destruct (Nat.eqb_spec j i) as [->|]; [|apply i_eq0].
        rewrite Hc2, Hgrow, app_nil_r, i_eq0. done.
  Qed.

  Lemma num_S n : num (S n) = num n + mul.
  Proof. unfold num. lia. Qed.
  Lemma num_lt n : (n <= length wss)%nat -> num n + 1 < 2 ^ 62.
  Proof.
    intros H. unfold num, mul. assert (2 ^ 62 = 2 * 2 ^ 61) as -> by done. pose proof (N.pow_nonzero 2 61). destruct (undirected o); lia.
  Qed.
  Lemma small w : w < 2 ^ 62 -> (w + 1) mod w64 = w + 1.
  Proof. intros H. apply N.mod_small. unfold w64. assert (2 ^ 64 = 4 * 2 ^ 62) as -> by done. lia. Qed.

  (** Taking the next event. *)
  Lemma take_next s n e q : inv s n -> eq s (n mod m) = e :: q ->
    e = raw n /\ (n < cnt s (n mod m))%nat /\
    q = map raw (List.filter (mine (n mod m)) (seq (S n) (cnt s (n mod m) - S n))).
  Proof.
    intros Hinv E. rewrite (i_eq _ _ Hinv) in E.
    assert (Hlt : (n < cnt s (n mod m))%nat).
    { destruct (Nat.le_gt_cases (cnt s (n mod m)) n) as [Hle|]; [|done].
      replace (cnt s (n mod m) - n)%nat with O in E by lia. done. }
    rewrite seq_cons in E by done. simpl in E. assert (mine (n mod m) n = true) as Em by (by apply mine_spec).
    rewrite Em in E. simpl in E. by injection E as [= <- <-].
  Qed.
  Lemma eq_after s n q i : inv s n -> (n < cnt s (n mod m))%nat ->
    q = map raw (List.filter (mine (n mod m)) (seq (S n) (cnt s (n mod m) - S n))) ->
    fset (eq s) (n mod m) q i = map raw (List.filter (mine i) (seq (S n) (cnt s i - S n))).
  Proof.
    intros Hinv Hlt ->. unfold fset. destruct (Nat.eqb_spec i (n mod m)) as [->|Hne]; [done|].
    rewrite (i_eq _ _ Hinv i). f_equal.
    destruct (Nat.le_gt_cases (cnt s i) n) as [Hle|Hgt].
    - replace (cnt s i - n)%nat with O by lia. replace (cnt s i - S n)%nat with O by lia. done.
    - by apply filter_next.
  Qed.
  Lemma put_after s n : inv s n -> (n < cnt s (n mod m))%nat -> forall j, (j < S n)%nat -> (j < cnt s (j mod m))%nat.
  Proof. intros Hinv Hlt j Hj. destruct (Nat.eq_dec j n) as [->|]; [done|]. apply (i_put _ _ Hinv). lia. Qed.

  Lemma inv_estep s n : inv s n -> exists n', inv (estep set_ts set_raw o m s) n' /\ (n <= n')%nat.
  Proof.
    intros Hinv. pose proof (i_em _ _ Hinv) as Hem. pose proof (num_lt n (i_n _ _ Hinv)) as Hnl.
    unfold estep. destruct (em s) as [| |e|] eqn:Eem.
    - destruct Hem as (Eei & Eix & Elog). rewrite Eei, Eix. destruct (eq s (n mod m)) as [|e q] eqn:Eq.
      + exists n. split; [|lia]. destruct Hinv. split; simpl; auto.
      + destruct (take_next s n e q Hinv Eq) as (-> & Hlt & Hq).
        assert (Hn : (S n <= length wss)%nat).
        { pose proof (i_cnt _ _ Hinv (n mod m)) as H. unfold cnt in Hlt. lia. }
        rewrite small by lia.
        exists (S n). split; [|lia].
        assert (Heq : forall i, fset (eq s) (n mod m) q i = map raw (List.filter (mine i) (seq (S n) (cnt s i - S n)))) by (intros i; by eapply eq_after).
        pose proof (put_after s n Hinv Hlt) as Hput.
        destruct (undirected o) eqn:Eu.
        * destruct Hinv. split; simpl; auto. split; [done|]. exists n. rewrite Elog. split_and!; done.
        * destruct Hinv. split; simpl; auto. split; [apply next_mod|]. split; [rewrite num_S; unfold mul; by rewrite Eu|].
          rewrite emitted_S, Elog. unfold both. by rewrite Eu.
    - exists n. split; [|lia]. destruct (lst s (ei s)) eqn:El; destruct Hinv; split; simpl; auto. destruct Hem as (? & ? & ?). auto.
    - destruct Hem as (Eu & n' & -> & -> & Eei & Eix & Elog). exists (S n'). split; [|lia]. rewrite Eix.
      rewrite small.
      2:{ pose proof (i_n _ _ Hinv). pose proof (num_lt n' ltac:(lia)). lia. }
      destruct Hinv. split; simpl; auto. split; [by rewrite Eei, next_mod|]. split.
      + rewrite num_S. unfold mul. rewrite Eu. lia.
      + rewrite Elog, emitted_S, <- app_assoc. unfold both. rewrite Eu. simpl. do 3 f_equal. unfold twin, pack. simpl. f_equal.
        replace (N.land (N.lor ADD (N.shiftl (num n') 2 mod w64)) EVENT_TYPE_MASK) with ADD; [done|].
        unfold ADD. rewrite N.lor_0_l. symmetry. change EVENT_TYPE_MASK with (N.ones 2). rewrite N.land_ones.
        rewrite N.shiftl_mul_pow2. unfold w64. change (2 ^ 64) with (2 ^ 2 * 2 ^ 62). rewrite (N.mul_comm (num n')).
        rewrite N.mul_mod_distr_l by done. rewrite N.mul_comm. by apply N.mod_mul.
    - exists n. split; [done|lia].
  Qed.

  Lemma inv_run s sched n : inv s n -> exists n', inv (lrun prop_of set_ts set_raw o nf m s sched) n'.
  Proof.
    revert s n. induction sched as [|[i|] sched IH]; intros s n H; simpl; [eauto| |].
    - destruct (Nat.ltb_spec i m); [|eauto]. eapply IH. by apply inv_lstep.
    - destruct (inv_estep s n H) as (n' & H' & _). by eapply IH.
  Qed.
  Lemma inv_init lines : loose lines wss -> inv (load_init lines) 0.
  Proof.
    intros H. split; simpl; auto; try done.
    - intros i. lia.
    - lia.
    - rewrite Nat.mod_0_l by lia. unfold num. split; [done|]. split; [lia|done].
  Qed.

  (** What the emitter hands on, seen through EventType and EventIdx. *)
  Lemma view_pack n e : n < 2 ^ 62 -> view (pack ADD n e) = Sev ADD n (tsrc e) (tdst e) (tprop e).
  Proof.
    intros H. unfold view, pack, event_type, event_idx, ADD. simpl. rewrite N.lor_0_l.
    assert (Hs : N.shiftl n 2 mod w64 = n * 2 ^ 2).
    { rewrite N.shiftl_mul_pow2. apply N.mod_small. unfold w64. change (2 ^ 64) with (2 ^ 62 * 2 ^ 2). apply N.mul_lt_mono_pos_r; [done|lia]. }
    rewrite Hs. change EVENT_TYPE_MASK with (N.ones 2). rewrite N.land_ones, N.mod_mul by done.
    unfold EVENT_TYPE_BITS. rewrite N.shiftr_div_pow2, N.div_mul by done. done.
  Qed.
  Lemma view_both j : (j < length wss)%nat ->
    map view (both j) = events_of prop_of set_ts set_raw o nf (N.of_nat j) (ws_at j).
  Proof.
    intros Hj. pose proof (num_lt j ltac:(lia)) as Hn. unfold both, events_of. simpl. unfold first. rewrite view_pack by lia. unfold raw. simpl.
    destruct (ids o (ws_at j)) as [a b] eqn:Ei. simpl. unfold num, mul in *. destruct (undirected o) eqn:Eu; simpl.
    - unfold twin. rewrite view_pack by (unfold num, mul; rewrite Eu; lia). simpl. unfold num, mul. rewrite Eu, Ei. simpl.
      by destruct (N.of_nat j).
    - unfold num, mul. by destruct (N.of_nat j).
  Qed.
  Lemma stream_app k l1 l2 : stream_from prop_of set_ts set_raw o nf k (l1 ++ l2) =
    stream_from prop_of set_ts set_raw o nf k l1 ++ stream_from prop_of set_ts set_raw o nf (k + N.of_nat (length l1)) l2.
  Proof.
    revert k. induction l1 as [|w l1 IH]; intros k; [simpl; by rewrite N.add_0_r|]. cbn [app stream_from length]. rewrite IH, <- app_assoc.
    replace (k + 1 + N.of_nat (length l1)) with (k + N.of_nat (S (length l1))) by lia. done.
  Qed.
  Lemma view_emitted n : (n <= length wss)%nat -> map view (emitted n) = stream prop_of set_ts set_raw o nf (take n (filled m wss)).
  Proof.
    unfold stream. induction n as [|n IH]; intros H; [done|]. rewrite emitted_S, map_app, IH, view_both by lia.
    assert (Ew : filled m wss !! n = Some (ws_at n)).
    { unfold filled. rewrite list_lookup_fmap, seq_at by lia. done. }
    rewrite (take_S_r _ _ _ Ew), stream_app, take_length_le by (unfold filled; rewrite map_length, seq_length; lia). simpl. by rewrite app_nil_r.
  Qed.

  (** Once the emitter has stopped and its queue holds nothing, everything was handed on. *)
  Lemma done_all s n : inv s n -> em s = EDone -> eq s (ei s) = [] -> n = length wss.
  Proof.
    intros Hinv Ed Eq. pose proof (i_em _ _ Hinv) as H. rewrite Ed in H. destruct H as (Hc & Eei & _). rewrite Eei in *.
    apply (i_closed _ _ Hinv) in Hc. pose proof (i_reads _ _ Hinv (n mod m)) as Hr. rewrite Hc in Hr.
    pose proof (i_n _ _ Hinv). pose proof (i_cnt _ _ Hinv (n mod m)) as Hcn.
    assert (Hall : drop (cnt s (n mod m)) wss = []) by (by inversion Hr).
    assert (Hge : (length wss <= cnt s (n mod m))%nat).
    { apply (f_equal length) in Hall. rewrite drop_length in Hall. simpl in Hall. lia. }
    rewrite (i_eq _ _ Hinv) in Eq. destruct (Nat.eq_dec n (length wss)) as [|Hne]; [done|]. exfalso.
    rewrite seq_cons in Eq by lia. simpl in Eq. assert (mine (n mod m) n = true) as Em by (by apply mine_spec). by rewrite Em in Eq.
  Qed.
End proofs.
