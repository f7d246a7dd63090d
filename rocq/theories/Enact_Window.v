(** Proofs about sliding-window expiry. *)
From Verif Require Import Base Load_Spec Enact_Spec Enact_Model Enact_Vertex Enact_Group Enact_Proofs.
Open Scope N_scope.

Lemma cancel_mod w x y d : w <> 0 -> (x + d) mod w = (y + d) mod w -> x mod w = y mod w.
Proof.
  intros Hw H. pose proof (N.mod_lt d w Hw). set (e := w - d mod w).
  assert (forall z, (z + d + e) mod w = z mod w) as E.
  { intros z. rewrite (N.div_mod d w Hw) at 1. unfold e.
    replace (z + (w * (d / w) + d mod w) + (w - d mod w)) with (z + (d / w + 1) * w) by lia. by apply N.mod_add. }
  rewrite <- (E x), <- (E y). rewrite <- (N.add_mod_idemp_l (x + d)), H by done. by rewrite N.add_mod_idemp_l.
Qed.

Section proofs.
  Context {P : Type} (get_ts get_end : P -> N) (set_ts set_end : N -> P -> P).
  Notation edge := (edge P). Notation ev := (ev P). Notation gt := (gt P).
  Notation enact := (enact get_ts get_end set_ts set_end).
  Notation ts_of := (ts_of get_ts).
  Notation stamp := (stamp get_ts set_ts set_end).
  Notation inject := (inject get_ts set_ts).
  Hypothesis laws : ts_laws get_ts set_ts.

  Definition gone (e : ev) : ev := with_type e DEL.
  Definition later (w : N) (e : ev) : N * ev := (esrc e, with_prop (gone e) (set_ts (ts_of e + w) (prop (eedge e)))).
  Definition raw (e : ev) : N * ev := (esrc e, e).
  Definition rising (l : list ev) : Prop := StronglySorted (fun a b => ts_of a <= ts_of b) l.
  Definition alive (w now : N) (l : list ev) : list ev := List.filter (fun e => now <? ts_of e + w) l.
  Definition dead (w now : N) (l : list ev) : list ev := List.filter (fun e => negb (now <? ts_of e + w)) l.

  Lemma dead_alive w now l : rising l -> l = dead w now l ++ alive w now l.
  Proof.
    unfold dead, alive. induction 1 as [|e l H1 IH H2]; [done|]. simpl. destruct (N.ltb_spec now (ts_of e + w)) as [L|L]; simpl; [|by rewrite <- IH].
    rewrite filter_no, filter_all; [done| |]; apply List.Forall_forall; intros x Hx; rewrite List.Forall_forall in H2; specialize (H2 x Hx);
      destruct (N.ltb_spec now (ts_of x + w)); try done; lia.
  Qed.
  Lemma alive_twice w n0 n1 l : n0 <= n1 -> alive w n1 (alive w n0 l) = alive w n1 l.
  Proof.
    intros H. unfold alive. induction l as [|e l IH]; [done|]. simpl. destruct (N.ltb_spec n0 (ts_of e + w)) as [L|L]; simpl.
    - by rewrite IH.
    - rewrite IH. destruct (N.ltb_spec n1 (ts_of e + w)); [lia|done].
  Qed.

  (** ** Stamping the batch's additions *)
  Lemma stamp_ok w latest count evs : forall X done, Forall (fun e => ts_of e <= latest /\ ts_of e + w < w64 /\ etype e = ADD) evs ->
    count = N.of_nat (length done + length evs) -> N.of_nat (length X) + count < w64 ->
    stamp false w latest count (N.of_nat (length done)) evs (X ++ map (later w) done ++ map raw evs) = Some (X ++ map (later w) (done ++ evs)).
  Proof.
    induction evs as [|e evs IH]; intros X done He Hc Hw.
    - simpl. by rewrite !app_nil_r.
    - apply Forall_cons_iff in He as [(H1 & H2 & H3) He]. cbn [Enact_Model.stamp]. rewrite H3. cbn [negb N.eqb].
      change (ADD =? ADD) with true. cbn [negb].
      assert (Hj : (N.of_nat (length (X ++ map (later w) done ++ map raw (e :: evs))) + w64 - count + N.of_nat (length done)) mod w64 = N.of_nat (length X + length done)).
      { rewrite !app_length, !map_length. simpl length. simpl length in Hc.
        replace (N.of_nat (length X + (length done + S (length evs))) + w64 - count + N.of_nat (length done)) with (N.of_nat (length X + length done) + 1 * w64) by lia.
        rewrite N.mod_add by done. apply N.mod_small. lia. }
      rewrite Hj. unfold nget, nset. rewrite Nat2N.id.
      assert (Hl : (X ++ map (later w) done ++ map raw (e :: evs)) !! (length X + length done)%nat = Some (raw e)).
      { rewrite app_assoc. replace (length X + length done)%nat with (length (X ++ map (later w) done)) by (by rewrite app_length, map_length). simpl map. by rewrite list_lookup_middle. }
      rewrite Hl. unfold raw at 1. simpl. destruct (N.ltb_spec latest (ts_of e)) as [L|L]; [lia|].
      rewrite N.mod_small by lia.
      assert (Hi : <[(length X + length done)%nat := (esrc e, with_prop (with_type e DEL) (set_ts (ts_of e + w) (prop (eedge e))))]> (X ++ map (later w) done ++ raw e :: map raw evs) =
        X ++ map (later w) (done ++ [e]) ++ map raw evs).
      { rewrite app_assoc. replace (length X + length done)%nat with (length (X ++ map (later w) done) + 0)%nat by (rewrite app_length, map_length; lia).
        rewrite insert_app_r. simpl. rewrite map_app, <- !app_assoc. done. }
      rewrite Hi. replace (N.of_nat (length done) + 1) with (N.of_nat (length (done ++ [e]))) by (rewrite app_length; simpl; lia).
      rewrite (IH X (done ++ [e])); [by rewrite <- app_assoc|done| |done]. rewrite app_length. simpl. simpl in Hc. lia.
  Qed.

  (** ** Injecting what has expired *)
  Lemma later_ts w e : ts_of (snd (later w e)) = ts_of e + w.
  Proof. destruct laws as (L1 & _). unfold later, ts_of. simpl. apply L1. Qed.
  Lemma later_back w e : ts_of e + w < w64 ->
    with_prop (snd (later w e)) (set_ts ((ts_of (snd (later w e)) + w64 - w) mod w64) (prop (eedge (snd (later w e))))) = gone e.
  Proof.
    intros H. rewrite later_ts. replace (ts_of e + w + w64 - w) with (ts_of e + 1 * w64) by lia. rewrite N.mod_add by done. rewrite N.mod_small by lia.
    destruct laws as (_ & L2 & L3). unfold later, with_prop, gone, with_type. simpl. rewrite L2. unfold Enact_Model.ts_of. rewrite L3. destruct e as [? ? ? []]. done.
  Qed.
  Lemma inject_ok w latest count Q1 : forall k Q2 T g uc, Forall (fun e => ts_of e + w <= latest /\ ts_of e + w < w64) Q1 ->
    Forall (fun e => latest < ts_of e + w) Q2 -> grp T g uc -> unique g + N.of_nat (length T + length Q1) < w64 -> (N.to_nat (count + k) <= length (tbuff g))%nat ->
    exists g' uc', inject w latest count k (map (later w) (Q1 ++ Q2)) g uc = Some (g', uc') /\ grp (T ++ placed (count + k) (map gone Q1)) g' uc' /\
      unique g' = unique g /\ outs g' = outs g /\ expired g' = map (later w) Q2 /\
      (forall i, (i < N.to_nat (count + k))%nat -> tbuff g' !! i = tbuff g !! i) /\
      (forall j e, Q1 !! j = Some e -> tbuff g' !! (N.to_nat (count + k) + j)%nat = Some (gone e)).
  Proof.
    induction Q1 as [|e Q1 IH]; intros k Q2 T g uc H1 H2 HG Hu Ht.
    - simpl. assert (inject w latest count k (map (later w) Q2) g uc = Some (with_expired g (map (later w) Q2), uc)) as ->.
      { destruct Q2 as [|e Q2]; [done|]. simpl. apply Forall_cons_iff in H2 as [H2 _].
        pose proof (later_ts w e) as Hts. unfold later in Hts. cbn [snd] in Hts. rewrite Hts. destruct (N.ltb_spec latest (ts_of e + w)) as [L|L]; [done|lia]. }
      eexists _, _. split; [done|]. rewrite app_nil_r. split; [by apply with_expired_grp|]. split_and!; try done.
    - apply Forall_cons_iff in H1 as [[H1 H1'] H1r]. cbn [map List.app Enact_Model.inject]. destruct (later w e) as [s0 f] eqn:El.
      assert (Es : s0 = esrc e) by (unfold later in El; by injection El). assert (Ef : f = snd (later w e)) by (by rewrite El). subst s0.
      assert (Et : etype f = DEL) by (by rewrite Ef). rewrite Et. change (DEL =? DEL) with true. cbn [negb].
      rewrite Ef, (later_ts w e). destruct (N.ltb_spec latest (ts_of e + w)) as [L|L]; [lia|].
      rewrite <- (later_ts w e), (later_back w e H1').
      destruct (insert_grp T g uc (esrc e) ((count + k) mod w32) HG) as (g1 & uc1 & I1 & I2 & I3 & I4 & I5 & I6); [simpl in Hu; lia|].
      rewrite I1.
      set (tb := if N.of_nat (length (tbuff g1)) <=? count + k then tbuff g1 ++ [gone e] else nset (tbuff g1) (count + k) (gone e)).
      assert (Htb : (N.to_nat (count + (k + 1)) <= length tb)%nat /\ (forall i, (i < N.to_nat (count + k))%nat -> tb !! i = tbuff g !! i) /\ tb !! N.to_nat (count + k) = Some (gone e)).
      { unfold tb. rewrite I4. destruct (N.leb_spec (N.of_nat (length (tbuff g))) (count + k)) as [L1|L1].
        - assert (El' : N.to_nat (count + k) = length (tbuff g)) by lia. rewrite app_length, El'. simpl. split; [lia|].
          split; [intros i Hi; by rewrite lookup_app_l|by rewrite list_lookup_middle].
        - unfold nset. rewrite insert_length. split; [lia|]. split; [intros i Hi; rewrite list_lookup_insert_ne by lia; done|]. rewrite list_lookup_insert by lia. done. }
      clearbody tb. destruct Htb as (T1 & T2 & T3).
      set (g2 := Gt (pending g1) (unique g1) (pbuff g1) tb (outs g1) (expired g1)).
      destruct (IH (k + 1) Q2 (T ++ [(esrc e, (count + k) mod w32)]) g2 uc1 H1r H2) as (g' & uc' & J1 & J2 & J3 & J4 & J5 & J6 & J7).
      { destruct I2. by split. }
      { unfold g2. cbn [unique]. rewrite I3, app_length. simpl. simpl in Hu. lia. }
      { exact T1. }
      exists g', uc'. split; [exact J1|]. rewrite <- app_assoc in J2. simpl placed. replace (count + k + 1) with (count + (k + 1)) by lia. split; [exact J2|].
      rewrite J3, J4, J5. unfold g2. cbn [unique outs]. split; [done|]. split; [done|]. split; [done|]. split.
      + intros i Hi. rewrite J6 by lia. unfold g2. cbn [tbuff]. by apply T2.
      + intros [|j] e' Hj.
        * simpl in Hj. injection Hj as <-. rewrite Nat.add_0_r. rewrite J6 by lia. exact T3.
        * replace (N.to_nat (count + k) + S j)%nat with (N.to_nat (count + (k + 1)) + j)%nat by lia. by apply J7.
  Qed.

  (** ** A batch *)
  Lemma placed_app (e1 e2 : list ev) : forall i, placed i (e1 ++ e2) = placed i e1 ++ placed (i + N.of_nat (length e1)) e2.
  Proof.
    induction e1 as [|e e1 IH]; intros i; simpl; [by rewrite N.add_0_r|]. rewrite IH. do 2 f_equal. f_equal. lia.
  Qed.
  Lemma groups_plain o other evs g uc sel : time_range o = false -> grp (placed 0 evs) g uc -> small evs g -> kinds evs ->
    (forall j e, evs !! j = Some e -> tbuff g !! j = Some e) ->
    (forall s, wf get_ts set_ts (by_ts o) (outs g s ++ added s evs)) ->
    match over_vertices get_ts get_end set_ts set_end o other (N.to_nat uc) 0 (Gt (pending g) ((unique g + uc) mod w64) (pbuff g) (tbuff g) (outs g) (expired g)) sel 0 0 [] with
    | None => exists s, fifo didx (outs g s) (changes s evs) = None
    | Some (g', _, adds', dels', log') =>
        clean g' /\ unique g' <= unique g + N.of_nat (length evs) /\ expired g' = expired g /\
        (forall s, vertex_after (outs g s) evs s (outs g' s) (of_src s log')) /\
        adds' = N.of_nat (num_add evs) mod w32 /\ dels' = N.of_nat (num_del evs) mod w32
    end.
  Proof.
    intros Htr HG [Hw1 Hw2] Hk Htb Hwf.
    pose proof (placed_fst 0 evs) as Hfst.
    pose proof (over_groups get_ts get_end set_ts set_end o other (placed 0 evs) (fun s => events_of s evs)
      (fun s x => match x with None => fifo didx (outs g s) (changes s evs) = None | Some (l', lg) => vertex_after (outs g s) evs s l' lg end)
      (fun s => length (added s evs)) (fun s => num_del (events_of s evs)) g uc sel HG) as H.
    rewrite placed_length in H. specialize (H Hw1). unfold sources in H. rewrite !Hfst in H.
    match type of H with ?A -> _ => assert (X : A); [|specialize (H X); clear X] end.
    { intros s _. apply placed_of; [exact Htb|exact Hw2]. }
    match type of H with ?A -> _ => assert (X : A); [|specialize (H X); clear X] end.
    { intros s oth sl adds dels Hs Ha Hd.
      pose proof (rounds_ok get_ts get_end set_ts set_end o oth (S (length (events_of s evs))) Htr (events_of s evs) (outs g s) sl [] adds dels (le_n _) (kinds_of s evs Hk) (Hwf s) Ha Hd) as HR.
      destruct (rounds _ _ _ _ _ _ _ _ _) as [[[[[l' sel'] lg] adds'] dels']|]; [|exact HR].
      destruct HR as (R1 & R2 & R3 & R4 & R5 & lg' & -> & R6). unfold dels_of in R3, R5. rewrite kinds_dels in R3, R5 by (by apply kinds_of).
      split; [|split; [exact R4|exact R5]]. split; [exact R1|]. split; [exact R2|]. split; [exact R3|exact R6]. }
    destruct (over_vertices _ _ _ _ _ _ _ _ _ _ _ _ _) as [[[[[g' sel'] adds'] dels'] log']|].
    - destruct H as (H1 & H2 & H2' & H3 & H4 & H5 & H6 & H7). split; [done|]. split.
      { rewrite H2. pose proof (firsts_len (map esrc evs)) as Hl. rewrite map_length in Hl. lia. }
      split; [done|]. split; [|split].
      + intros s. destruct (in_dec N.eq_dec s (map esrc evs)) as [Hin|Hin]; [by apply H4|]. destruct (H5 s Hin) as [-> ->].
        unfold vertex_after, changes, added. rewrite (events_none s evs Hin). simpl. split; [by eexists|]. rewrite app_nil_r. done.
      + rewrite H6. f_equal. f_equal. unfold num_add, added, adds_of. rewrite <- (tot_events _ (firsts [] (map esrc evs)) evs (firsts_nodup _ _)).
        * apply tot_ext. intros s _. by rewrite map_length.
        * intros e He. apply firsts_in; split; [by apply in_map|by intros []].
      + rewrite H7. f_equal. f_equal. unfold num_del. rewrite <- (tot_events _ (firsts [] (map esrc evs)) evs (firsts_nodup _ _)); [done|].
        intros e He. apply firsts_in; split; [by apply in_map|by intros []].
    - destruct H as (s & _ & H). by exists s.
  Qed.

  Lemma rising_app l1 l2 : rising (l1 ++ l2) <-> rising l1 /\ rising l2 /\ forall a b, In a l1 -> In b l2 -> ts_of a <= ts_of b.
  Proof.
    unfold rising. induction l1 as [|e l1 IH]; simpl.
    - split; [intros H; split; [constructor|done]|tauto].
    - split.
      + intros H. apply StronglySorted_inv in H as [H1 H2]. apply IH in H1 as (I1 & I2 & I3). apply Forall_app in H2 as [H2 H3]. split; [by constructor|].
        split; [done|]. intros a b [<- |Ha] Hb; [|by apply I3]. rewrite List.Forall_forall in H3. by apply H3.
      + intros (H1 & H2 & H3). apply StronglySorted_inv in H1 as [H1 H4]. constructor; [apply IH; split; [done|]; split; [done|]; intros; apply H3; tauto|].
        apply Forall_app. split; [done|]. apply List.Forall_forall. intros x Hx. apply H3; [by left|done].
  Qed.
  Lemma rising_filter f l : rising l -> rising (List.filter f l).
  Proof.
    unfold rising. induction 1 as [|e l H1 IH H2]; simpl; [constructor|]. destruct (f e); [|done]. constructor; [done|].
    apply List.Forall_forall. intros x Hx. apply filter_In in Hx as [Hx _]. rewrite List.Forall_forall in H2. by apply H2.
  Qed.
  Lemma rising_last l e : rising (l ++ [e]) -> Forall (fun x => ts_of x <= ts_of e) (l ++ [e]).
  Proof.
    intros H. apply rising_app in H as (_ & _ & H). apply Forall_app. split; [|constructor; [lia|constructor]].
    apply List.Forall_forall. intros x Hx. apply H; [done|by left].
  Qed.
  Lemma key_sorted_edges l : rising l -> key_sorted (ts get_ts) (map eedge l).
  Proof.
    unfold rising, key_sorted. induction 1 as [|e l H1 IH H2]; simpl; [constructor|]. constructor; [done|].
    apply List.Forall_forall. intros x Hx. apply in_map_iff in Hx as (y & <- & Hy). rewrite List.Forall_forall in H2. by apply H2.
  Qed.
  Lemma added_all s (evs : list ev) : Forall (fun e => etype e = ADD) evs -> added s evs = map eedge (events_of s evs).
  Proof.
    intros H. unfold added. apply adds_only. apply List.Forall_forall. intros e He. apply filter_In in He as [He _]. rewrite List.Forall_forall in H. by apply H.
  Qed.
  Lemma added_gone s (l : list ev) : added s (map gone l) = [].
  Proof. unfold added, adds_of, events_of. induction l as [|e l IH]; [done|]. simpl. destruct (esrc e =? s); done. Qed.
  Lemma changes_gone s (l : list ev) : changes s (map gone l) = map (@Remove edge) (map didx (map eedge (events_of s l))).
  Proof. unfold changes, events_of. induction l as [|e l IH]; [done|]. simpl. destruct (esrc e =? s); simpl; by rewrite IH. Qed.
  Lemma changes_adds s (evs : list ev) : Forall (fun e => etype e = ADD) evs -> changes s evs = map (@Append _) (map eedge (events_of s evs)).
  Proof.
    intros H. unfold changes. apply adds_only. apply List.Forall_forall. intros e He. apply filter_In in He as [He _]. rewrite List.Forall_forall in H. by apply H.
  Qed.
  Lemma oldest_appends (a l : list edge) cs : oldest_first didx l (map (@Append _) a ++ cs) <-> oldest_first didx (l ++ a) cs.
  Proof. revert l. induction a as [|e a IH]; intros l; simpl; [by rewrite app_nil_r|]. rewrite IH. by rewrite <- app_assoc. Qed.
  Lemma oldest_removes (a l : list edge) : oldest_first didx (a ++ l) (map (@Remove _) (map didx a)) /\ fifo didx (a ++ l) (map (@Remove _) (map didx a)) = Some l.
  Proof. induction a as [|e a IH]; simpl; [done|]. rewrite N.eqb_refl. split; [|apply IH]. split; [done|apply IH]. Qed.

  Definition fit (w : N) (l : list ev) : Prop := Forall (fun e => etype e = ADD /\ ts_of e + w < 2 ^ 63 /\ umk (eedge e)) l.
  Lemma small_time x : x < 2 ^ 63 -> x < w64.
  Proof. unfold w64. change (2 ^ 64) with (2 ^ 63 + 2 ^ 63). generalize (2 ^ 63). lia. Qed.
  Lemma enact_window o other A evs n0 e0 g sel :
    time_range o = false -> 0 < del_on_expire o -> list.last evs = Some e0 -> let w := del_on_expire o in let now := ts_of e0 in
    rising (A ++ evs) -> fit w (A ++ evs) -> n0 <= now ->
    clean g -> expired g = map (later w) (alive w n0 A) -> (forall s, outs g s = map eedge (events_of s (alive w n0 A))) ->
    N.of_nat (length (alive w n0 A) + 2 * length evs) <= w32 -> unique g + N.of_nat (length (alive w n0 A) + 2 * length evs) < w64 ->
    exists g' sel' log', enact o other evs g sel = Some (g', sel', N.of_nat (length evs) mod w32, N.of_nat (length (dead w now (alive w n0 A ++ evs))) mod w32, log') /\
      clean g' /\ unique g' <= unique g + N.of_nat (length (dead w now (alive w n0 A ++ evs)) + length evs) /\
      expired g' = map (later w) (alive w now (A ++ evs)) /\ (forall s, outs g' s = map eedge (events_of s (alive w now (A ++ evs)))) /\
      (forall s, reported (outs g s) (map told (of_src s log')) (outs g' s)).
  Proof.
    intros Htr Hd Hlast w now Hri Hfit Hn0 Hc Hex Hout Hw1 Hw2.
    set (Q := alive w n0 A ++ evs). set (Q1 := dead w now Q). set (Q2 := alive w now Q).
    assert (HQ2 : Q2 = alive w now (A ++ evs)).
    { unfold Q2, Q, alive. rewrite !List.filter_app. f_equal. by apply alive_twice. }
    assert (HriQ : rising Q).
    { apply rising_app in Hri as (R1 & R2 & R3). apply rising_app. split; [by apply rising_filter|]. split; [done|].
      intros a b Ha Hb. apply R3; [|done]. by apply filter_In in Ha as [Ha _]. }
    assert (HQ : Q = Q1 ++ Q2) by (by apply dead_alive).
    assert (HfitQ : fit w Q).
    { unfold fit in *. apply Forall_app in Hfit as [F1 F2]. apply Forall_app. split; [|done]. rewrite List.Forall_forall in *. intros x Hx. apply F1. by apply filter_In in Hx as [Hx _]. }
    assert (Hq1 : (length Q1 + length Q2 = length (alive w n0 A) + length evs)%nat) by (rewrite <- !app_length; by rewrite <- HQ).
    assert (Hevs : exists pre, evs = pre ++ [e0]).
    { apply last_Some in Hlast as (pre & Hp). by exists pre. }
    assert (Hmax : Forall (fun e => ts_of e <= now) evs).
    { apply rising_app in Hri as (_ & R2 & _). destruct Hevs as (pre & ->). by apply rising_last. }
    assert (Hfe : Forall (fun e => etype e = ADD /\ ts_of e + w < 2 ^ 63 /\ umk (eedge e)) evs) by (unfold fit in Hfit; by apply Forall_app in Hfit as [_ F]).
    assert (Hadd : Forall (fun e : ev => etype e = ADD) evs) by (eapply List.Forall_impl; [|exact Hfe]; simpl; tauto).
    unfold Enact_Model.enact.
    set (g1 := Gt (pending g) (unique g) (pbuff g) (put_batch evs (tbuff g)) (outs g) (expired g)).
    assert (Hc1 : clean g1) by exact Hc.
    destruct (gather_grp (del_on_expire o) evs 0 [] g1 0 (clean_grp _ Hc1)) as (g2 & uc & H1 & H2 & H3 & H4 & H5 & H6); [simpl; lia|].
    rewrite H1. rewrite (proj2 (N.ltb_lt _ _) Hd) in *. rewrite Htr. unfold inject_expired. rewrite Hlast. fold w now.
    assert (Hraw : expired g2 = map (later w) (alive w n0 A) ++ map (later w) [] ++ map raw evs).
    { rewrite H6. unfold g1. cbn [expired]. rewrite Hex. simpl. f_equal. unfold adds_in, raw. rewrite filter_all; [done|].
      eapply List.Forall_impl; [|exact Hadd]. intros e He. by apply N.eqb_eq. }
    rewrite Hraw. change 0 with (N.of_nat (length (@nil ev))) at 1.
    rewrite stamp_ok; [| |by simpl|rewrite map_length; lia].
    2: { apply List.Forall_forall. intros e He. rewrite List.Forall_forall in Hmax, Hfe. destruct (Hfe e He) as (F1 & F2 & F3). split; [by apply Hmax|]. split; [by apply small_time|done]. }
    rewrite <- map_app. change (alive w n0 A ++ [] ++ evs) with Q. rewrite HQ.
    destruct (inject_ok w now (N.of_nat (length evs)) Q1 0 Q2 (placed 0 evs) (with_expired g2 (map (later w) (Q1 ++ Q2))) uc) as (g3 & uc3 & J1 & J2 & J3 & J4 & J5 & J6 & J7).
    { apply List.Forall_forall. intros e He. assert (HeQ : In e Q) by (rewrite HQ, in_app_iff; by left). apply filter_In in He as [_ He]. apply negb_true_iff, N.ltb_ge in He.
      split; [done|]. unfold fit in HfitQ. rewrite List.Forall_forall in HfitQ. apply small_time. by apply HfitQ. }
    { apply List.Forall_forall. intros e He. apply filter_In in He as [_ He]. by apply N.ltb_lt in He. }
    { apply with_expired_grp. exact H2. }
    { cbn [unique with_expired]. rewrite H3, placed_length. unfold g1. cbn [unique]. lia. }
    { cbn [tbuff with_expired]. rewrite H4. unfold g1, put_batch. cbn [tbuff]. rewrite app_length. lia. }
    rewrite J1. rewrite N.add_0_r in *.
    set (evs' := evs ++ map gone Q1).
    assert (HG : grp (placed 0 evs') g3 uc3).
    { unfold evs'. rewrite placed_app. simpl. exact J2. }
    assert (Hun : unique g3 = unique g) by (rewrite J3; cbn [unique with_expired]; by rewrite H3).
    assert (Houts : outs g3 = outs g) by (rewrite J4; cbn [outs with_expired]; by rewrite H5).
    assert (Hsm : small evs' g3).
    { unfold small, evs'. rewrite app_length, map_length, Hun. split; lia. }
    assert (Hk : kinds evs').
    { unfold kinds, evs'. apply Forall_app. split; [eapply List.Forall_impl; [|exact Hadd]; simpl; tauto|]. apply List.Forall_forall. intros x Hx. apply in_map_iff in Hx as (y & <- & _). by right. }
    assert (Htb : forall j e, evs' !! j = Some e -> tbuff g3 !! j = Some e).
    { intros j e Hj. unfold evs' in Hj. destruct (Nat.lt_ge_cases j (length evs)) as [L|L].
      - rewrite lookup_app_l in Hj by done. rewrite J6 by lia. cbn [tbuff with_expired]. rewrite H4. unfold g1, put_batch. cbn [tbuff]. by rewrite lookup_app_l.
      - rewrite lookup_app_r in Hj by done. rewrite list_lookup_fmap in Hj. destruct (Q1 !! (j - length evs)%nat) as [x|] eqn:Ex; [|done]. simpl in Hj. injection Hj as <-.
        pose proof (J7 _ _ Ex) as J8. by replace (N.to_nat (N.of_nat (length evs)) + (j - length evs))%nat with j in J8 by lia. }
    assert (Hwhole : forall s, outs g s ++ added s evs = map eedge (events_of s Q)).
    { intros s. rewrite Hout, added_all by done. unfold Q. by rewrite events_app, map_app. }
    assert (Hwf : forall s, wf get_ts set_ts (by_ts o) (outs g3 s ++ added s evs')).
    { intros s. rewrite Houts. unfold evs'. rewrite added_app, added_gone, app_nil_r, Hwhole.
      assert (Hin : forall x, In x (map eedge (events_of s Q)) -> exists y, In y Q /\ x = eedge y).
      { intros x Hx. apply in_map_iff in Hx as (y & <- & Hy). apply filter_In in Hy as [Hy _]. eauto. }
      unfold fit in HfitQ. rewrite List.Forall_forall in HfitQ. split.
      - apply List.Forall_forall. intros x Hx. destruct (Hin x Hx) as (y & Hy & ->). by apply HfitQ.
      - intros _. split; [exact laws|]. split; [by apply key_sorted_edges, rising_filter|].
        apply List.Forall_forall. intros x Hx. destruct (Hin x Hx) as (y & Hy & ->). destruct (HfitQ y Hy) as (_ & F & _). unfold ts. unfold Enact_Model.ts_of in F. lia. }
    pose proof (groups_plain o other evs' g3 uc3 sel Htr HG Hsm Hk Htb Hwf) as HR.
    assert (Hfin : forall s, oldest_first didx (outs g s) (changes s evs') /\ fifo didx (outs g s) (changes s evs') = Some (map eedge (events_of s Q2))).
    { intros s. unfold evs'. rewrite changes_app, changes_adds, changes_gone by done.
      pose proof (Hwhole s) as Hs. rewrite added_all in Hs by done. rewrite oldest_appends, fifo_app, fifo_appends, Hs, HQ, events_app, map_app.
      apply oldest_removes. }
    assert (Hnone : forall s, fifo didx (outs g3 s) (changes s evs') = None -> False).
    { intros s Hs. rewrite Houts in Hs. destruct (Hfin s) as [_ Hf]. congruence. }
    destruct (over_vertices _ _ _ _ _ _ _ _ _ _ _ _ _) as [[[[[g' sel'] adds'] dels'] log']|]; [|destruct HR as (s & Hs); by destruct (Hnone s)].
    destruct HR as (R1 & R2 & R3 & R4 & R5 & R6).
    assert (Hna : num_add evs' = length evs).
    { unfold num_add, evs'. rewrite List.filter_app, app_length. rewrite filter_all, filter_no; [simpl; lia| |].
      - apply List.Forall_forall. intros x Hx. apply in_map_iff in Hx as (y & <- & _). done.
      - eapply List.Forall_impl; [|exact Hadd]. intros e He. by apply N.eqb_eq. }
    assert (Hnd : num_del evs' = length Q1).
    { unfold num_del, evs'. rewrite List.filter_app, app_length. rewrite filter_no, filter_all, map_length; [simpl; lia| |].
      - apply List.Forall_forall. intros x Hx. apply in_map_iff in Hx as (y & <- & _). done.
      - eapply List.Forall_impl; [|exact Hadd]. intros e He. simpl in *. by rewrite He. }
    exists g', sel', log'. rewrite R5, R6, Hna, Hnd. split; [done|]. split; [done|]. split.
    { rewrite Hun in R2. unfold evs' in R2. rewrite app_length, map_length in R2. fold Q Q1. lia. }
    split; [by rewrite R3, J5, HQ2|].
    assert (Hv : forall s, outs g' s = map eedge (events_of s Q2)).
    { intros s. destruct (R4 s) as ((r & V1 & V2 & V3) & _). rewrite Houts in V1, V3. destruct (Hfin s) as [Ho Hf]. rewrite Hf in V1. injection V1 as <-. apply V3.
      destruct (oldest_from didx (changes s evs') (outs g s) 0 (outs g s)) as [K _]; [done|lia|done|exact K]. }
    split; [intros s; by rewrite Hv, HQ2|]. intros s. destruct (R4 s) as (_ & _ & _ & R). by rewrite Houts in R.
  Qed.

  (** ** Histories *)
  Notation history := (history get_ts get_end set_ts set_end).
  (** Every batch fits the 32-bit event numbers together with what is alive. *)
  Fixpoint room (w n0 : N) (A : list ev) (bs : list (list ev * (N -> nat -> bool))) : Prop :=
    match bs with
    | [] => True
    | (evs, _) :: bs =>
        match list.last evs with
        | None => False
        | Some e0 => N.of_nat (length (alive w n0 A) + 2 * length evs) <= w32 /\ room w (ts_of e0) (A ++ evs) bs
        end
    end.
  Fixpoint final_time (n0 : N) (bs : list (list ev * (N -> nat -> bool))) : N :=
    match bs with
    | [] => n0
    | (evs, _) :: bs => final_time (match list.last evs with Some e => ts_of e | None => n0 end) bs
    end.
  Lemma history_window o bs : time_range o = false -> 0 < del_on_expire o -> let w := del_on_expire o in forall A n0 g sel c,
    rising (A ++ stream bs) -> fit w (A ++ stream bs) -> (forall e, In e (stream bs) -> n0 <= ts_of e) -> room w n0 A bs ->
    clean g -> expired g = map (later w) (alive w n0 A) -> (forall s, outs g s = map eedge (events_of s (alive w n0 A))) ->
    unique g + N.of_nat (length (alive w n0 A) + 2 * length (stream bs)) < w64 ->
    num_edges c = N.of_nat (length (alive w n0 A)) mod w32 ->
    exists g' sel' c', history o bs g sel c = Some (g', sel', c') /\ let now := final_time n0 bs in
      clean g' /\ expired g' = map (later w) (alive w now (A ++ stream bs)) /\ (forall s, outs g' s = map eedge (events_of s (alive w now (A ++ stream bs)))) /\
      num_edges c' = N.of_nat (length (alive w now (A ++ stream bs))) mod w32.
  Proof.
    intros Htr Hd w. induction bs as [|[evs other] bs IH]; intros A n0 g sel c Hri Hfit Hn Hroom Hc Hex Hout Hu Hcnt.
    - simpl. unfold stream. simpl. rewrite app_nil_r. by eexists _, _, _.
    - simpl in Hroom. destruct (list.last evs) as [e0|] eqn:El; [|done]. destruct Hroom as [Hr1 Hr2].
      assert (Hst : stream ((evs, other) :: bs) = evs ++ stream bs) by done. rewrite Hst, app_assoc in *.
      assert (He0 : In e0 evs) by (apply last_Some in El as (pre & ->); rewrite in_app_iff; right; by left).
      assert (Hn0 : n0 <= ts_of e0) by (apply Hn; rewrite in_app_iff; by left).
      rewrite app_length in Hu.
      apply rising_app in Hri as (R1 & R2 & R3).
      destruct (enact_window o other A evs n0 e0 g sel Htr Hd El R1) as (g1 & sel1 & log1 & E1 & E2 & E3 & E4 & E5 & _); [by unfold fit in *; apply Forall_app in Hfit as [F _]|done|done|done|done|done|fold w; clear Hcnt; lia|].
      fold w in E1, E3, E4, E5. cbn [Enact_Model.history]. rewrite E1. cbn [final_time]. rewrite El.
      assert (Hlen : (length (dead w (ts_of e0) (alive w n0 A ++ evs)) + length (alive w (ts_of e0) (A ++ evs)) = length (alive w n0 A) + length evs)%nat).
      { assert (HriQ : rising (alive w n0 A ++ evs)).
        { apply rising_app in R1 as (S1 & S2 & S3). apply rising_app. split; [by apply rising_filter|]. split; [done|].
          intros a b Ha Hb. apply S3; [|done]. by apply filter_In in Ha as [Ha _]. }
        pose proof (f_equal length (dead_alive w (ts_of e0) _ HriQ)) as Hl. rewrite !app_length in Hl. rewrite Hl. f_equal.
        f_equal. unfold alive. rewrite !List.filter_app. f_equal. symmetry. by apply alive_twice. }
      apply IH; try done.
      + by apply rising_app.
      + intros e He. apply R3; [rewrite in_app_iff; by right|done].
      + clear Hcnt. lia.
      + unfold count_batch. cbn [num_edges]. rewrite Hcnt.
        pose proof (edges_sub w32 (N.of_nat (length (alive w n0 A)) mod w32) (N.of_nat (length evs)) (N.of_nat (length (dead w (ts_of e0) (alive w n0 A ++ evs)))) ltac:(done)) as Hs.
        revert Hs Hlen. generalize (length (dead w (ts_of e0) (alive w n0 A ++ evs))) (length (alive w (ts_of e0) (A ++ evs))) (length (alive w n0 A)) (length evs). clear.
        intros d a' a n. assert (Hw : w32 <> 0) by done. revert Hw. generalize w32. intros w Hw Hs Hl.
        rewrite (N.add_mod_idemp_l (N.of_nat a) (N.of_nat n)) in Hs by done.
        set (x := (N.of_nat a mod w + (N.of_nat n mod w + w - N.of_nat d mod w) mod w) mod w) in *.
        assert (Hx : x < w) by (by apply N.mod_lt).
        replace (N.of_nat a + N.of_nat n) with (N.of_nat a' + N.of_nat d) in Hs by lia.
        apply (cancel_mod w x (N.of_nat a') (N.of_nat d)) in Hs; [|done]. by rewrite (N.mod_small x) in Hs.
  Qed.
End proofs.
