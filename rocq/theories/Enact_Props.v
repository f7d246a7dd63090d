(** C24-C27, C29, C53, C54: what EnactTopologyEvents does to the out-edge lists. *)
From Verif Require Import Base Load_Spec Enact_Spec Enact_Model Enact_Vertex Enact_Group Enact_Proofs Enact_Window Enact_Range.
Open Scope N_scope.

(** The places of the distinct sources make up the whole batch. *)
Lemma places_from_shift i s ss : places_from i s ss = map (fun k => (i + k)%nat) (places_from 0 s ss).
Proof.
  assert (G : forall j, places_from (i + j) s ss = map (fun k => (i + k)%nat) (places_from j s ss)).
  { induction ss as [|x ss IH]; intros j; simpl; [done|]. replace (S (i + j)) with (i + S j)%nat by lia. destruct (x =? s); simpl; by rewrite IH. }
  rewrite <- G. by rewrite Nat.add_0_r.
Qed.
Lemma places_perm ss : forall seen i, (forall s, In s seen -> ~ In s ss) -> Permutation (concat (map (fun s => places_from i s ss) (firsts seen ss))) (seq i (length ss)).
Proof.
  assert (G : forall (F : list N) i x ss, List.NoDup F -> In x F -> Permutation (concat (map (fun s => places_from i s (x :: ss)) F)) (i :: concat (map (fun s => places_from (S i) s ss) F))).
  { induction F as [|f F IH]; intros i x ss' Hn Hx; [done|]. inversion_clear Hn as [|? ? N1 N2]. cbn [map concat places_from]. destruct (N.eqb_spec x f) as [E|E].
    - subst f. simpl. apply perm_skip. apply Permutation_app_head. clear - N1. induction F as [|f F IH]; [done|]. simpl.
      destruct (N.eqb_spec x f) as [-> |_]; [simpl in N1; tauto|]. apply Permutation_app_head, IH. simpl in N1. tauto.
    - destruct Hx as [-> |Hx]; [done|]. rewrite (IH i x ss' N2 Hx). by rewrite Permutation_middle. }
  assert (K : forall ss seen, (forall s, In s seen -> ~ In s ss) -> firsts seen ss = firsts [] ss).
  { intros ss'. assert (M : forall seen1 seen2, (forall s, In s ss' -> In s seen1 <-> In s seen2) -> firsts seen1 ss' = firsts seen2 ss').
    { induction ss' as [|x ss' IH]; intros s1 s2 H; [done|]. simpl.
      assert (existsb (N.eqb x) s1 = existsb (N.eqb x) s2) as ->.
      { destruct (existsb (N.eqb x) s1) eqn:E1; destruct (existsb (N.eqb x) s2) eqn:E2; try done.
        - apply existsb_in in E1. apply existsb_not in E2. apply H in E1; [done|by left].
        - apply existsb_in in E2. apply existsb_not in E1. apply H in E2; [done|by left]. }
      destruct (existsb (N.eqb x) s2).
      - apply IH. intros s Hs. apply H. by right.
      - f_equal. apply IH. intros s Hs. simpl. rewrite (H s) by (by right). done. }
    intros seen H. apply M. intros s Hs. split; [intros H1; by destruct (H s H1)|intros []]. }
  intros seen i H. rewrite K by done. clear H seen.
  revert i. enough (L : forall ss i F, List.NoDup F -> (forall s, In s ss -> In s F) -> Permutation (concat (map (fun s => places_from i s ss) F)) (seq i (length ss))).
  { intros i. apply L; [apply firsts_nodup|]. intros s Hs. apply firsts_in. split; [done|]. intros []. }
  clear ss K. induction ss as [|x ss IH]; intros i F HF Hin.
  - simpl. clear. induction F; done.
  - rewrite (G F i x ss HF (Hin x (or_introl eq_refl))). simpl. apply perm_skip. apply IH; [done|]. intros s Hs. apply Hin. by right.
Qed.

Section props.
  Context {P : Type} (get_ts get_end : P -> N) (set_ts set_end : N -> P -> P).
  Notation edge := (edge P). Notation ev := (ev P). Notation gt := (gt P).
  Notation enact := (enact get_ts get_end set_ts set_end).
  Notation history := (history get_ts get_end set_ts set_end).
  Notation ts_of := (ts_of get_ts).
  Notation wf := (wf get_ts set_ts).

  (** C24.  The first look through a batch makes one group per source, in order of first
      appearance, listing the places of that source's events in increasing order; the groups
      together list every place once; and through the buffer they denote the events of the
      source in their order of arrival. *)
  Theorem C24_groups : forall d (evs : list ev) (g : gt), clean g -> small evs g ->
    let ss := map esrc evs in
    exists g' uc, gather d 0 evs (Gt (pending g) (unique g) (pbuff g) (put_batch evs (tbuff g)) (outs g) (expired g)) 0 = Some (g', uc) /\
      uc = N.of_nat (length (firsts [] ss)) /\
      (forall j s, firsts [] ss !! j = Some s -> exists ps, pbuff g' !! j = Some (s :: ps) /\ ps = map N.of_nat (places s ss) /\
         mapM (nget (tbuff g')) ps = Some (List.filter (fun e => esrc e =? s) evs)) /\
      (forall j l, (length (firsts [] ss) <= j)%nat -> pbuff g' !! j = Some l -> l = []).
  Proof.
    intros d evs g Hc [Hw1 Hw2] ss. set (g1 := Gt (pending g) (unique g) (pbuff g) (put_batch evs (tbuff g)) (outs g) (expired g)).
    assert (Hc1 : clean g1) by exact Hc.
    destruct (gather_grp d evs 0 [] g1 0 (clean_grp _ Hc1)) as (g2 & uc & H1 & H2 & H3 & H4 & H5 & H6); [simpl; exact Hw1|].
    exists g2, uc. split; [done|]. simpl in H2. destruct H2 as [G1 G2 G3 G4 G5 G6]. unfold sources in *. rewrite placed_fst in *. fold ss in G1, G2, G3, G4, G5, G6.
    split; [done|]. split.
    - intros j s Hj. exists (of_src s (placed 0 evs)). split; [by apply G3|]. split.
      + assert (X : forall i es, i + N.of_nat (length es) <= w32 -> of_src s (placed i es) = map N.of_nat (places_from (N.to_nat i) s (map esrc (es : list ev)))).
        { clear. intros i es. revert i. induction es as [|e es IH]; intros i Hi; [done|]. simpl in Hi. unfold of_src. simpl. rewrite N.mod_small by lia.
          specialize (IH (i + 1)). unfold of_src in IH. replace (N.to_nat (i + 1)) with (S (N.to_nat i)) in IH by lia.
          destruct (esrc e =? s); simpl; rewrite IH by lia; [f_equal; lia|done]. }
        unfold places. rewrite X by (simpl; exact Hw2). done.
      + apply mapM_some. rewrite H4. apply placed_of; [|by simpl].
        intros k e Hk. unfold g1, put_batch. cbn [tbuff]. simpl. rewrite lookup_app_l; [done|]. by eapply lookup_lt_Some.
    - intros j l Hj. apply G4. by apply lookup_ge_None.
  Qed.
  Theorem C24_every_event_once : forall ss : list N, Permutation (concat (map (fun s => places s ss) (firsts [] ss))) (seq 0 (length ss)) /\ List.NoDup (firsts [] ss).
  Proof. intros ss. split; [apply places_perm; by intros s []|apply firsts_nodup]. Qed.
  (** The premise holds at the start and again after every batch. *)
  Theorem C24_clean_kept : forall o other evs (g : gt) sel, time_range o = false -> del_on_expire o = 0 -> clean g -> small evs g -> kinds evs ->
    (forall s, wf (by_ts o) (outs g s ++ added s evs)) ->
    forall g' sel' adds dels log, enact o other evs g sel = Some (g', sel', adds, dels, log) -> clean g'.
  Proof. intros o other evs g sel H1 H2 H3 H4 H5 H6 g' sel' adds dels log H. pose proof (enact_plain get_ts get_end set_ts set_end o other evs g sel H1 H2 H3 H4 H5 H6) as HE. rewrite H in HE. apply HE. Qed.
  Theorem C24_clean_start : forall (buff : list ev) slots, clean (gt0 buff slots).
  Proof. intros buff slots. split; [intros s; simpl; lia|]. simpl. apply List.Forall_forall. intros l Hl. by apply repeat_spec in Hl. Qed.

  (** C25.  A stream of additions, cut into batches in any way and whatever the options (expiry
      aside): no panic, and every list is extended by the vertex's additions in stream order. *)
  Lemma rounds_adds o other fuel l sel cs log adds dels : Forall (fun c : ev => etype c = ADD) cs -> adds < w32 -> (length cs < fuel)%nat ->
    exists log', rounds get_ts get_end set_ts set_end fuel o other l sel cs log adds dels = Some (l ++ map eedge cs, sel, log', (adds + N.of_nat (length cs)) mod w32, dels).
  Proof.
    intros H Ha Hf. destruct fuel as [|fuel]; [lia|]. destruct cs as [|c cs]; [eexists; simpl; rewrite app_nil_r, N.add_0_r, N.mod_small by done; done|].
    cbn [rounds]. assert (E : forall cs l, Forall (fun c : ev => etype c = ADD) cs -> add_run l cs = (l ++ map eedge cs, [])).
    { clear. induction cs as [|c cs IH]; intros l H; simpl; [by rewrite app_nil_r|]. apply Forall_cons_iff in H as [-> H]. simpl. rewrite IH by done. by rewrite <- app_assoc. }
    rewrite E by done. eexists. rewrite app_length, map_length. replace (length l + length (c :: cs) - length l)%nat with (length (c :: cs)) by lia. done.
  Qed.
  Lemma enact_adds o other evs (g : gt) sel : del_on_expire o = 0 -> clean g -> small evs g -> Forall (fun e => etype e = ADD) evs ->
    exists g' sel' adds dels log, enact o other evs g sel = Some (g', sel', adds, dels, log) /\ clean g' /\ unique g' <= unique g + N.of_nat (length evs) /\
      forall s, outs g' s = outs g s ++ map eedge (events_of s evs).
  Proof.
    intros Hex Hc [Hw1 Hw2] Hk.
    pose proof (enact_ok get_ts get_end set_ts set_end o other evs g sel
      (fun s x => exists lg, x = Some (outs g s ++ map eedge (events_of s evs), lg)) (fun s => length (events_of s evs)) (fun s => 0%nat) Hex Hc Hw1 Hw2) as H.
    match type of H with ?A -> _ => assert (X : A); [|specialize (H X); clear X] end.
    { intros s oth sl adds dels Hs Ha Hd.
      destruct (rounds_adds o oth (S (length (events_of s evs))) (outs g s) sl (events_of s evs) [] adds dels) as (lg & ->); [|done|lia|].
      - rewrite List.Forall_forall in *. intros x Hx. apply filter_In in Hx as [Hx _]. auto.
      - split; [by eexists|]. split; [done|]. simpl. by rewrite N.add_0_r, N.mod_small. }
    destruct (enact o other evs g sel) as [[[[[g' sel'] adds'] dels'] log']|]; [|by destruct H as (s & _ & lg & H)].
    destruct H as (H1 & H2 & H3 & H4 & H5 & H6 & H7). eexists _, _, _, _, _. split; [done|]. split; [done|]. split; [done|]. intros s.
    destruct (in_dec N.eq_dec s (map esrc evs)) as [Hin|Hin]; [destruct (H4 s Hin) as (lg & E); by injection E|].
    destruct (H5 s Hin) as [-> _]. rewrite (events_none s evs Hin). simpl. by rewrite app_nil_r.
  Qed.
  Theorem C25_additions_append : forall o bs (g : gt) sel c, del_on_expire o = 0 -> clean g ->
    Forall (fun b => N.of_nat (length (fst b)) <= w32) bs -> unique g + N.of_nat (length (stream bs)) < w64 -> Forall (fun e => etype e = ADD) (stream bs) ->
    exists g' sel' c', history o bs g sel c = Some (g', sel', c') /\
      forall s, outs g' s = outs g s ++ map eedge (List.filter (fun e => esrc e =? s) (stream bs)).
  Proof.
    intros o bs g sel c Hex. revert g sel c. induction bs as [|[evs other] bs IH]; intros g sel c Hc Hb Hu Hk.
    - eexists _, _, _. split; [done|]. intros s. simpl. by rewrite app_nil_r.
    - apply Forall_cons_iff in Hb as [Hb1 Hb]. simpl in Hb1.
      assert (Hst : stream ((evs, other) :: bs) = evs ++ stream bs) by done. rewrite Hst in *. rewrite app_length in Hu. apply Forall_app in Hk as [Hk1 Hk2].
      destruct (enact_adds o other evs g sel Hex Hc) as (g1 & sel1 & a1 & d1 & lg1 & E1 & E2 & E3 & E4); [split; [lia|done]|done|].
      cbn [Enact_Model.history]. rewrite E1.
      destruct (IH g1 sel1 (count_batch c a1 d1) E2 Hb) as (g' & sel' & c' & I1 & I2); [lia|done|].
      exists g', sel', c'. split; [done|]. intros s. rewrite I2, E4. unfold events_of. by rewrite List.filter_app, map_app, app_assoc.
  Qed.
  Theorem C25_batching_is_irrelevant : forall o1 o2 bs1 bs2 (g : gt) sel1 sel2 c1 c2, del_on_expire o1 = 0 -> del_on_expire o2 = 0 -> clean g ->
    stream bs1 = stream bs2 -> Forall (fun b => N.of_nat (length (fst b)) <= w32) (bs1 ++ bs2) -> unique g + N.of_nat (length (stream bs1)) < w64 ->
    Forall (fun e => etype e = ADD) (stream bs1) ->
    exists g1 g2 x1 x2 y1 y2, history o1 bs1 g sel1 c1 = Some (g1, x1, y1) /\ history o2 bs2 g sel2 c2 = Some (g2, x2, y2) /\ forall s, outs g1 s = outs g2 s.
  Proof.
    intros o1 o2 bs1 bs2 g sel1 sel2 c1 c2 He1 He2 Hc Hs Hb Hu Hk. apply Forall_app in Hb as [Hb1 Hb2].
    destruct (C25_additions_append o1 bs1 g sel1 c1 He1 Hc Hb1 Hu Hk) as (g1 & x1 & y1 & A1 & A2).
    rewrite Hs in Hu, Hk. destruct (C25_additions_append o2 bs2 g sel2 c2 He2 Hc Hb2 Hu Hk) as (g2 & x2 & y2 & B1 & B2).
    exists g1, g2, x1, x2, y1, y2. split; [done|]. split; [done|]. intros s. by rewrite A2, B2, Hs.
  Qed.
  (** A vertex whose events are additions, in a batch that may delete edges of other vertices. *)
  Theorem C25_in_mixed_batch : forall o other evs (g : gt) sel g' sel' adds dels log s, time_range o = false -> del_on_expire o = 0 -> clean g -> small evs g -> kinds evs ->
    (forall s, wf (by_ts o) (outs g s ++ added s evs)) -> enact o other evs g sel = Some (g', sel', adds, dels, log) ->
    Forall (fun e => etype e = ADD) (List.filter (fun e => esrc e =? s) evs) ->
    outs g' s = outs g s ++ map eedge (List.filter (fun e => esrc e =? s) evs).
  Proof.
    intros o other evs g sel g' sel' adds dels log s H1 H2 H3 H4 H5 H6 H Hs. pose proof (enact_plain get_ts get_end set_ts set_end o other evs g sel H1 H2 H3 H4 H5 H6) as HE.
    rewrite H in HE. destruct HE as (_ & _ & _ & HV & _). destruct (HV s) as ((r & F1 & _ & F3) & _). destruct (adds_fifo evs s (outs g s) Hs) as [A1 A2].
    rewrite (F3 A2). rewrite A1 in F1. injection F1 as <-. unfold added, events_of. destruct (adds_only _ Hs) as (-> & _). done.
  Qed.

  (** C26.  Deletions; [changes s evs] are the changes of vertex [s] in the batch. *)
  Section batch.
    Context (o : opt) (other : N -> nat -> bool) (evs : list ev) (g : gt) (sel : bool).
    Hypothesis (no_range : time_range o = false) (no_expiry : del_on_expire o = 0) (Hclean : clean g) (Hsmall : small evs g) (Hkinds : kinds evs)
      (Hwf : forall s, wf (by_ts o) (outs g s ++ added s evs)).
    Definition after (r : option (gt * bool * N * N * list (N * call P))) : option gt := match r with Some (g', _, _, _, _) => Some g' | None => None end.
    (** A batch panics exactly when for some vertex an edge is to be deleted that is not there. *)
    Theorem C26_panics_iff : enact o other evs g sel = None <-> exists s, fifo didx (outs g s) (changes s evs) = None.
    Proof.
      pose proof (enact_plain get_ts get_end set_ts set_end o other evs g sel no_range no_expiry Hclean Hsmall Hkinds Hwf) as HE.
      destruct (enact o other evs g sel) as [[[[[g' sel'] adds'] dels'] log']|]; [|done]. split; [done|]. intros (s & Hs).
      destruct HE as (_ & _ & _ & HV & _). destruct (HV s) as ((r & F1 & _) & _). congruence.
    Qed.
    (** Whatever the batch: per destination the right number of edges is left, what is left is
        in the old order, and no edge has appeared from elsewhere. *)
    Theorem C26_counts_and_order : forall g', after (enact o other evs g sel) = Some g' -> forall s,
      sublist (outs g' s) (outs g s ++ added s evs) /\
      exists r, fifo didx (outs g s) (changes s evs) = Some r /\ forall d, count_to didx d (outs g' s) = count_to didx d r.
    Proof.
      pose proof (enact_plain get_ts get_end set_ts set_end o other evs g sel no_range no_expiry Hclean Hsmall Hkinds Hwf) as HE.
      destruct (enact o other evs g sel) as [[[[[g1 sel'] adds'] dels'] log']|]; [|done]. intros g' [= <-] s. 
      destruct HE as (_ & _ & _ & HV & _). destruct (HV s) as ((r & F1 & F2 & _) & S & _). split; [done|]. by exists r.
    Qed.
    (** Orderly deletions are FIFO. *)
    Theorem C26_orderly_fifo : forall g', after (enact o other evs g sel) = Some g' -> forall s,
      orderly didx (outs g s) (changes s evs) -> fifo didx (outs g s) (changes s evs) = Some (outs g' s).
    Proof.
      pose proof (enact_plain get_ts get_end set_ts set_end o other evs g sel no_range no_expiry Hclean Hsmall Hkinds Hwf) as HE.
      destruct (enact o other evs g sel) as [[[[[g1 sel'] adds'] dels'] log']|]; [|done]. intros g' [= <-] s Ho. 
      destruct HE as (_ & _ & _ & HV & _). destruct (HV s) as ((r & F1 & _ & F3) & _). by rewrite (F3 Ho).
    Qed.
    (** Three ways of being orderly: no two consecutive deletions; no parallel edges; deletions
        always of the oldest edge. *)
    Theorem C26_single_deletions : forall g', after (enact o other evs g sel) = Some g' -> forall s,
      spaced (changes s evs) -> fifo didx (outs g s) (changes s evs) = Some (outs g' s).
    Proof. intros g' Hg s Hs. apply C26_orderly_fifo; [done|]. by apply spaced_orderly. Qed.
    Theorem C26_no_parallel_edges : forall g', after (enact o other evs g sel) = Some g' -> forall s,
      no_parallel didx (outs g s) (changes s evs) -> fifo didx (outs g s) (changes s evs) = Some (outs g' s).
    Proof.
      intros g' Hg s Hs. apply C26_orderly_fifo; [done|]. apply no_parallel_from; [done| |done]. by apply (Hs [] (changes s evs) (outs g s)).
    Qed.
    Theorem C26_oldest_first : (forall s, oldest_first didx (outs g s) (changes s evs)) ->
      exists g', after (enact o other evs g sel) = Some g' /\ forall s, fifo didx (outs g s) (changes s evs) = Some (outs g' s).
    Proof.
      intros Ho. assert (G : forall s, orderly didx (outs g s) (changes s evs) /\ exists r, fifo didx (outs g s) (changes s evs) = Some r).
      { intros s. apply (oldest_from didx (changes s evs) (outs g s) 0); [done|lia|apply Ho]. }
      destruct (after (enact o other evs g sel)) as [g'|] eqn:E.
      - exists g'. split; [done|]. intros s. apply C26_orderly_fifo; [done|]. apply G.
      - assert (enact o other evs g sel = None) as HN by (destruct (enact o other evs g sel) as [[[[[? ?] ?] ?] ?]|]; done).
        apply C26_panics_iff in HN as (s & Hs). destruct (G s) as [_ (r & Hr)]. congruence.
    Qed.
    (** C54.  The calls into the algorithm, vertex by vertex: each addition call is given the
        list as it then is and the index at which the new edges start; each deletion call the
        deleted edges, in list order, and the list without them; nothing else changes the list,
        and after the last call it is what is stored. *)
    Theorem C54_calls_tell_the_changes : forall g' sel' adds dels log, enact o other evs g sel = Some (g', sel', adds, dels, log) -> forall s,
      reported (outs g s) (map (fun c => match c with OnAdd k l => Added k l | OnDel gone l => Deleted gone l end) (map snd (List.filter (fun x => fst x =? s) log))) (outs g' s).
    Proof.
      intros g' sel' adds dels log H s. pose proof (enact_plain get_ts get_end set_ts set_end o other evs g sel no_range no_expiry Hclean Hsmall Hkinds Hwf) as HE.
      rewrite H in HE. destruct HE as (_ & _ & _ & HV & _). destruct (HV s) as (_ & _ & _ & R). exact R.
    Qed.
  End batch.

  (** C27.  Accounting over a whole history from the empty graph; [S] is any list of distinct
      vertices containing all sources. *)
  Lemma tot_two f1 f2 S : tot (fun s => (f1 s + f2 s)%nat) S = (tot f1 S + tot f2 S)%nat.
  Proof. induction S as [|s S IH]; simpl; lia. Qed.
  Theorem C27_accounting : forall o bs buff slots sel g' sel' c', time_range o = false -> del_on_expire o = 0 ->
    Forall (fun b => N.of_nat (length (fst b)) <= w32) bs -> N.of_nat (length (stream bs)) + 1 < w64 -> kinds (stream bs) ->
    (forall s, wf (by_ts o) (added s (stream bs))) ->
    history o bs (gt0 buff slots) sel (Counters 0 0 0) = Some (g', sel', c') ->
    num_adds c' = N.of_nat (num_add (stream bs)) mod 2 ^ 32 /\ num_dels c' = N.of_nat (num_del (stream bs)) mod 2 ^ 32 /\
    forall S, List.NoDup S -> (forall e, In e (stream bs) -> In (esrc e) S) ->
      let stored := tot (fun s => length (outs g' s)) S in
      (stored + num_del (stream bs) = num_add (stream bs))%nat /\ num_edges c' = N.of_nat stored mod 2 ^ 32 /\
      (N.of_nat stored < 2 ^ 32 -> num_edges c' = N.of_nat stored).
  Proof.
    intros o bs buff slots sel g' sel' c' Htr Hex Hb Hu Hk Hwf H.
    pose proof (history_plain get_ts get_end set_ts set_end o bs Htr Hex (gt0 buff slots) sel (Counters 0 0 0) (C24_clean_start buff slots) Hb) as HH.
    match type of HH with ?A -> _ => assert (X : A) by (simpl; lia); specialize (HH X Hk Hwf); clear X end. rewrite H in HH.
    destruct HH as (H1 & H2 & H3 & H4 & H5). split; [rewrite H3 by done; done|]. split; [rewrite H4 by done; done|]. intros S Hn HS stored.
    assert (E : (stored + num_del (stream bs) = num_add (stream bs))%nat).
    { pose proof (tot_events (fun e => etype e =? DEL) S (stream bs) Hn HS) as T1. pose proof (tot_events (fun e => etype e =? ADD) S (stream bs) Hn HS) as T2.
      unfold stored, num_del, num_add. rewrite <- T1, <- T2, <- tot_two. apply tot_ext. intros s _. destruct (H2 s) as (_ & _ & L).
      unfold num_del, added, adds_of in L. rewrite map_length in L. simpl in L. exact L. }
    split; [exact E|]. destruct (H5 ltac:(done)) as [H6 H7].
    assert (E2 : num_edges c' = N.of_nat stored mod 2 ^ 32).
    { change (2 ^ 32) with w32. rewrite <- (N.mod_small (num_edges c') w32) by done. apply (cancel_mod w32 _ _ (N.of_nat (num_del (stream bs)))); [done|].
      rewrite H6. simpl. f_equal. rewrite <- E. lia. }
    split; [exact E2|]. intros Hlt. rewrite E2. by apply N.mod_small.
  Qed.

  (** C29.  Sliding window, additions with non-decreasing timestamps, from the empty graph: after
      any number of non-empty batches every list consists of the vertex's additions still in the
      window at the time of the last event, in order; the queue of future deletions is, in
      order, that of all edges alive; and NumEdges is their number. *)
  Theorem C29_window : forall o bs buff slots sel, ts_laws get_ts set_ts -> time_range o = false -> 0 < del_on_expire o -> let w := del_on_expire o in
    rising get_ts (stream bs) -> fit get_ts w (stream bs) -> room get_ts w 0 [] bs -> 1 + N.of_nat (2 * length (stream bs)) < w64 ->
    exists g' sel' c', history o bs (gt0 buff slots) sel (Counters 0 0 0) = Some (g', sel', c') /\ let now := final_time get_ts 0 bs in
      (forall s, outs g' s = in_window w now s (map (fun e => (esrc e, ts_of e, eedge e)) (stream bs))) /\
      map (fun x => (fst x, didx (eedge (snd x)), ts_of (snd x))) (expired g') =
        map (fun e => (esrc e, didx (eedge e), ts_of e + w)) (List.filter (fun e => now <? ts_of e + w) (stream bs)) /\
      num_edges c' = N.of_nat (length (List.filter (fun e => now <? ts_of e + w) (stream bs))) mod 2 ^ 32.
  Proof.
    intros o bs buff slots sel Hl Htr Hex w Hri Hfit Hroom Hu.
    destruct (history_window get_ts get_end set_ts set_end Hl o bs Htr Hex [] 0 (gt0 buff slots) sel (Counters 0 0 0) Hri Hfit) as (g' & sel' & c' & H1 & _ & H3 & H4 & H5); try done.
    { intros; lia. }
    { apply C24_clean_start. }
    exists g', sel', c'. split; [done|]. set (now := final_time get_ts 0 bs) in *. cbn zeta. split; [|split].
    - intros s. rewrite H4. unfold in_window, events_of, alive. simpl. fold w. clear. induction (stream bs) as [|e l IH]; [done|]. simpl.
      destruct (now <? ts_of e + w); simpl; [|rewrite andb_false_r; exact IH]. rewrite andb_true_r. destruct (esrc e =? s); simpl; by rewrite IH.
    - rewrite H3. simpl. unfold alive. fold w. rewrite map_map. apply map_ext. intros e. simpl. f_equal. destruct Hl as (L1 & _). unfold Enact_Model.ts_of. simpl. apply L1.
    - exact H5.
  Qed.

  (** With deletions in the batch the code panics whenever the batch begins with an addition and
      the queue of future deletions is shorter than the batch, as in a first batch. *)
  Theorem C29_mixed_batch_panics : forall o other a evs (g : gt) sel, 0 < del_on_expire o -> clean g -> small (a :: evs) g -> etype a = ADD ->
    (length (expired g) + num_add (a :: evs) < length (a :: evs))%nat -> enact o other (a :: evs) g sel = None.
  Proof.
    intros o other a evs g sel Hd Hc [Hw1 Hw2] Ha Hlt. unfold enact.
    set (g1 := Gt (pending g) (unique g) (pbuff g) (put_batch (a :: evs) (tbuff g)) (outs g) (expired g)). assert (Hc1 : clean g1) by exact Hc.
    destruct (gather_grp (del_on_expire o) (a :: evs) 0 [] g1 0 (clean_grp _ Hc1)) as (g2 & uc & H1 & _ & _ & _ & _ & H6); [cbn [unique g1]; cbn [length Nat.add] in *; exact Hw1|].
    rewrite H1. apply N.ltb_lt in Hd as Hd'. rewrite Hd' in *. unfold inject_expired. destruct (list.last (a :: evs)) as [e0|]; [|done].
    assert (Hlen : (length (expired g2) < length (a :: evs))%nat).
    { rewrite H6, app_length. unfold adds_in. rewrite map_length. exact Hlt. }
    cbn [stamp]. rewrite Ha. cbn [negb N.eqb].
    assert (nget (expired g2) ((N.of_nat (length (expired g2)) + w64 - N.of_nat (length (a :: evs)) + 0) mod w64) = None) as ->; [|done].
    unfold nget. apply lookup_ge_None. rewrite N.mod_small by lia. lia.
  Qed.

  (** C53.  TimeRange: edges are kept and given an end time.  Per vertex the stored list is what
      [ending] makes of the stream, however it was cut into batches; a panic means that for some
      vertex no suitable edge was there to be ended. *)
  Theorem C53_time_range_refines : forall o bs buff slots sel, end_law get_end set_end -> time_range o = true -> del_on_expire o = 0 ->
    Forall (fun b => N.of_nat (length (fst b)) <= w32) bs -> 1 + N.of_nat (length (stream bs)) < w64 -> kinds (stream bs) -> timed get_end (stream bs) ->
    let spec s := ending didx (fun e => get_ts (prop e)) (fun e => negb (get_end (prop e) =? 0)) (fun t e => Edge (didx e) (pos e) (set_end t (prop e))) []
      (map (fun c => if etype c =? ADD then TAppend (eedge c) else TEnd (didx (eedge c)) (get_ts (prop (eedge c))) (get_end (prop (eedge c)))) (List.filter (fun e => esrc e =? s) (stream bs))) in
    match history o bs (gt0 buff slots) sel (Counters 0 0 0) with
    | None => exists s, spec s = None
    | Some (g', _, c') => forall s, spec s = Some (outs g' s)
    end.
  Proof.
    intros o bs buff slots sel Hl Htr Hex Hb Hu Hk Ht spec.
    pose proof (history_range get_ts get_end set_ts set_end Hl o bs Htr Hex (gt0 buff slots) sel (Counters 0 0 0) (C24_clean_start buff slots) Hb Hu Hk Ht) as HH.
    destruct (history o bs (gt0 buff slots) sel (Counters 0 0 0)) as [[[g' sel'] c']|]; [|exact HH]. destruct HH as [HH _]. exact HH.
  Qed.
  (** Consequently: no edge is ever removed or reordered, an ended edge never changes again, and
      for every destination the edges not yet ended are the additions minus the deletions. *)
  Theorem C53_accounting : forall o bs buff slots sel g' sel' c', end_law get_end set_end -> time_range o = true -> del_on_expire o = 0 ->
    Forall (fun b => N.of_nat (length (fst b)) <= w32) bs -> 1 + N.of_nat (length (stream bs)) < w64 -> kinds (stream bs) -> timed get_end (stream bs) ->
    history o bs (gt0 buff slots) sel (Counters 0 0 0) = Some (g', sel', c') ->
    forall s, map didx (outs g' s) = map didx (added s (stream bs)) /\
      forall d, let un l := length (List.filter (fun e => (didx e =? d) && (get_end (prop e) =? 0)) l) in
        (un (outs g' s) + length (List.filter (fun e => (etype e =? DEL)%N && (didx (eedge e) =? d)%N) (events_of s (stream bs))) = un (added s (stream bs)))%nat.
  Proof.
    intros o bs buff slots sel g' sel' c' Hl Htr Hex Hb Hu Hk Ht H s.
    pose proof (history_range get_ts get_end set_ts set_end Hl o bs Htr Hex (gt0 buff slots) sel (Counters 0 0 0) (C24_clean_start buff slots) Hb Hu Hk Ht) as HH.
    rewrite H in HH. destruct HH as [HH _]. specialize (HH s).
    destruct (ending_facts get_ts get_end set_ts set_end Hl (events_of s (stream bs)) (kinds_of s _ Hk) (timed_of get_end s _ Ht) _ _ HH) as (F1 & F2 & _).
    split; [exact F1|]. intros d un. specialize (F2 d). unfold opens, open_to, ended in F2. simpl in F2.
    assert (X : forall l : list edge, length (List.filter (fun e => (didx e =? d) && negb (negb (get_end (prop e) =? 0))) l) = un l).
    { intros l. unfold un. f_equal. apply filter_ext. intros e. by rewrite negb_involutive. }
    rewrite !X in F2. exact F2.
  Qed.
  (** Enacting more events never changes an edge that has ended. *)
  Theorem C53_ended_edges_are_final : forall o other evs (g : gt) sel g' sel' adds dels log, end_law get_end set_end -> time_range o = true -> del_on_expire o = 0 -> clean g -> small evs g -> kinds evs -> timed get_end evs ->
    enact o other evs g sel = Some (g', sel', adds, dels, log) ->
    forall s i e, outs g s !! i = Some e ->
      (get_end (prop e) <> 0 -> outs g' s !! i = Some e) /\
      (get_end (prop e) = 0 -> outs g' s !! i = Some e \/ exists t, t <> 0 /\ outs g' s !! i = Some (Edge (didx e) (pos e) (set_end t (prop e)))).
  Proof.
    intros o other evs g sel g' sel' adds dels log Hl Htr Hex Hc Hsm Hk Ht H s i e He.
    pose proof (enact_range get_ts get_end set_ts set_end Hl o other evs g sel Htr Hex Hc Hsm Hk Ht) as HH. rewrite H in HH.
    destruct HH as (_ & _ & HH & _). specialize (HH s).
    destruct (ending_facts get_ts get_end set_ts set_end Hl (events_of s evs) (kinds_of s _ Hk) (timed_of get_end s _ Ht) _ _ HH) as (_ & _ & F3 & F4).
    split.
    - intros Hn. apply (F3 i e He). unfold ended. by apply negb_true_iff, N.eqb_neq.
    - intros Hz. destruct (F4 i e He) as (e' & E1 & [-> |(_ & t & E2 & ->)]); [by left|right; by exists t].
  Qed.
End props.
(** One deletion ends exactly one edge to its destination that had not ended: the first such of
    all, or the first started at the given time. *)
Theorem C53_one_deletion : forall {A} (to start : A -> N) ended finish d s t l l', end_one to start ended finish d s t l = Some l' ->
  exists i a, l !! i = Some a /\ to a = d /\ ended a = false /\ l' = <[i := finish t a]> l /\
    ((forall j b, (j < i)%nat -> l !! j = Some b -> ended b = true) \/
     (start a = s /\ forall j b, (j < i)%nat -> l !! j = Some b -> to b = d -> start b = s -> ended b = true)).
Proof. intros. by apply end_one_spec. Qed.
Print Assumptions C24_groups.
Print Assumptions C24_every_event_once.
Print Assumptions C24_clean_kept.
Print Assumptions C24_clean_start.
Print Assumptions C25_additions_append.
Print Assumptions C25_batching_is_irrelevant.
Print Assumptions C25_in_mixed_batch.
Print Assumptions C26_panics_iff.
Print Assumptions C26_counts_and_order.
Print Assumptions C26_orderly_fifo.
Print Assumptions C26_single_deletions.
Print Assumptions C26_no_parallel_edges.
Print Assumptions C26_oldest_first.
Print Assumptions C54_calls_tell_the_changes.
Print Assumptions C27_accounting.
Print Assumptions C29_window.
Print Assumptions C29_mixed_batch_panics.
Print Assumptions C53_time_range_refines.
Print Assumptions C53_accounting.
Print Assumptions C53_ended_edges_are_final.
Print Assumptions C53_one_deletion.

(** ** Concrete cases: properties are (timestamp, end time) *)
Definition tset (t : N) (p : N * N) : N * N := (t, snd p).
Definition eset (t : N) (p : N * N) : N * N := (fst p, t).
Definition E (d p t : N) : edge (N * N) := Edge d p (t, 0).
Definition add (s d p t : N) : ev (N * N) := Ev ADD 0 s (E d p t).
Definition del (s d t : N) : ev (N * N) := Ev DEL 0 s (E d 0 t).
Definition alone : N -> nat -> bool := fun _ _ => false.
Definition run (o : opt) (bs : list (list (ev (N * N)))) :=
  history fst snd tset eset o (map (fun b => (b, alone)) bs) (gt0 [] 4) false (Counters 0 0 0).
Definition edges_of (v : N) (r : option (gt (N * N) * bool * counters)) : option (list (N * N) * N) :=
  match r with Some (g, _, c) => Some (map (fun e => (didx e, pos e)) (outs g v), num_edges c) | None => None end.
Definition plain : opt := Opt false false 0.

(** The fast path breaks FIFO: edges a, x, a', y; deleting x, y, a in one batch leaves the older
    of the two edges to a, in three batches the newer. *)
Definition axay : list (ev (N * N)) := [add 7 1 0 0; add 7 2 1 0; add 7 1 2 0; add 7 3 3 0].
Theorem C26_fifo_refuted : exists evs1 evs2 : list (ev (N * N)),
  edges_of 7 (run plain [evs1; evs2]) = Some ([(1, 0)], 1) /\
  option_map (map (fun e => (didx e, pos e))) (fifo didx [] (changes 7 (evs1 ++ evs2))) = Some [(1, 2)].
Proof. exists axay, [del 7 2 0; del 7 3 0; del 7 1 0]. vm_compute. done. Qed.
Theorem C26_batching_matters_refuted : exists bs1 bs2 : list (list (ev (N * N))), concat bs1 = concat bs2 /\
  edges_of 7 (run plain bs1) = Some ([(1, 0)], 1) /\ edges_of 7 (run plain bs2) = Some ([(1, 2)], 1).
Proof. exists [axay; [del 7 2 0; del 7 3 0; del 7 1 0]], [axay; [del 7 2 0]; [del 7 3 0]; [del 7 1 0]]. vm_compute. done. Qed.
(** Expiry with deletions in the stream: the copy of the addition is looked up at the wrong
    place.  Here edge 8 -> 5 of time 1 is deleted at time 13, where its copy in the queue, instead
    of that of the new edge of time 12, is put off to time 21; so at time 21 the new edge goes,
    although it is in the window. *)
Theorem C29_deletions_refuted :
  edges_of 8 (run (Opt false false 10) [[add 8 5 0 1]; [add 8 5 1 12; del 8 5 13]; [add 9 1 2 21]]) = Some ([], 1) /\
  in_window 10 21 8 [(8, 12, (5, 1)); (9, 21, (1, 2))] = [(5, 1)].
Proof. vm_compute. done. Qed.
Print Assumptions C26_fifo_refuted.
Print Assumptions C26_batching_matters_refuted.
Print Assumptions C29_deletions_refuted.

Example C24_case : forall g uc, gather 0 0 [add 7 1 0 0; add 8 2 1 0; del 7 1 0; add 9 1 2 0; add 7 3 3 0] (gt0 [] 2) 0 = Some (g, uc) ->
  pbuff g = [[7; 0; 2; 4]; [8; 1]; [9; 3]] /\ uc = 3 /\ (pending g 7, pending g 8, pending g 9, pending g 5) = (1, 2, 3, 0).
Proof. intros g uc. vm_compute. intros [= <- <-]. auto. Qed.
Example C25_case : edges_of 7 (run plain [[add 7 1 0 0; add 8 2 1 0]; [add 7 2 2 0]; [add 7 1 3 0; add 7 5 4 0]]) = Some ([(1, 0); (2, 2); (1, 3); (5, 4)], 5) /\
  edges_of 7 (run plain [[add 7 1 0 0; add 8 2 1 0; add 7 2 2 0; add 7 1 3 0]; [add 7 5 4 0]]) = Some ([(1, 0); (2, 2); (1, 3); (5, 4)], 5).
Proof. vm_compute. auto. Qed.
Example C26_case : edges_of 7 (run plain [axay; [del 7 1 0; add 7 9 4 0; del 7 3 0]]) = Some ([(2, 1); (1, 2); (9, 4)], 3) /\
  run plain [axay; [del 7 4 0]] = None /\
  edges_of 7 (run (Opt false true 0) [[add 7 1 0 1; add 7 2 1 2; add 7 1 2 3; add 7 3 3 4]; [del 7 3 0; del 7 1 0]]) = Some ([(2, 1); (1, 2)], 2).
Proof. vm_compute. auto. Qed.
(** Two batches: six additions, three deletions; three edges are stored. *)
Example C27_case : match run plain [axay; [del 7 1 0; add 8 1 4 0; add 7 9 5 0; del 7 3 0; del 8 1 0]] with
  | Some (g, _, c) => (num_adds c, num_dels c, num_edges c) = (6, 3, 3) /\ tot (fun s => length (outs g s)) [7; 8] = 3%nat
  | None => False end.
Proof. vm_compute. auto. Qed.
Example C29_case : edges_of 7 (run (Opt false false 10) [[add 7 1 0 1; add 7 2 1 4; add 8 7 2 5]; [add 7 3 3 11]; [add 8 1 4 15]]) = Some ([(3, 3)], 2) /\
  in_window 10 15 7 [(7, 1, 1); (7, 4, 2); (8, 5, 7); (7, 11, 3); (8, 15, 1)] = [3].
Proof. vm_compute. auto. Qed.
Example C53_case : match run (Opt true false 0) [[add 7 1 0 1; add 7 2 1 2; add 7 1 2 3]; [Ev DEL 0 7 (Edge 1 0 (3, 9)); Ev DEL 0 7 (Edge 1 0 (3, 11))]] with
  | Some (g, _, c) => map (fun e => (didx e, pos e, prop e)) (outs g 7) = [(1, 0, (1, 9)); (2, 1, (2, 0)); (1, 2, (3, 11))] /\ num_edges c = 1
  | None => False end.
Proof. vm_compute. auto. Qed.
(** A deletion without an end time leaves the edge as it was, though it is counted. *)
Theorem C53_zero_end_time_refuted : match run (Opt true false 0) [[add 7 1 0 1]; [del 7 1 1]] with
  | Some (g, _, c) => map (fun e => (didx e, pos e, prop e)) (outs g 7) = [(1, 0, (1, 0))] /\ num_edges c = 0
  | None => False end.
Proof. vm_compute. auto. Qed.
Print Assumptions C53_zero_end_time_refuted.
Example C54_case : match enact fst snd tset eset plain alone (axay ++ [del 7 2 0; del 7 1 0; add 7 9 4 0]) (gt0 [] 1) false with
  | Some (_, _, _, _, log) => map (fun x => match snd x with OnAdd k l => (true, [N.of_nat k], map didx l) | OnDel gone l => (false, map didx gone, map didx l) end) log
      = [(true, [0], [1; 2; 1; 3]); (false, [1; 2], [1; 3]); (true, [2], [1; 3; 9])]
  | None => False end.
Proof. vm_compute. auto. Qed.
