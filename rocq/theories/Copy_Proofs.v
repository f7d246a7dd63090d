(** Proofs about the graph that CompareToOracle makes. *)
From Verif Require Import Base Copy_Spec Copy_Model.
Open Scope nat_scope.

Lemma sread_app_l {A} (s u : store A) a : a < length s -> (s ++ u) !! a = s !! a.
Proof. intros. by apply lookup_app_l. Qed.
Lemma swrite_ne {A} (s s' : store A) a i x b : swrite s a i x = Some s' -> a <> b -> s' !! b = s !! b.
Proof. unfold swrite. destruct (s !! a) as [l|] eqn:E; [|done]. destruct (Nat.ltb_spec i (length l)) as [_|_]; [|done]. intros [= <-] N. by apply list_lookup_insert_ne. Qed.
Lemma swrite_len {A} (s s' : store A) a i x : swrite s a i x = Some s' -> length s' = length s.
Proof. unfold swrite. destruct (s !! a) as [l|] eqn:E; [|done]. destruct (Nat.ltb_spec i (length l)) as [_|_]; [|done]. intros [= <-]. by rewrite insert_length. Qed.
Lemma swrite_read {A} (s s' : store A) a i x b j : swrite s a i x = Some s' -> sread s' b j = if decide (a = b /\ i = j) then Some x else sread s b j.
Proof.
  unfold swrite, sread. destruct (s !! a) as [l|] eqn:E; [|done]. destruct (Nat.ltb_spec i (length l)) as [L|_]; [|done]. intros [= <-].
  assert (La := lookup_lt_Some _ _ _ E).
  destruct (decide (a = b)) as [<-|N].
  - rewrite list_lookup_insert by done. destruct (decide (i = j)) as [<-|N].
    + rewrite decide_True by done. by rewrite list_lookup_insert.
    + rewrite decide_False by tauto. rewrite E. by apply list_lookup_insert_ne.
  - rewrite decide_False by tauto. by rewrite list_lookup_insert_ne.
Qed.
Lemma swrite_some {A} (s : store A) a i x b : s !! a = Some b -> i < length b -> exists s', swrite s a i x = Some s'.
Proof. intros E L. unfold swrite. rewrite E. destruct (Nat.ltb_spec i (length b)); [eauto|lia]. Qed.
(** Lengths of buckets are kept. *)
Lemma swrite_bucket {A} (s s' : store A) a i x c b : swrite s a i x = Some s' -> s !! c = Some b -> exists b', s' !! c = Some b' /\ length b' = length b.
Proof.
  intros W E. destruct (decide (a = c)) as [->|N]; [|exists b; split; [|done]; by rewrite (swrite_ne _ _ _ _ _ _ W)].
  unfold swrite in W. rewrite E in W. destruct (Nat.ltb_spec i (length b)) as [_|_]; [|done]. injection W as <-.
  exists (<[i:=x]> b). split; [apply list_lookup_insert, (lookup_lt_Some _ _ _ E)|by rewrite insert_length].
Qed.

Section proofs.
  Context {Ed Q M X Mp : Type} (B : nat) (HB : 0 < B) (q0 : Q) (m0 : M).
  Notation heap := (@heap Ed Q M X Mp).
  Notation gthr := (@gthr).

  (** Buckets. *)
  Lemma covers_read {A} (s : store A) bs n i : covers B s bs n -> i < n -> exists a b x, bs !! (i / B) = Some (Some a) /\ s !! a = Some b /\ length b = B /\ b !! (i mod B) = Some x.
  Proof using HB.
    intros [L F] Li. assert (i / B < length bs) as Lb by (apply Nat.div_lt_upper_bound; lia).
    destruct (lookup_lt_is_Some_2 bs (i / B) Lb) as [p Ep]. rewrite list.Forall_forall in F.
    destruct (F p) as (a & b & -> & Eb & Lbb); [by eapply elem_of_list_lookup_2|].
    destruct (lookup_lt_is_Some_2 b (i mod B)) as [x Ex]; [rewrite Lbb; apply Nat.mod_upper_bound; lia|]. eauto 8.
  Qed.
  Lemma covers_bread {A} (s : store A) bs n i : covers B s bs n -> i < n -> exists x, bread B s bs i = Some x.
  Proof using HB. intros C L. destruct (covers_read s bs n i C L) as (a & b & x & E & Eb & _ & Ex). exists x. unfold bread, sread. by rewrite E, Eb. Qed.
  Lemma covers_bwrite {A} (s : store A) bs n i x : covers B s bs n -> i < n -> exists s', bwrite B s bs i x = Some s'.
  Proof using HB.
    intros C L. destruct (covers_read s bs n i C L) as (a & b & y & E & Eb & Lb & _). unfold bwrite. rewrite E.
    apply (swrite_some s a (i mod B) x b Eb). rewrite Lb. apply Nat.mod_upper_bound. lia.
  Qed.
  Lemma covers_written {A} (s s' : store A) bs n cs i x : covers B s bs n -> bwrite B s cs i x = Some s' -> covers B s' bs n.
  Proof using HB.
    intros [L F] W. split; [done|]. unfold bwrite in W. destruct (cs !! (i / B)) as [[a|]|] eqn:E; [|done..].
    eapply list.Forall_impl; [exact F|]. intros p (c & b & -> & Eb & Lb). destruct (swrite_bucket _ _ _ _ _ c b W Eb) as (b' & E' & L'). exists c, b'. split; [done|]. split; [done|]. congruence.
  Qed.
  Lemma same_place i j : i / B = j / B -> i mod B = j mod B -> i = j.
  Proof using HB. intros D R. rewrite (Nat.div_mod i B), (Nat.div_mod j B) by lia. congruence. Qed.
  Lemma bwrite_same {A} (s s' : store A) bs i x j : NoDup bs -> bwrite B s bs i x = Some s' -> bread B s' bs j = if decide (i = j) then Some x else bread B s bs j.
  Proof using HB.
    intros ND W. unfold bwrite in W. destruct (bs !! (i / B)) as [[a|]|] eqn:E; [|done..]. unfold bread.
    destruct (bs !! (j / B)) as [[c|]|] eqn:Ec.
    - rewrite (swrite_read _ _ _ _ _ c (j mod B) W). destruct (decide (i = j)) as [<-|N].
      + rewrite decide_True; [done|]. split; [|done]. congruence.
      + rewrite decide_False; [done|]. intros [-> Em]. apply N. apply same_place; [|done]. by eapply NoDup_lookup.
    - rewrite decide_False; [done|]. intros ->. congruence.
    - rewrite decide_False; [done|]. intros ->. congruence.
  Qed.
  Lemma bwrite_other {A} (s s' : store A) bs cs i x j : (forall p, In (Some p) bs -> ~ In (Some p) cs) -> bwrite B s bs i x = Some s' -> bread B s' cs j = bread B s cs j.
  Proof using HB.
    intros D W. unfold bwrite in W. destruct (bs !! (i / B)) as [[a|]|] eqn:E; [|done..]. unfold bread.
    destruct (cs !! (j / B)) as [[c|]|] eqn:Ec; [|done..]. unfold sread. rewrite (swrite_ne _ _ _ _ _ c W); [done|].
    intros ->. apply (D c); apply elem_of_list_In; by eapply elem_of_list_lookup_2.
  Qed.
  Lemma bwrite_len {A} (s s' : store A) bs i x : bwrite B s bs i x = Some s' -> length s' = length s.
  Proof using HB. unfold bwrite. destruct (bs !! (i / B)) as [[a|]|]; [apply swrite_len|done..]. Qed.
  (** Writing into buckets from [n] on leaves the others as they are, and the other way round. *)
  Definition from (n : nat) (bs : list (option nat)) : Prop := Forall (fun p => exists a, p = Some a /\ n <= a) bs.
  Definition below (n : nat) (bs : list (option nat)) : Prop := Forall (fun p => exists a, p = Some a /\ a < n) bs.
  Lemma bwrite_from {A} (s s' : store A) bs i x n a : from n bs -> bwrite B s bs i x = Some s' -> a < n -> s' !! a = s !! a.
  Proof using HB.
    intros F W L. unfold bwrite in W. destruct (bs !! (i / B)) as [[c|]|] eqn:E; [|done..]. apply (swrite_ne _ _ _ _ _ _ W).
    apply elem_of_list_lookup_2 in E. unfold from in F. rewrite list.Forall_forall in F. destruct (F _ E) as (d & [= <-] & Ld). lia.
  Qed.
  Lemma apart n bs cs : from n bs -> below n cs -> forall p, In (Some p) bs -> ~ In (Some p) cs.
  Proof using HB.
    intros F G p I J. apply elem_of_list_In in I, J. unfold from, below in *. rewrite list.Forall_forall in F, G.
    destruct (F _ I) as (a & [= <-] & La). destruct (G _ J) as (c & [= <-] & Lc). lia.
  Qed.
  Lemma covers_below {A} (s : store A) bs n : covers B s bs n -> below (length s) bs.
  Proof using HB. intros [_ F]. eapply list.Forall_impl; [exact F|]. intros p (a & b & -> & E & _). exists a. split; [done|]. by eapply lookup_lt_Some. Qed.
  Lemma bread_ext {A} (s s' : store A) bs i : below (length s) bs -> (forall a, a < length s -> s' !! a = s !! a) -> bread B s' bs i = bread B s bs i.
  Proof using HB.
    intros F E. unfold bread. destruct (bs !! (i / B)) as [[c|]|] eqn:Ec; [|done..]. unfold sread. rewrite E; [done|].
    apply elem_of_list_lookup_2 in Ec. unfold below in F. rewrite list.Forall_forall in F. by destruct (F _ Ec) as (d & [= <-] & Ld).
  Qed.
  Lemma covers_ext {A} (s s' : store A) bs n : covers B s bs n -> (forall a, a < length s -> s' !! a = s !! a) -> covers B s' bs n.
  Proof using HB.
    intros [L F] E. split; [done|]. eapply list.Forall_impl; [exact F|]. intros p (a & b & -> & Eb & Lb). exists a, b. split; [done|]. split; [|done].
    rewrite E; [done|]. by eapply lookup_lt_Some.
  Qed.

  (** A heap that has what [h] has. *)
  Record ext (h h' : heap) : Prop := Ext {
    x_v : forall a, a < length (hv h) -> hv h' !! a = hv h !! a;
    x_p : forall a, a < length (hp h) -> hp h' !! a = hp h !! a;
    x_m : forall a, a < length (hm h) -> hm h' !! a = hm h !! a;
    x_e : he h' = he h; x_s : hs h' = hs h; x_map : hmap h' = hmap h;
    x_lv : length (hv h) <= length (hv h'); x_lp : length (hp h) <= length (hp h'); x_lm : length (hm h) <= length (hm h') }.
  Lemma ext_refl h : ext h h.
  Proof using HB. by constructor. Qed.
  Lemma ext_trans h1 h2 h3 : ext h1 h2 -> ext h2 h3 -> ext h1 h3.
  Proof using HB.
    intros [a b c d e f g i j] [a' b' c' d' e' f' g' i' j']. constructor; try congruence; try lia; intros x L.
    - rewrite a' by lia. by apply a. - rewrite b' by lia. by apply b. - rewrite c' by lia. by apply c.
  Qed.
  Lemma in_memory_ext h h' gt : in_memory B h gt -> ext h h' -> in_memory B h' gt.
  Proof using HB.
    intros ((b & Eb & Lb) & P & Mb & S) E. destruct E. split; [|split; [|split]].
    - exists b. split; [|done]. rewrite x_v0; [done|]. by eapply lookup_lt_Some.
    - by apply (covers_ext (hp h)). - by apply (covers_ext (hm h)). - by rewrite x_s0.
  Qed.
  (** What one sees of a graph does not change. *)
  Lemma look_ext h h' g : Forall (in_memory B h) g -> ext h h' -> same_seen (look B h' g) (look B h g).
  Proof using HB.
    intros F E. rewrite list.Forall_forall in F. split; [done|]. split.
    - intros t. cbn. destruct (g !! t) as [gt|] eqn:Eg; cbn; [|done]. by rewrite (x_map _ _ E).
    - intros t i. cbn. destruct (g !! t) as [gt|] eqn:Eg; cbn; [|done].
      destruct (F gt) as ((b & Eb & Lb) & P & Mb & S); [by eapply elem_of_list_lookup_2|]. destruct E. split; [|split; [|split]].
      + unfold sedges, sread. rewrite x_v0 by (by eapply lookup_lt_Some). by rewrite x_e0.
      + by rewrite x_s0.
      + apply bread_ext; [by eapply covers_below|done].
      + apply bread_ext; [by eapply covers_below|done].
  Qed.

  (** Copying one thread. *)
  Lemma copy_buckets_spec src : forall s : store Q, Forall (fun p => exists a b, p = Some a /\ s !! a = Some b /\ length b = B) src ->
    exists s', copy_buckets B q0 s src (replicate (length src) None) = Some (s', map Some (seq (length s) (length src))) /\
      length s' = length s + length src /\ (forall a, a < length s -> s' !! a = s !! a) /\
      (forall a, length s <= a < length s + length src -> exists b, s' !! a = Some b /\ length b = B).
  Proof using HB.
    induction src as [|p src IH]; intros s F; cbn [length replicate copy_buckets seq map].
    { exists s. split; [done|]. split; [lia|]. split; [done|]. intros; lia. }
    apply list.Forall_cons in F as [(a & b & -> & Eb & Lb) F]. assert (La := lookup_lt_Some _ _ _ Eb).
    rewrite lookup_app_l, Eb by done. rewrite lookup_app_r, Nat.sub_diag by lia. cbn [lookup list_lookup].
    set (c := copy_into (replicate B q0) b). set (s1 := <[length s:=c]> (s ++ [replicate B q0])).
    assert (L1 : length s1 = S (length s)) by (unfold s1; rewrite insert_length, app_length; cbn; lia).
    assert (Lc : length c = B) by (unfold c, copy_into; rewrite app_length, take_length, drop_length, replicate_length; lia).
    assert (O1 : forall x, x < length s -> s1 !! x = s !! x) by (intros x L; unfold s1; rewrite list_lookup_insert_ne by lia; by rewrite lookup_app_l).
    assert (N1 : s1 !! length s = Some c) by (unfold s1; apply list_lookup_insert; rewrite app_length; cbn; lia).
    destruct (IH s1) as (s' & E & L & O & Nw).
    { eapply list.Forall_impl; [exact F|]. intros q (x & y & -> & Ey & Ly). exists x, y. split; [done|]. split; [|done]. rewrite O1; [done|]. by eapply lookup_lt_Some. }
    exists s'. rewrite E, L1. split; [done|]. split; [lia|]. split; [intros x Lx; rewrite O by lia; by apply O1|].
    intros x Lx. destruct (decide (x = length s)) as [->|N]; [|apply Nw; lia]. exists c. split; [|done]. rewrite O by lia. done.
  Qed.

  Record oth (h h' : heap) (gt ot : gthr) : Prop := Oth {
    o_len : slen (verts ot) = slen (verts gt);
    o_arr : length (hv h) <= arr (verts ot) < length (hv h');
    o_read : forall i, i < slen (verts gt) -> sread (hv h') (arr (verts ot)) i = sread (hv h) (arr (verts gt)) i;
    o_str : structs ot = structs gt; o_map : vmap ot = vmap gt;
    o_num : nedges ot = nedges gt /\ ndels ot = ndels gt /\ at_event ot = at_event gt;
    o_pf : from (length (hp h)) (props ot); o_pc : covers B (hp h') (props ot) (slen (verts ot)); o_pn : NoDup (props ot);
    o_mf : from (length (hm h)) (boxes ot); o_mc : covers B (hm h') (boxes ot) (slen (verts ot)); o_mn : NoDup (boxes ot);
    o_act : forall i, i < slen (verts ot) -> exists m, bread B (hm h') (boxes ot) i = Some (m, 0) }.

  Lemma from_seq a n : from a (map Some (seq a n)).
  Proof using HB. apply list.Forall_forall. intros p I. apply elem_of_list_In, in_map_iff in I as (x & <- & I). apply in_seq in I. exists x. split; [done|lia]. Qed.
  Lemma nodup_seq a n : NoDup (map (@Some nat) (seq a n)).
  Proof using HB. apply (NoDup_fmap_2 Some), NoDup_ListNoDup, seq_NoDup. Qed.
  Lemma covers_seq {A} (s : store A) a k n : n <= B * k -> (forall x, a <= x < a + k -> exists b, s !! x = Some b /\ length b = B) -> covers B s (map Some (seq a k)) n.
  Proof using HB.
    intros L H. split; [by rewrite map_length, seq_length|]. apply list.Forall_forall. intros p I. apply elem_of_list_In, in_map_iff in I as (x & <- & I). apply in_seq in I.
    destruct (H x) as (b & E & Lb); [lia|]. eauto.
  Qed.

  Lemma copy_thread_spec (h : heap) gt : in_memory B h gt -> exists h' ot, copy_thread B q0 m0 h gt = Some (h', ot) /\ ext h h' /\ oth h h' gt ot.
  Proof using HB.
    intros ((b & Eb & Lb) & P & Mb & S). assert (La := lookup_lt_Some _ _ _ Eb). unfold copy_thread.
    set (n := slen (verts gt)) in *. set (k := length (hv h)) in *.
    assert (V : exists v vs, copy_vertices (hv h ++ [[]]) (verts gt) (Slice k 0) = Some (v, vs) /\ slen vs = n /\ k <= arr vs < length v /\ length (hv h) <= length v /\
              (forall a, a < k -> v !! a = hv h !! a) /\ (forall i, i < n -> sread v (arr vs) i = b !! i)).
    { unfold copy_vertices. cbn [slen arr]. fold n. destruct (Nat.ltb_spec 0 (n - 0)) as [L|L].
      - change (take 0 (default [] ((hv h ++ [[]]) !! k)) ++ replicate (n - 0) (Slice 0 0)) with (replicate (n - 0) (Slice 0 0)). cbn [slen arr].
        rewrite lookup_app_l by (rewrite app_length; cbn; lia). rewrite lookup_app_l, Eb by done.
        rewrite lookup_app_r, Nat.sub_diag by lia. cbn [lookup list_lookup].
        set (s1 := (hv h ++ [[]]) ++ [replicate (n - 0) (Slice 0 0)]). set (c := copy_into _ _ ++ _).
        assert (Ls : length s1 = k + 2) by (unfold s1; rewrite !app_length; cbn; fold k; lia).
        assert (Lh : length (hv h ++ [[]]) = k + 1) by (rewrite app_length; cbn; fold k; lia).
        exists (<[length (hv h ++ [[]]):=c]> s1), (Slice (length (hv h ++ [[]])) (0 + (n - 0))). split; [done|]. cbn [slen arr]. rewrite insert_length, Ls, Lh.
        split; [lia|]. split; [lia|]. split; [fold k; lia|]. split.
        + intros a A1. rewrite list_lookup_insert_ne by lia. unfold s1. rewrite lookup_app_l by lia. by rewrite lookup_app_l.
        + intros i Li. unfold sread. rewrite list_lookup_insert by lia. unfold c, copy_into. rewrite !take_length, replicate_length.
          rewrite lookup_app_l by (rewrite app_length, !take_length; lia).
          rewrite lookup_app_l by (rewrite !take_length; lia). rewrite !lookup_take by lia. done.
      - rewrite lookup_app_l, Eb by done. cbn [arr slen]. rewrite lookup_app_r by (fold k; lia). fold k. rewrite Nat.sub_diag. cbn [lookup list_lookup].
        eexists _, _. split; [done|]. cbn [slen arr]. rewrite insert_length, app_length. cbn [length]. fold k. split; [lia|]. split; [lia|]. split; [lia|]. split.
        + intros a A1. rewrite list_lookup_insert_ne by lia. by rewrite lookup_app_l.
        + intros i Li. lia. }
    destruct V as (v & vs & Ev & Lvs & Avs & Lv & Ov & Rv). cbn [hv hp hm set_hv]. fold k. rewrite Ev.
    unfold copy_props. rewrite Nat.sub_0_r. cbn [app]. destruct P as [LP FP]. destruct (copy_buckets_spec (props gt) (hp h) FP) as (p & Ep & Lp & Op & Np). rewrite Ep.
    unfold copy_boxes. eexists _, _. split; [done|]. split.
    - constructor; cbn; try done; try lia; [|rewrite app_length; lia]. intros a A1. by apply lookup_app_l.
    - destruct Mb as [LM FM].
      assert (CM : covers B (hm h ++ replicate (length (boxes gt)) (replicate B (m0, 0))) (map Some (seq (length (hm h)) (length (boxes gt)))) n).
      { apply covers_seq; [done|]. intros x Lx. exists (replicate B (m0, 0)). split; [|apply replicate_length]. rewrite lookup_app_r by lia. apply lookup_replicate_2. lia. }
      constructor; cbn; try done; try lia.
      + intros i Li. rewrite Rv by done. unfold sread. by rewrite Eb.
      + apply from_seq.
      + rewrite Lvs. apply covers_seq; [done|]. intros x Lx. by apply Np.
      + apply nodup_seq.
      + apply from_seq.
      + by rewrite Lvs.
      + apply nodup_seq.
      + rewrite Lvs. intros i Li. destruct (covers_read _ _ _ _ CM Li) as (a & bb & x & Ea & Ebb & _ & Ex). unfold bread, sread. rewrite Ea, Ebb, Ex.
        assert (length (hm h) <= a) as Lha.
        { apply elem_of_list_lookup_2 in Ea. apply elem_of_list_In, in_map_iff in Ea as (y & [= <-] & I). apply in_seq in I. lia. }
        rewrite lookup_app_r in Ebb by done. apply lookup_replicate in Ebb as [-> _]. apply lookup_replicate in Ex as [-> _]. eauto.
  Qed.

  Lemma oth_later h h1 h2 gt ot : oth h h1 gt ot -> ext h1 h2 -> oth h h2 gt ot.
  Proof using HB.
    intros O E. destruct O, E. constructor; try done.
    - lia.
    - intros i L. unfold sread. rewrite x_v0 by lia. by apply o_read0.
    - by apply (covers_ext (hp h1)).
    - by apply (covers_ext (hm h1)).
    - intros i L. destruct (o_act0 i L) as (m & Em). exists m. rewrite (bread_ext (hm h1)); [done| |done]. by eapply covers_below.
  Qed.
  Lemma oth_sooner h0 h h1 gt ot : in_memory B h0 gt -> ext h0 h -> oth h h1 gt ot -> oth h0 h1 gt ot.
  Proof using HB.
    intros ((b & Eb & Lb) & _) E O. destruct O, E. constructor; try done.
    - lia.
    - intros i L. rewrite o_read0 by done. unfold sread. by rewrite x_v0 by (by eapply lookup_lt_Some).
    - eapply list.Forall_impl; [exact o_pf0|]. intros p (a & -> & L). exists a. split; [done|lia].
    - eapply list.Forall_impl; [exact o_mf0|]. intros p (a & -> & L). exists a. split; [done|lia].
  Qed.

  (** No bucket belongs to two threads. *)
  Definition disj (f : gthr -> list (option nat)) (o : list gthr) : Prop :=
    forall t t' ot ot' p, o !! t = Some ot -> o !! t' = Some ot' -> In (Some p) (f ot) -> In (Some p) (f ot') -> t = t'.
  Lemma disj_cons f n ot o : below n (f ot) -> Forall (fun x => from n (f x)) o -> disj f o -> disj f (ot :: o).
  Proof using HB.
    intros Bl F D t t' a b p Ea Eb Ia Ib. rewrite list.Forall_forall in F.
    destruct t as [|t], t' as [|t']; cbn in Ea, Eb; [done| | |].
    - injection Ea as <-. exfalso. eapply (apart n (f b) (f ot)); [|exact Bl|exact Ib|exact Ia]. apply F. by eapply elem_of_list_lookup_2.
    - injection Eb as <-. exfalso. eapply (apart n (f a) (f ot)); [|exact Bl|exact Ia|exact Ib]. apply F. by eapply elem_of_list_lookup_2.
    - f_equal. by eapply D.
  Qed.

  Lemma copy_threads_spec g : forall h : heap, Forall (in_memory B h) g ->
    exists h' o, copy_threads B q0 m0 h g = Some (h', o) /\ ext h h' /\ Forall2 (oth h h') g o /\ disj props o /\ disj boxes o.
  Proof using HB.
    induction g as [|gt g IH]; intros h F; cbn [copy_threads].
    { exists h, []. split; [done|]. split; [apply ext_refl|]. split; [constructor|]. split; intros t t' a b p Ea; done. }
    apply list.Forall_cons in F as [Mg F]. destruct (copy_thread_spec h gt Mg) as (h1 & ot & E1 & X1 & O1). rewrite E1.
    destruct (IH h1) as (h2 & o & E2 & X2 & O2 & Dp & Db).
    { eapply list.Forall_impl; [exact F|]. intros x Hx. by apply (in_memory_ext h). }
    rewrite E2. exists h2, (ot :: o). split; [done|]. split; [by eapply ext_trans|]. split; [|split].
    - constructor; [by apply (oth_later h h1)|]. clear - F O2 X1 HB. revert F. induction O2 as [|x y g o Hxy _ IH]; intros F; [constructor|].
      apply list.Forall_cons in F as [Mx F]. constructor; [by apply (oth_sooner h h1)|]. by apply IH.
    - apply (disj_cons _ (length (hp h1))); [exact (covers_below _ _ _ (o_pc _ _ _ _ O1))| |done].
      clear - O2. induction O2; constructor; [by eapply o_pf|done].
    - apply (disj_cons _ (length (hm h1))); [exact (covers_below _ _ _ (o_mc _ _ _ _ O1))| |done].
      clear - O2. induction O2; constructor; [by eapply o_mf|done].
  Qed.

  (** The loops over the vertices. *)
  Lemma each_vertex_inv (f : heap -> nat -> option heap) (I : heap -> nat -> Prop) n :
    (forall h i, i < n -> I h i -> exists h', f h i = Some h' /\ I h' (S i)) -> forall h, I h 0 -> exists h', each_vertex f h (seq 0 n) = Some h' /\ I h' n.
  Proof using HB.
    intros Hs. assert (G : forall k i h, i + k = n -> I h i -> exists h', each_vertex f h (seq i k) = Some h' /\ I h' n).
    { induction k as [|k IH]; intros i h E H; cbn [seq each_vertex]; [exists h; split; [done|]; by replace n with i by lia|].
      destruct (Hs h i) as (h1 & -> & H1); [lia|done|]. apply IH; [lia|done]. }
    intros h. by apply G.
  Qed.
  Lemma each_thread_inv (f : gthr -> gthr -> heap -> nat -> option heap) (J : heap -> nat -> Prop) g o :
    length g = length o ->
    (forall h t gt ot, g !! t = Some gt -> o !! t = Some ot -> J h t -> exists h', each_vertex (f gt ot) h (seq 0 (slen (verts ot))) = Some h' /\ J h' (S t)) ->
    forall h, J h 0 -> exists h', each_thread f h g o = Some h' /\ J h' (length g).
  Proof using HB.
    intros Lg Hs. assert (G : forall g' o' t h, length g' = length o' -> t + length g' = length g -> (forall k, g' !! k = g !! (t + k)) -> (forall k, o' !! k = o !! (t + k)) -> J h t ->
      exists h', each_thread f h g' o' = Some h' /\ J h' (length g)).
    { induction g' as [|gt g' IH]; intros [|ot o'] t h L E Eg Eo H; try done; cbn [each_thread].
      - exists h. split; [done|]. replace (length g) with t by (cbn in E; lia). done.
      - specialize (Eg 0) as Eg0. specialize (Eo 0) as Eo0. rewrite Nat.add_0_r in Eg0, Eo0. cbn in Eg0, Eo0.
        destruct (Hs h t gt ot) as (h1 & -> & H1); [done..|]. cbn in L, E. apply (IH o' (S t)); [lia|lia| | |done].
        + intros k. transitivity (g !! (t + S k)); [exact (Eg (S k))|f_equal; lia].
        + intros k. transitivity (o !! (t + S k)); [exact (Eo (S k))|f_equal; lia]. }
    intros h H. by apply (G g o 0).
  Qed.

  Lemma ext_wp h hh bs i x p : ext h hh -> from (length (hp h)) bs -> bwrite B (hp hh) bs i x = Some p -> ext h (set_hp hh p).
  Proof using HB.
    intros E F W. assert (L := bwrite_len _ _ _ _ _ W). destruct E. constructor; cbn; try done; try lia.
    intros a A1. rewrite (bwrite_from _ _ _ _ _ _ _ F W) by done. by apply x_p0.
  Qed.
  Lemma ext_wm h hh bs i x m : ext h hh -> from (length (hm h)) bs -> bwrite B (hm hh) bs i x = Some m -> ext h (set_hm hh m).
  Proof using HB.
    intros E F W. assert (L := bwrite_len _ _ _ _ _ W). destruct E. constructor; cbn; try done; try lia.
    intros a A1. rewrite (bwrite_from _ _ _ _ _ _ _ F W) by done. by apply x_m0.
  Qed.
  (** Writing a vertex of one thread, reading one of any thread. *)
  Lemma owned {A} (f : gthr -> list (option nat)) (o : list gthr) (s s' : store A) t ot i x t' ot' j :
    disj f o -> o !! t = Some ot -> o !! t' = Some ot' -> NoDup (f ot) -> bwrite B s (f ot) i x = Some s' ->
    bread B s' (f ot') j = if decide (t = t' /\ i = j) then Some x else bread B s (f ot') j.
  Proof using HB.
    intros D E E' ND W. destruct (decide (t = t')) as [<-|N].
    - rewrite E in E'. injection E' as <-. rewrite (bwrite_same _ _ _ _ _ j ND W). destruct (decide (i = j)) as [Eij|Nij].
      + by rewrite decide_True. + rewrite decide_False; [done|tauto].
    - rewrite decide_False by tauto. apply (bwrite_other _ _ (f ot) (f ot') i x j); [|done]. intros p I I'. apply N. by eapply (D t t').
  Qed.

  Definition before (t i t' j : nat) : Prop := t' < t \/ (t' = t /\ j < i).

  Section made.
    Context (h h1 : heap) (g o : list gthr) (qnew : Q) (mnew : M).
    Context (Mg : Forall (in_memory B h) g) (X1 : ext h h1) (O : Forall2 (oth h h1) g o) (Dp : disj props o) (Db : disj boxes o).

    Lemma lens : length g = length o.
    Proof using O. exact (list.Forall2_length _ _ _ O). Qed.
    Lemma oth_at t ot : o !! t = Some ot -> exists gt, g !! t = Some gt /\ oth h h1 gt ot.
    Proof using O. intros E. destruct (Forall2_lookup_r _ _ _ _ _ O E) as (gt & Eg & Ho). eauto. Qed.

    Definition reset_inv (hh : heap) (t i : nat) : Prop :=
      ext h hh /\ hv hh = hv h1 /\
      forall t' ot, o !! t' = Some ot -> covers B (hp hh) (props ot) (slen (verts ot)) /\ covers B (hm hh) (boxes ot) (slen (verts ot)) /\
        forall j, j < slen (verts ot) -> (exists m, bread B (hm hh) (boxes ot) j = Some (m, 0)) /\
          (before t i t' j -> bread B (hp hh) (props ot) j = Some qnew /\ bread B (hm hh) (boxes ot) j = Some (mnew, 0)).

    Lemma reset_step hh t ot i : o !! t = Some ot -> i < slen (verts ot) -> reset_inv hh t i -> exists h', reset_vertex B qnew mnew ot hh i = Some h' /\ reset_inv h' t (S i).
    Proof using All.
      intros Eo Li (Xh & Ev & H). destruct (oth_at t ot Eo) as (gt & Eg & Ho). destruct (H t ot Eo) as (Cp & Cm & Hj). destruct (Hj i Li) as ((m & Em) & _).
      unfold reset_vertex. destruct (covers_bwrite _ _ _ i qnew Cp Li) as (p & Wp). rewrite Wp, Em.
      destruct (covers_bwrite _ _ _ i (mnew, 0) Cm Li) as (m' & Wm). rewrite Wm. eexists. split; [done|]. split; [|split; [done|]].
      - apply (ext_wm h (set_hp hh p) (boxes ot) i (mnew, 0)); [|exact (o_mf _ _ _ _ Ho)|done]. by apply (ext_wp h hh (props ot) i qnew); [|exact (o_pf _ _ _ _ Ho)|].
      - intros t' ot' Eo'. destruct (H t' ot' Eo') as (Cp' & Cm' & Hj'). cbn. split; [by eapply covers_written|]. split; [by eapply covers_written|].
        intros j Lj. destruct (Hj' j Lj) as ((mm & Emm) & Hb). rewrite (owned props o _ _ t ot i qnew t' ot' j Dp Eo Eo' (o_pn _ _ _ _ Ho) Wp).
        rewrite (owned boxes o _ _ t ot i (mnew, 0) t' ot' j Db Eo Eo' (o_mn _ _ _ _ Ho) Wm). destruct (decide (t = t' /\ i = j)) as [[<- <-]|N].
        + split; [eauto|done].
        + split; [eauto|]. intros [L|[-> L]]; apply Hb; [by left|right]. split; [done|]. destruct (decide (i = j)) as [->|]; [exfalso; tauto|lia].
    Qed.
    Lemma reset_done : exists h2, each_thread (fun _ => reset_vertex B qnew mnew) h1 g o = Some h2 /\ reset_inv h2 (length g) 0.
    Proof using All.
      apply (each_thread_inv _ (fun hh t => reset_inv hh t 0)); [exact lens| |].
      - intros hh t gt ot Eg Eo H. destruct (each_vertex_inv (reset_vertex B qnew mnew ot) (fun hh i => reset_inv hh t i) (slen (verts ot))) with (h := hh) as (h' & E & H'); [|done|].
        + intros h' i Li Hi. by apply reset_step.
        + exists h'. split; [done|]. destruct H' as (Xh & Ev & H'). split; [done|]. split; [done|]. intros t' ot' Eo'. destruct (H' t' ot' Eo') as (Cp & Cm & Hj). split; [done|]. split; [done|].
          intros j Lj. destruct (Hj j Lj) as (Ha & Hb). split; [done|]. intros [L|[_ L]]; [|lia]. apply Hb. destruct (decide (t' = t)) as [->|N]; [|left; lia]. right. split; [done|]. congruence.
      - split; [done|]. split; [done|]. intros t ot Eo. destruct (oth_at t ot Eo) as (gt & Eg & Ho). split; [exact (o_pc _ _ _ _ Ho)|]. split; [exact (o_mc _ _ _ _ Ho)|].
        intros j Lj. split; [exact (o_act _ _ _ _ Ho j Lj)|]. intros [L|[_ L]]; lia.
    Qed.

    Definition take_inv (f : Q -> Q -> Q) (h2 hh : heap) (t i : nat) : Prop :=
      ext h hh /\ hv hh = hv h1 /\ hm hh = hm h2 /\
      forall t' ot gt, o !! t' = Some ot -> g !! t' = Some gt -> covers B (hp hh) (props ot) (slen (verts ot)) /\
        forall j, j < slen (verts ot) ->
          (before t i t' j -> exists q, bread B (hp h) (props gt) j = Some q /\ bread B (hp hh) (props ot) j = Some (f qnew q)) /\
          (~ before t i t' j -> bread B (hp hh) (props ot) j = Some qnew).
    Lemma take_step f h2 hh t gt ot i : g !! t = Some gt -> o !! t = Some ot -> i < slen (verts ot) -> take_inv f h2 hh t i -> exists h', take_vertex B f gt ot hh i = Some h' /\ take_inv f h2 h' t (S i).
    Proof using All.
      intros Eg Eo Li (Xh & Ev & Em & H). destruct (oth_at t ot Eo) as (gt' & Eg' & Ho). rewrite Eg in Eg'. injection Eg' as <-.
      destruct (H t ot gt Eo Eg) as (Cp & Hj). destruct (Hj i Li) as [_ Hq]. assert (bread B (hp hh) (props ot) i = Some qnew) as Eq by (apply Hq; intros [L|[_ L]]; lia).
      assert (Mt := Mg). rewrite list.Forall_forall in Mt. destruct (Mt gt) as (_ & P & _); [by eapply elem_of_list_lookup_2|].
      destruct (covers_bread (hp h) (props gt) _ i P) as (q & Eqq); [by rewrite <- (o_len _ _ _ _ Ho)|].
      assert (bread B (hp hh) (props gt) i = Some q) as Eg'. { rewrite (bread_ext (hp h)); [done|by eapply covers_below|exact (x_p _ _ Xh)]. }
      unfold take_vertex. rewrite Eq, Eg'. destruct (covers_bwrite _ _ _ i (f qnew q) Cp Li) as (p & Wp). rewrite Wp. eexists. split; [done|].
      split; [|split; [done|split; [done|]]].
      - by apply (ext_wp h hh (props ot) i (f qnew q)); [|exact (o_pf _ _ _ _ Ho)|].
      - intros t' ot' gt' Eo' Eg''. destruct (H t' ot' gt' Eo' Eg'') as (Cp' & Hj'). cbn. split; [by eapply covers_written|].
        intros j Lj. destruct (Hj' j Lj) as (Hb & Ha). rewrite (owned props o _ _ t ot i (f qnew q) t' ot' j Dp Eo Eo' (o_pn _ _ _ _ Ho) Wp).
        destruct (decide (t = t' /\ i = j)) as [[<- <-]|N].
        + rewrite Eg in Eg''. injection Eg'' as <-. split; [eauto|]. intros Nb. exfalso. apply Nb. right. split; [done|lia].
        + split.
          * intros [L|[-> L]]; apply Hb; [by left|right]. split; [done|]. destruct (decide (i = j)) as [->|]; [exfalso; tauto|lia].
          * intros Nb. apply Ha. intros [L|[-> L]]; apply Nb; [by left|right; split; [done|lia]].
    Qed.
    Lemma take_done f h2 : reset_inv h2 (length g) 0 -> exists h3, each_thread (take_vertex B f) h2 g o = Some h3 /\ take_inv f h2 h3 (length g) 0.
    Proof using All.
      intros R. apply (each_thread_inv _ (fun hh t => take_inv f h2 hh t 0)); [exact lens| |].
      - intros hh t gt ot Eg Eo H. destruct (each_vertex_inv (take_vertex B f gt ot) (fun hh i => take_inv f h2 hh t i) (slen (verts ot))) with (h := hh) as (h' & E & H'); [|done|].
        + intros h' i Li Hi. by apply take_step.
        + exists h'. split; [done|]. destruct H' as (Xh & Ev & Em & H'). split; [done|]. split; [done|]. split; [done|]. intros t' ot' gt' Eo' Eg'. destruct (H' t' ot' gt' Eo' Eg') as (Cp & Hj). split; [done|].
          intros j Lj. destruct (Hj j Lj) as (Hb & Ha). split.
          * intros [L|[_ L]]; [|lia]. apply Hb. destruct (decide (t' = t)) as [->|N]; [|left; lia]. right. split; [done|]. congruence.
          * intros Nb. apply Ha. intros [L|[-> L]]; apply Nb; left; lia.
      - destruct R as (Xh & Ev & R). split; [done|]. split; [done|]. split; [done|]. intros t ot gt Eo Eg. destruct (R t ot Eo) as (Cp & _ & Hj). split; [done|].
        intros j Lj. destruct (Hj j Lj) as (_ & Hb). split; [intros [L|[_ L]]; lia|]. intros _. apply Hb. left. apply (lookup_lt_Some _ _ _ Eg).
    Qed.
  End made.
End proofs.
