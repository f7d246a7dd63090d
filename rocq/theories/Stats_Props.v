(** C82: the statistics printed about the graph, and the check of two graphs' structure. *)
From Verif Require Helpers_Proofs.
From Verif Require Import Base Helpers_Spec Stats_Spec Stats_Model Stats_Proofs.
Open Scope N_scope.

(** C82: whatever the interleaving of the goroutines, when they have returned the
    numbers printed are those of the graph: vertices, largest id, edges, sinks,
    largest and middle out-degree. *)
Theorem C82_stats : forall tr g ids links removed sched, holds tr g ids links removed ->
  N.of_nat (length ids) < 2 ^ 32 -> N.of_nat (length links) < 2 ^ 32 ->
  pdone g (prun (ins_known tr g) g sched) -> let r := stats tr g sched in
  r_vertices r = N.of_nat (length ids) /\ greatest ids (r_maxraw r) /\ r_edges r = N.of_nat (length links) /\
  r_sinks r = count (fun u => outdeg links u =? 0) ids /\ greatest (map (outdeg links) ids) (r_maxout r) /\
  middle (map (outdeg links) ids) (r_medout r).
Proof. intros tr g ids links removed sched H H1 H2 Hd. by apply (held_stats tr g ids links removed H H1 H2). Qed.
Print Assumptions C82_stats.

(** Without deletions, and with TimeRange (where [removed] is empty), the in-degrees
    printed are those of the graph. *)
Theorem C82_stats_in : forall tr g ids links sched, holds tr g ids links [] ->
  N.of_nat (length ids) < 2 ^ 32 -> N.of_nat (length links) < 2 ^ 32 ->
  pdone g (prun (ins_known tr g) g sched) ->
  exists h m d, r_in (stats tr g sched) = Some (h, m, d) /\ h = count (fun u => indeg links u =? 0) ids /\
    greatest (map (indeg links) ids) m /\ middle (map (indeg links) ids) d.
Proof. intros tr g ids links sched H H1 H2 Hd. by apply (held_stats_in tr g ids links [] H H1 H2). Qed.
Print Assumptions C82_stats_in.

(** After deletions, fewer than 2^32, nothing is said about in-degrees. *)
Theorem C82_stats_hidden : forall tr g ids links removed sched, holds tr g ids links removed ->
  N.of_nat (length ids) < 2 ^ 32 -> N.of_nat (length links) < 2 ^ 32 ->
  removed <> [] -> N.of_nat (length removed) < 2 ^ 32 -> r_in (stats tr g sched) = None.
Proof. intros tr g ids links removed sched H H1 H2 H3 H4. by apply (held_stats_hidden tr g ids links removed H H1 H2). Qed.
Print Assumptions C82_stats_hidden.

(** The goroutines can always return: running them one after the other does. *)
Lemma pstep_len ins g s t : length (parts s) = length g -> length (pos s) = length g -> length (parts (pstep ins g s t)) = length g /\ length (pos (pstep ins g s t)) = length g.
Proof.
  intros H1 H2. unfold pstep. destruct (pos s !! t); [|done]. destruct (parts s !! t); [|done]. destruct (g !! t); [|done]. destruct (verts t0 !! n); [|done].
  cbn. by rewrite !insert_length.
Qed.
Theorem C82_returns : forall ins g, exists sched, pdone g (prun ins g sched).
Proof.
  intros ins g. assert (G : forall k, (k <= length g)%nat -> exists sched, length (pos (prun ins g sched)) = length g /\ length (parts (prun ins g sched)) = length g /\
    forall t th, g !! t = Some th -> pos (prun ins g sched) !! t = Some (if (t <? k)%nat then length (verts th) else 0%nat)).
  { induction k as [|k IH]; intros Hk.
    - exists []. cbn. rewrite !replicate_length. split_and!; try done. intros t th Ht. apply lookup_replicate_2. apply lookup_lt_is_Some. eauto.
    - destruct (IH ltac:(lia)) as (sched & L1 & L2 & HP). destruct (lookup_lt_is_Some_2 g k ltac:(lia)) as [th Hth].
      assert (G : forall n, (n <= length (verts th))%nat -> let s := prun ins g (sched ++ replicate n k) in length (pos s) = length g /\ length (parts s) = length g /\
        pos s !! k = Some n /\ forall t, t <> k -> pos s !! t = pos (prun ins g sched) !! t).
      { induction n as [|n IHn]; intros Hn s; subst s.
        - cbn. rewrite app_nil_r. split_and!; try done. rewrite (HP k th Hth). by rewrite Nat.ltb_irrefl.
        - destruct (IHn ltac:(lia)) as (A & B & C & D). rewrite replicate_S_end, app_assoc. unfold prun in *. rewrite fold_left_app. cbn [fold_left].
          set (s := fold_left (pstep ins g) (sched ++ replicate n k) (pst0 g)) in *.
          destruct (pstep_len ins g s k B A) as [E1 E2]. split_and!; [done|done| |].
          + unfold pstep. rewrite C, Hth. destruct (lookup_lt_is_Some_2 (parts s) k) as [p Ep]; [lia|]. rewrite Ep.
            destruct (lookup_lt_is_Some_2 (verts th) n) as [v Ev]; [lia|]. rewrite Ev. cbn. apply list_lookup_insert. lia.
          + intros t Ht. rewrite <- D by done. unfold pstep. rewrite C, Hth. destruct (parts s !! k); [|done]. destruct (verts th !! n); [|done]. cbn. by rewrite list_lookup_insert_ne. }
      destruct (G _ (Nat.le_refl _)) as (A & B & C & D). exists (sched ++ replicate (length (verts th)) k). split_and!; try done.
      intros t th' Ht. destruct (decide (t = k)) as [-> |Hne].
      + rewrite C. rewrite Hth in Ht. injection Ht as <-. by rewrite (proj2 (Nat.ltb_lt k (S k))) by lia.
      + rewrite D, (HP t th' Ht) by done. destruct (Nat.ltb_spec t k), (Nat.ltb_spec t (S k)); try done; lia. }
  destruct (G (length g) (Nat.le_refl _)) as (sched & L1 & _ & HP). exists sched. red. apply list_eq. intros t. rewrite list_lookup_fmap.
  destruct (g !! t) as [th|] eqn:E; cbn.
  - rewrite (HP t th E). apply lookup_lt_Some in E. by rewrite (proj2 (Nat.ltb_lt _ _) E).
  - apply lookup_ge_None. rewrite L1. by apply lookup_ge_None.
Qed.
Print Assumptions C82_returns.

(** Refutation of the in-degree statistics with 2^32 deletions: the count of
    deletions has wrapped to 0, and the numbers of edges ever added are printed as
    in-degrees of a graph that has no edges left. *)
Definition wrapped : list thr := [Thr [Vtx 1 [] (2 ^ 32 - 1); Vtx 2 [] 1] 0 0].
Lemma wrapped_holds n : N.of_nat n = 2 ^ 32 - 1 -> holds false wrapped [1; 2] [] (repeat (1, 1) n ++ [(1, 2)]).
Proof.
  intros Hn. assert (F : forall k, List.filter (fun e : N * N => snd e =? k) (repeat (1, 1) n) = if 1 =? k then repeat (1, 1) n else []).
  { intros k. clear. induction n as [|n IH]; cbn [repeat List.filter snd]; [by destruct (1 =? k)|]. rewrite IH. by destruct (1 =? k). }
  split.
  - done.
  - apply Permutation_refl.
  - repeat constructor; cbn; intuition lia.
  - intros e He. cbn [app] in He. apply in_app_iff in He as [He|[<-|[]]]; [apply repeat_spec in He as ->|]; cbn; auto.
  - intros v [<-|[<-|[]]]; apply Permutation_refl.
  - intros v [<-|[<-|[]]]; cbn [app raw inpos]; rewrite List.filter_app, F, app_length; cbn [N.eqb Pos.eqb List.filter snd].
    + rewrite repeat_length, Nat.add_0_r, Hn. done.
    + done.
  - intros th [<-|[]]. done.
  - cbn [map ndels wrapped]. rewrite app_length, repeat_length, Nat2N.inj_add, Hn. done.
Qed.
Theorem C82_deletions_refuted : exists g ids removed sched, holds false g ids [] removed /\ pdone g (prun (ins_known false g) g sched) /\
  exists h m d, r_in (stats false g sched) = Some (h, m, d) /\ h <> count (fun u => indeg [] u =? 0) ids /\
    ~ greatest (map (indeg []) ids) m.
Proof.
  exists wrapped, [1; 2], (repeat (1, 1) (N.to_nat (2 ^ 32 - 1)) ++ [(1, 2)]), [0%nat; 0%nat]. split; [apply wrapped_holds; apply N2Nat.id|].
  split; [reflexivity|]. exists 0, (2 ^ 32 - 1), (2 ^ 32 - 1). split; [vm_compute; reflexivity|]. split; [by vm_compute|].
  intros [_ [H|[H _]]]; [|done]. vm_compute in H. destruct H as [H|[H|[]]]; done.
Qed.
Print Assumptions C82_deletions_refuted.

(** [InEdgesStats], in whatever order the map is read: the largest in-degree is
    right, and the median is that of the vertices that have in-edges. *)
Theorem C82_in_edges : forall tr g ids links removed order, holds tr g ids links removed ->
  N.of_nat (length ids) < 2 ^ 32 -> N.of_nat (length links) < 2 ^ 32 -> Permutation order (in_table g) -> let r := in_stats order in
  greatest (map (indeg links) ids) (fst r) /\
  middle (map (indeg links) (List.filter (fun u => negb (indeg links u =? 0)) ids)) (snd r).
Proof. intros tr g ids links removed order H H1 H2 P. by apply (held_in_stats tr g ids links removed). Qed.
Print Assumptions C82_in_edges.

Lemma middle_fun l m m' : middle l m -> middle l m' -> m = m'.
Proof.
  assert (K : forall z k x y, kth z k x -> kth z k y -> x = y) by apply Helpers_Proofs.kth_fun.
  intros [(-> & ->)|[(x & -> & ->)|(H1 & lo & hi & H2 & H3 & ->)]] [(E & ->)|[(x' & E & ->)|(H1' & lo' & hi' & H2' & H3' & ->)]]; try done; try (subst; cbn in *; lia); try congruence.
  pose proof (K _ _ _ _ H2 H2'). pose proof (K _ _ _ _ H3 H3'). assert (lo = lo') as -> by lia. assert (hi = hi') as -> by lia. done.
Qed.
(** Refutation of its median as the median in-degree: three edges into one vertex. *)
Definition star : list thr := [Thr [Vtx 1 [9] 0; Vtx 2 [9] 0] 2 0; Thr [Vtx 3 [9] 0; Vtx 9 [] 3] 1 0].
Lemma star_holds : holds false star [1; 2; 3; 9] [(1, 9); (2, 9); (3, 9)] [].
Proof.
  split; [done|apply Permutation_refl|repeat constructor; cbn; intuition lia| | | | |done].
  - intros e He. cbn in He. intuition (subst; cbn; auto 6).
  - intros v Hv. cbn in Hv. intuition (subst; apply Permutation_refl).
  - intros v Hv. cbn in Hv. intuition (subst; reflexivity).
  - intros th Hth. cbn in Hth. intuition (subst; reflexivity).
Qed.
Theorem C82_in_median_refuted : exists g ids links order, holds false g ids links [] /\ Permutation order (in_table g) /\
  ~ middle (map (indeg links) ids) (snd (in_stats order)).
Proof.
  exists star, [1; 2; 3; 9], [(1, 9); (2, 9); (3, 9)], (in_table star). split; [apply star_holds|]. split; [done|].
  intros H. assert (H' : middle (map (indeg [(1, 9); (2, 9); (3, 9)]) [1; 2; 3; 9]) 0).
  { apply (median_middle (2 ^ 32) (map (indeg [(1, 9); (2, 9); (3, 9)]) [1; 2; 3; 9])). reflexivity. }
  pose proof (middle_fun _ _ _ H H') as E. vm_compute in E. done.
Qed.
Print Assumptions C82_in_median_refuted.

(** The structure check passes exactly if the ids are the same and every id has the
    same out-degree; in particular for the same graph. *)
Theorem C82_check : forall tr1 g1 ids1 l1 r1 tr2 g2 ids2 l2 r2, holds tr1 g1 ids1 l1 r1 -> holds tr2 g2 ids2 l2 r2 ->
  (check_structure g1 g2 = true <-> (forall u, In u ids1 <-> In u ids2) /\ (forall u, outdeg l1 u = outdeg l2 u)) /\
  (same_graph ids1 l1 ids2 l2 -> check_structure g1 g2 = true) /\
  check_structure g1 g2 = check_structure g2 g1.
Proof.
  intros tr1 g1 ids1 l1 r1 tr2 g2 ids2 l2 r2 H1 H2. pose proof (held_check _ _ _ _ _ _ _ _ _ _ H1 H2) as E. split; [done|]. split.
  - intros [I P]. apply E. split; [done|]. intros u. by apply count_perm.
  - pose proof (held_check _ _ _ _ _ _ _ _ _ _ H2 H1) as E'. apply eq_true_iff_eq. rewrite E, E'. split; intros [I O]; (split; [intros u; symmetry; apply I|intros u; symmetry; apply O]).
Qed.
Print Assumptions C82_check.
(** Refutation of it as a check of the graph: two different graphs pass. *)
Theorem C82_check_refuted : exists g1 g2 ids l1 l2, holds false g1 ids l1 [] /\ holds false g2 ids l2 [] /\
  check_structure g1 g2 = true /\ ~ same_graph ids l1 ids l2.
Proof.
  exists [Thr [Vtx 1 [2] 1; Vtx 2 [1] 1] 2 0], [Thr [Vtx 1 [1] 1; Vtx 2 [2] 1] 2 0], [1; 2], [(1, 2); (2, 1)], [(1, 1); (2, 2)].
  assert (G : forall a b, a <> b -> In a [1; 2] -> In b [1; 2] -> holds false [Thr [Vtx 1 [a] 1; Vtx 2 [b] 1] 2 0] [1; 2] [(1, a); (2, b)] []).
  { intros a b Hab Ha Hb. split; [done|apply Permutation_refl|repeat constructor; cbn; intuition lia| | | | |done].
    - intros e He. cbn [app In] in He. destruct He as [<-|[<-|[]]]; cbn [fst snd]; (split; [cbn; auto|done]).
    - intros v Hv. cbn in Hv. intuition (subst; apply Permutation_refl).
    - intros v Hv. cbn in Ha, Hb, Hv. intuition (subst; done).
    - intros th Hth. cbn in Hth. intuition (subst; reflexivity). }
  split; [apply G; [lia|cbn; auto..]|]. split; [apply G; [lia|cbn; auto..]|]. split; [reflexivity|].
  intros [_ P]. assert (In (1, 2) [(1, 1); (2, 2)]) as [E|[E|[]]] by (rewrite <- P; left; done); done.
Qed.
Print Assumptions C82_check_refuted.

(** A non-trivial case: the star over two threads, in an interleaved schedule. *)
Example C82_case : pdone star (prun true star [1; 0; 0; 1]%nat) /\
  stats false star [1; 0; 0; 1]%nat = Report 4 9 3 1 1 1 (Some (3, 3, 0)) /\ in_stats (in_table star) = (3, 3).
Proof. repeat split; vm_compute; reflexivity. Qed.
