(** C57: from the file to the result. *)
From Verif Require Import Base QcUtil IO_Model Load_Spec Load_Model Load_Proofs Load_Props Remit_Spec Remit_Model Remit_Proofs Remit_Props.
From Verif Require Import Link_Spec Link_Proofs Link_Props File_Graph.
From Verif Require Import Engine_Spec Engine_Model Engine_Shape Engine_Props Min_Spec Min_Model Min_Props.
From Verif Require Import Colour_Spec Colour_Model Colour_Props.
From Verif Require Import Window_Spec Window_Model Path_Spec Path_Model Path_Final Path_Init Path_Props.
From Coq Require Import QArith Qcanon.
Open Scope nat_scope.

Section props.
  Context {P : Type} (prop_of : list (list N) -> P) (set_ts set_raw : N -> P -> P) (zero : P) (get_ts : P -> N).
  Context (o : opts) (nf : nat) (lines : list (list N)) (wss : list (list (list N))) (evs : list (tev P)) (nthr : N) (ps : pipe P).
  Context (Hl : loads prop_of set_ts set_raw o nf lines wss evs) (Hp : piped zero nthr evs ps).
  Notation events := (stream prop_of set_ts set_raw o nf wss).
  Notation graph := (graph_edge o wss).
  Notation id := N.of_nat.

  Lemma graph_sym a b : Load_Spec.undirected o = true -> graph a b -> graph b a.
  Proof. intros Hu [H|[_ H]]; [by right|by left]. Qed.

  (** Connected components.  The edges the algorithm has seen are those the threads received from the pipeline;
      initial mails carry the vertex' own id, and every vertex with an edge got one.  Then labels are the smallest
      ids of the components of the graph in the file. *)
  Theorem C57_components : forall owner n es sched, Load_Spec.undirected o = true -> (forall v, owner v < n) -> no_deletion sched ->
    let s := erun cc owner (cc_start es) sched in let init := given owner (cc_start es) sched in
    idle s -> (forall u, map fst (edges s u) = map fst (arrived get_ts nthr ps u)) ->
    (forall v x, (v, x) ∈ init -> x = id v /\ (x < 2 ^ 32)%N) -> (forall u, edges s u <> [] -> (u, id u) ∈ init) ->
    forall u, (exists b, graph (id u) b) ->
    (exists w, connected graph w (id u) /\ prop s u = w) /\ (forall w, connected graph w (id u) -> (prop s u <= w)%N) /\
    forall v, (exists b, graph (id v) b) -> (prop s u = prop s v <-> connected graph (id u) (id v)).
  Proof.
    intros owner n es sched Hu Hown Hdel s init Hidle Hedges Hinit Hgiven.
    assert (HG : forall u v, (exists e, (v, e) ∈ edges s u) <-> graph (id u) (id v)).
    { intros u v. rewrite <- (C57_graph prop_of set_ts set_raw zero get_ts o nf lines wss evs nthr ps Hl Hp get_ts u v), <- Hedges. split.
      - intros (e & H). apply in_map_iff. exists (v, e). split; [done|]. by apply elem_of_list_In.
      - intros H. apply in_map_iff in H as ([v' e] & E & H). cbn in E. subst v'. exists e. by apply elem_of_list_In. }
    assert (Hne : forall u, (exists b, graph (id u) b) -> (u, id u) ∈ init).
    { intros u (b & H). apply Hgiven. rewrite <- (N2Nat.id b) in H. apply HG in H as (e & H). intros E. rewrite E in H. by apply elem_of_nil in H. }
    assert (Hsym : forall u v e, (v, e) ∈ edges s u -> (u, id u) ∈ init /\ exists e', (u, e') ∈ edges s v).
    { intros u v e H. assert (Huv : graph (id u) (id v)) by (apply HG; by exists e). split; [apply Hne; by exists (id v)|]. by apply HG, graph_sym. }
    assert (Hraw : forall v x, (v, x) ∈ init -> x = id v /\ (id v < 2 ^ 32)%N) by (intros v x H; destruct (Hinit v x H) as [-> H']; done).
    assert (Hj1 : forall u v, joined (edges s) u v -> connected graph (id u) (id v)).
    { intros u v H. induction H as [|u v w e H IH He]; [constructor|]. eapply conn_step; [exact IH|]. apply HG. by exists e. }
    assert (Hj2 : forall a v, connected graph a (id v) -> joined (edges s) (N.to_nat a) v).
    { intros a v H. remember (id v) as b eqn:Eb. revert v Eb. induction H as [a|a b c H IH He]; intros v Eb; [subst; rewrite Nat2N.id; constructor|].
      subst c. rewrite <- (N2Nat.id b) in He. apply HG in He as (e & He). eapply joined_step; [|exact He]. apply IH. by rewrite N2Nat.id. }
    intros u Hgu. pose proof (C35_components owner n es sched id Hown Hdel Hidle Hraw Hsym u (Hne u Hgu)) as [(w & Hw & E) Hmin]. split_and!.
    - exists (id w). split; [by apply Hj1|exact E].
    - intros w' Hw'. apply Hj2 in Hw'. specialize (Hmin _ Hw'). by rewrite N2Nat.id in Hmin.
    - intros v Hgv. pose proof (C35_same_label owner n es sched id Hown Hdel Hidle Hraw Hsym ltac:(intros; lia) u v (Hne u Hgu) (Hne v Hgv)) as [S1 S2].
      split; [intros H; by apply Hj1, S1|]. intros H. apply S2. apply Hj2 in H. by rewrite Nat2N.id in H.
  Qed.

  (** Colouring.  Adjacent vertices of the graph in the file get different colours, and a vertex gets at most its degree. *)
  Theorem C57_colouring : forall owner n b es sched K, Load_Spec.undirected o = true -> (forall v, owner v < n) -> (id K < 2 ^ 31 - 1)%N ->
    (forall v, b v <= in_degree o wss (id v) <= K) ->
    let s := col_run owner b es sched in
    idle s -> (forall u, es u <> [] -> Told u ∈ elog s) ->
    (forall u, ever es sched u = slots (arrived get_ts nthr ps) u /\ edges s u = slots (arrived get_ts nthr ps) u) ->
    (forall u v, graph (id u) (id v) -> u <> v -> fst (prop s u) <> fst (prop s v)) /\
    forall u, (exists b, graph (id u) b) -> (fst (prop s u) <= id (in_degree o wss (id u)))%N.
  Proof.
    intros owner n b es sched K Hu Hown HK Hb s Hidle Htold Hedges.
    assert (HF : forall d, (id (adds_to d (map view evs)) <= 2 ^ 32)%N).
    { intros d. rewrite (file_events prop_of set_ts set_raw zero o nf lines wss evs nthr ps Hl Hp). unfold stream. rewrite (adds_degree prop_of set_ts set_raw zero get_ts o nf 0%N).
      specialize (Hb (N.to_nat d)). rewrite N2Nat.id in Hb. change (2 ^ 31)%N with 2147483648%N in HK. change (2 ^ 32)%N with 4294967296%N. lia. }
    destruct Hp as (Hn & Hs & Hd & psched & Es). destruct (C56_slots zero get_ts nthr evs psched ps Hn Es Hs HF) as (_ & HU & HP).
    assert (HG : forall u v, (exists p, (v, p) ∈ edges s u) <-> graph (id u) (id v)).
    { intros u v. rewrite <- (C57_graph prop_of set_ts set_raw zero get_ts o nf lines wss evs nthr ps Hl Hp get_ts u v). rewrite (proj2 (Hedges u)). unfold slots. split.
      - intros (p & H). apply elem_of_list_In, in_map_iff in H as ([v' [t q]] & E & H). cbn in E. injection E as -> ->. apply in_map_iff. by exists (v, (t, p)).
      - intros H. apply in_map_iff in H as ([v' [t q]] & E & H). cbn in E. subst v'. exists q. apply elem_of_list_In, in_map_iff. by exists (v, (t, q)). }
    assert (Hpr : proper (edges s) (fun v => fst (prop s v)) /\ forall u, edges s u <> [] -> (fst (prop s u) <= id (in_degree o wss (id u)))%N).
    { apply (C38_proper owner n b es sched (fun v => in_degree o wss (id v)) K Hown HK); try done.
      - intros u1 u2 i1 i2 x. rewrite (proj1 (Hedges u1)), (proj1 (Hedges u2)). apply HU.
      - intros u v p. rewrite (proj1 (Hedges u)). intros H. apply HP in H. rewrite (file_events prop_of set_ts set_raw zero o nf lines wss evs nthr ps Hl Hp) in H.
        unfold stream in H. by rewrite (adds_degree prop_of set_ts set_raw zero get_ts o nf 0%N) in H.
      - intros u v p H. apply HG, graph_sym, HG; [done|]. by exists p. }
    destruct Hpr as [H1 H2]. split.
    - intros u v H Hne. apply HG in H as (p & H). by apply (H1 u v p).
    - intros u (c & H). apply H2. rewrite <- (N2Nat.id c) in H. apply HG in H as (p & H). intros E. rewrite E in H. by apply elem_of_nil in H.
  Qed.

  (** Shortest paths, with the weights of the file. *)
  Theorem C57_shortest_paths : forall (weight : P -> Qc) top owner n es sched src, (forall v, owner v < n) -> no_deletion sched -> weights_ok es sched ->
    let s := erun (sssp (fun x => x) top) owner (sssp_start (fun x => x) top es) sched in
    idle s -> (forall u, edges s u = map (fun x => (fst x, fst (snd x))) (arrived weight nthr ps u)) ->
    (forall v x, (v, x) ∈ given owner (sssp_start (fun x => x) top es) sched <-> v = src /\ x = 0%Qc) ->
    let walk := route (event_edge weight events) (id src) in
    forall v, (forall d, walk (id v) d -> (prop s v <= d)%Qc) /\ (walk (id v) (prop s v) \/ prop s v = top).
  Proof.
    intros weight top owner n es sched src Hown Hdel Hw s Hidle Hedges Hinit walk v.
    assert (HE : forall u v w, (v, w) ∈ edges s u <-> event_edge weight events (id u) (id v) w).
    { intros u v' w. unfold event_edge. rewrite <- (C57_edges prop_of set_ts set_raw zero get_ts o nf lines wss evs nthr ps Hl Hp weight u v' w), Hedges. split.
      - intros H. apply elem_of_list_In, in_map_iff in H as ([a [b p]] & E & H). cbn in E. injection E as -> ->. exists p. by apply elem_of_list_In.
      - intros (p & H). apply elem_of_list_In, in_map_iff. exists (v', (w, p)). split; [done|]. by apply elem_of_list_In. }
    assert (HP1 : forall a v d, route (event_edge weight events) a (id v) d -> Min_Spec.path (edges s) (N.to_nat a) v d).
    { intros a v' d H. remember (id v') as b eqn:Eb. revert v' Eb. induction H as [a|a b c w x H IH He]; intros v' Eb; [subst; rewrite Nat2N.id; constructor|].
      subst c. eapply path_snoc; [apply (IH (N.to_nat b)); by rewrite N2Nat.id|]. apply HE. by rewrite N2Nat.id. }
    assert (HP2 : forall u w d, Min_Spec.path (edges s) u w d -> route (event_edge weight events) (id u) (id w) d).
    { intros u w d H. induction H as [|u v' w e x H IH He]; [constructor|]. eapply route_snoc; [exact IH|]. by apply HE. }
    destruct (C36_shortest_paths top owner n es sched Hown Hdel Hw Hidle v) as [H1 H2]. fold s in H1, H2. split.
    - intros d Hd. specialize (H1 src 0%Qc d ltac:(by apply Hinit) ltac:(apply HP1 in Hd; by rewrite Nat2N.id in Hd)). by rewrite Qcplus_0_l in H1.
    - destruct H2 as [(u & x & d & Hi & Hd & E)|E]; [left|by right]. apply Hinit in Hi as [-> ->]. rewrite Qcplus_0_l in E. rewrite E. by apply HP2.
  Qed.

  (** Temporal reachability, when timestamps do not fall along the file and no edge ends: the windows of a vertex cover
      exactly the times from which on it can be reached. *)
  Theorem C57_temporal : forall owner n src b es sched, (forall v, owner v < n) ->
    (forall d, (id (in_degree o wss d) <= 2 ^ 32)%N) ->
    StronglySorted (fun e f => (get_ts (Load_Spec.prop e) <= get_ts (Load_Spec.prop f))%N) events ->
    (forall e, In e events -> (get_ts (Load_Spec.prop e) < INFINITY)%N) ->
    let s := tpath_run owner src (tpath_start b es) sched in
    idle s -> mailed owner src b es sched ->
    (forall u, tever es sched u = arrived get_ts nthr ps u /\ edges s u = map new_edge (arrived get_ts nthr ps u)) ->
    (forall u d ts en p, (d, (ts, en, p)) ∈ es u -> en = 0%N) -> (forall t v l, (t, TEnd v l) ∉ sched) ->
    forall v, v <> src -> exists ws, windows s v = Some ws /\
      forall t, (exists w, w ∈ ws /\ covers t w) <-> (t < INFINITY)%N /\ exists a, arrives (event_edge get_ts events) (id src) (id v) a /\ (a <= t)%N.
  Proof.
    intros owner n src b es sched Hown HF HS HB s Hidle Hm Hedges Hends Hsched v Hv.
    assert (HF' : forall d, (id (adds_to d (map view evs)) <= 2 ^ 32)%N).
    { intros d. rewrite (file_events prop_of set_ts set_raw zero o nf lines wss evs nthr ps Hl Hp). unfold stream. by rewrite (adds_degree prop_of set_ts set_raw zero get_ts o nf 0%N). }
    assert (HX : sound es sched).
    { destruct Hp as (Hn & Hs & Hd & psched & Es). destruct (C56_slots zero get_ts nthr evs psched ps Hn Es Hs HF') as (HU & _ & _).
      destruct (C56_times zero get_ts nthr evs psched ps INFINITY Hn Es Hs HF') as (T1 & T2 & T3).
      { intros i j e f He Hf Hij. destruct (decide (i = j)) as [->|Hne]; [rewrite He in Hf; injection Hf as ->; done|].
        assert (H1 : events !! i = Some (view e)) by (rewrite <- (file_events prop_of set_ts set_raw zero o nf lines wss evs nthr ps Hl Hp), list_lookup_fmap, He; done).
        assert (H2 : events !! j = Some (view f)) by (rewrite <- (file_events prop_of set_ts set_raw zero o nf lines wss evs nthr ps Hl Hp), list_lookup_fmap, Hf; done).
        assert (Hlt : i < j) by lia. clear He Hf Hij Hne. revert HS i j H1 H2 Hlt. clear. generalize events as L. induction 1 as [|x L HS IH HA]; intros i j H1 H2 Hlt; [done|].
        destruct j as [|j]; [lia|]. destruct i as [|i]; [|apply (IH i j H1 H2); lia]. injection H1 as ->. rewrite list.Forall_forall in HA.
        apply (HA (view f)). by eapply elem_of_list_lookup_2. }
      { intros e He. apply (HB (view e)). rewrite <- (file_events prop_of set_ts set_raw zero o nf lines wss evs nthr ps Hl Hp). apply in_map. by apply elem_of_list_In. }
      assert (G : forall u, tever es sched u = arrived get_ts nthr ps u) by apply Hedges. split_and!.
      - intros u1 u2 i1 i2 d a1 a2 p. rewrite !G. apply HU.
      - intros u. rewrite G. apply T1.
      - intros u1 u2 d a1 a2 p1 p2. rewrite !G. apply T2.
      - intros u d a p. rewrite G. apply T3.
      - intros u d ts en p H. assert (Hin : (d, (ts, p)) ∈ tever es sched u).
        { unfold tever. apply elem_of_app. left. apply elem_of_list_In, in_map_iff. exists (d, (ts, en, p)). split; [done|]. by apply elem_of_list_In. }
        rewrite G in Hin. apply T3 in Hin. rewrite (Hends u d ts en p H). unfold extent. simpl. lia.
      - apply list.Forall_forall. intros [t c] Hin. destruct c; try done. by apply Hsched in Hin. }
    assert (HE : forall u w a c, edge_in s u w a c <-> event_edge get_ts events (id u) (id w) a /\ c = INFINITY).
    { intros u w a c. unfold event_edge. rewrite <- (C57_edges prop_of set_ts set_raw zero get_ts o nf lines wss evs nthr ps Hl Hp get_ts u w a). unfold edge_in.
      rewrite (proj2 (Hedges u)). split.
      - intros (en & p & H & ->). apply elem_of_list_In, in_map_iff in H as ([d [t q]] & E & H). cbn in E. injection E as -> -> <- ->. split; [|done].
        exists p. by apply elem_of_list_In.
      - intros [(p & H) ->]. exists 0%N, p. split; [|done]. apply elem_of_list_In, in_map_iff. exists (w, (a, p)). split; [done|]. by apply elem_of_list_In. }
    destruct (C45_exact owner n src b es sched v Hown HX Hidle Hm) as (ws & H1 & _ & _ & H2). fold s in H1, H2. exists ws. split; [done|].
    intros t. rewrite (proj1 (H2 Hv t)). clear H1 H2.
    assert (HC : forall u w a c, carries src (edge_in s) u w a c -> arrives (event_edge get_ts events) (id src) (id w) a /\ c = INFINITY).
    { intros u w a c H. induction H as [w a c He Ha|u w x a c a' c' H IH He Ha].
      - apply HE in He as [He ->]. split; [by apply arr_first|done].
      - apply HE in He as [He ->]. destruct IH as [IH _]. split; [|done]. eapply arr_next; [exact IH|exact He|lia]. }
    assert (HA : forall x a, arrives (event_edge get_ts events) (id src) x a -> exists u, carries src (edge_in s) u (N.to_nat x) a INFINITY).
    { intros x a H. induction H as [x a He Ha|y x a a' H IH He Ha].
      - exists src. apply carries_source; [|done]. apply HE. by rewrite N2Nat.id.
      - destruct IH as (u & IH). exists (N.to_nat y). eapply carries_step; [exact IH| |].
        + apply HE. by rewrite !N2Nat.id.
        + split; [done|]. destruct He as (e & He & _ & _ & <-). by apply HB. }
    split.
    - intros (u & a & c & H & Hc). apply HC in H as [H ->]. unfold covers in Hc. cbn in Hc. split; [lia|]. exists a. split; [done|lia].
    - intros (Ht & a & H & Hle). apply HA in H as (u & H). rewrite Nat2N.id in H. exists u, a, INFINITY. split; [done|]. unfold covers. cbn. lia.
  Qed.
End props.
Print Assumptions C57_components.
Print Assumptions C57_colouring.
Print Assumptions C57_shortest_paths.
Print Assumptions C57_temporal.

(** The file of C20_case (lines "1 2", "# c", "2 3", "3 4", "4 1") with an unconnected "6 5" after it: three loaders, two threads.
    Everything the theorem assumes holds of this run, and its labels. *)
Definition case_lines : list (list N) := ([[49; 32; 50]; [35; 99]; [50; 32; 51]; [51; 32; 52]; [52; 32; 49]; [54; 32; 53]])%N.
Definition case_load := load_run ts_prop ts_set ts_raw (Opts true true false) 2 3 case_lines (concat (repeat [Some 2; None; Some 1; None; Some 0] 14)).
Definition case_pipe := pipe_run 0%N 2 (Load_Model.elog case_load)
  (concat (repeat [WEmit; WThread 1; WRemit; WEmit; WThread 0; WRemit; WEmit; WTake 1; WTake 0] 20) ++ repeat WRemit 20).
Definition case_sched : list (nat * choice cc) :=
  let run t k : list (nat * choice cc) := repeat (t, Run) k in
  let add v : list (nat * choice cc) := [(v mod 2, AddEdges (a := cc) v (map (fun x => (fst x, tt)) (arrived (fun p => p) 2 case_pipe v)))] ++ run (v mod 2) 19 in
  let init v : list (nat * choice cc) := [(v mod 2, SendInit (a := cc) v (N.of_nat v))] ++ run (v mod 2) 5 in
  concat (map (fun v => init v ++ add v) [6; 5; 4; 3; 2; 1]) ++ concat (repeat ((0, Pop) :: run 0 19 ++ (1, Pop) :: run 1 19) 8).
Example C57_case :
  em case_load = EDone /\ eq case_load (ei case_load) = [] /\ spurious case_pipe = false /\ rst case_pipe = RDone /\
  map (arrived (fun p => p) 2 case_pipe) [1; 2; 3; 4; 5; 6] =
    [[(2, (0%N, 0)); (4, (7%N, 1))]; [(1, (1%N, 0)); (3, (2%N, 0))]; [(2, (3%N, 1)); (4, (4%N, 0))]; [(3, (5%N, 1)); (1, (6%N, 1))];
     [(6, (9%N, 0))]; [(5, (8%N, 0))]] /\
  let s := erun cc (fun v => v mod 2) (cc_start (fun _ => [])) case_sched in
  map (todo s) [0; 1] = [[]; []] /\ map (queue s) [0; 1] = [[]; []] /\
  map (fun u => map fst (edges s u)) [1; 2; 3; 4; 5; 6] = map (fun u => map fst (arrived (fun p => p) 2 case_pipe u)) [1; 2; 3; 4; 5; 6] /\
  map (prop s) [1; 2; 3; 4; 5; 6] = [1; 1; 1; 1; 5; 5]%N.
Proof. vm_compute. repeat split; reflexivity. Qed.
