(** C86: the graph for a comparison is the same graph, with nothing computed yet, and computing on it leaves the original alone. *)
From Verif Require Import Base Copy_Spec Copy_Model Copy_Proofs.
Open Scope nat_scope.

Section props.
  Context {Ed Q M X Mp : Type} (B : nat) (HB : 0 < B) (q0 : Q) (m0 : M).
  Notation heap := (@heap Ed Q M X Mp).

  (** What CopyForOracle leaves in a new property, if there is such a method. *)
  Definition taken (take_over : option (Q -> Q -> Q)) : Q -> Q -> Q := match take_over with Some f => f | None => fun new _ => new end.

  Lemma made (h : heap) g qnew mnew take_over : Forall (in_memory B h) g ->
    exists h1 h' o, oracle_graph B q0 m0 qnew mnew take_over h g = Some (h', o) /\ ext h h' /\ hv h' = hv h1 /\ Forall2 (oth B h h1) g o /\
      forall t gt ot j, g !! t = Some gt -> o !! t = Some ot -> j < slen (verts ot) ->
        (exists q, bread B (hp h) (props gt) j = Some q /\ bread B (hp h') (props ot) j = Some (taken take_over qnew q)) /\ bread B (hm h') (boxes ot) j = Some (mnew, 0).
  Proof using HB.
    intros Mg. unfold oracle_graph. destruct (copy_threads_spec B HB q0 m0 g h Mg) as (h1 & o & E1 & X1 & O & Dp & Db). rewrite E1.
    destruct (reset_done B HB q0 m0 h h1 g o qnew mnew Mg X1 O Dp Db) as (h2 & E2 & R). rewrite E2. assert (R' := R). destruct R' as (X2 & Ev2 & R2).
    destruct take_over as [f|].
    - destruct (take_done B HB q0 m0 h h1 g o qnew mnew Mg X1 O Dp Db f h2 R) as (h3 & E3 & X3 & Ev3 & Em3 & T). rewrite E3. exists h1, h3, o.
      split; [done|]. split; [done|]. split; [done|]. split; [done|]. intros t gt ot j Eg Eo Lj.
      destruct (T t ot gt Eo Eg) as (_ & Hj). destruct (Hj j Lj) as (Hb & _). split; [apply Hb; left; by apply (lookup_lt_Some _ _ _ Eg)|].
      rewrite Em3. destruct (R2 t ot Eo) as (_ & _ & Hr). destruct (Hr j Lj) as (_ & Hr'). apply Hr'. left. by apply (lookup_lt_Some _ _ _ Eg).
    - exists h1, h2, o. split; [done|]. split; [done|]. split; [done|]. split; [done|]. intros t gt ot j Eg Eo Lj.
      destruct (R2 t ot Eo) as (_ & _ & Hr). destruct (Hr j Lj) as (_ & Hr'). destruct Hr' as [Hp Hm]; [left; by apply (lookup_lt_Some _ _ _ Eg)|]. split; [|done].
      destruct (Forall2_lookup_lr _ _ _ _ _ _ O Eg Eo) as [L]. rewrite list.Forall_forall in Mg. destruct (Mg gt) as (_ & P & _); [by eapply elem_of_list_lookup_2|].
      destruct (covers_bread B HB (hp h) (props gt) _ j P) as (q & Eq); [by rewrite <- L|]. exists q. done.
  Qed.

  (** The graph can be made; it has the same vertices, edges, ids and counters; its properties and mailboxes are as new; the original is as before. *)
  Theorem C86_copy (h : heap) g qnew mnew take_over : Forall (in_memory B h) g ->
    exists h' o, oracle_graph B q0 m0 qnew mnew take_over h g = Some (h', o) /\
      same_graph (look B h g) (look B h' o) /\
      fresh_start qnew mnew (taken take_over) (look B h g) (look B h' o) /\
      Forall2 (fun a b => (nedges a, ndels a, at_event a) = (nedges b, ndels b, at_event b)) g o /\
      same_seen (look B h' g) (look B h g).
  Proof using HB.
    intros Mg. destruct (made h g qnew mnew take_over Mg) as (h1 & h' & o & E & Xh & Ev & O & F). exists h', o. split; [done|].
    assert (P : forall t, match g !! t, o !! t with Some gt, Some ot => oth B h h1 gt ot | None, None => True | _, _ => False end).
    { intros t. destruct (g !! t) as [gt|] eqn:Eg.
      - destruct (Forall2_lookup_l _ _ _ _ _ O Eg) as (ot & -> & Ho). done.
      - destruct (o !! t) as [ot|] eqn:Eo; [|done]. destruct (Forall2_lookup_r _ _ _ _ _ O Eo) as (gt & Eg' & _). congruence. }
    split; [|split; [|split]].
    - split; [|split].
      + intros t. cbn. specialize (P t). destruct (g !! t) as [gt|], (o !! t) as [ot|]; try done. cbn. f_equal. symmetry. exact (o_len _ _ _ _ _ P).
      + intros t. cbn. specialize (P t). destruct (g !! t) as [gt|], (o !! t) as [ot|]; try done. cbn. by rewrite (o_map _ _ _ _ _ P), (x_map _ _ Xh).
      + intros t n i En Li. cbn in *. specialize (P t). destruct (g !! t) as [gt|], (o !! t) as [ot|]; try done. cbn in *. injection En as <-. split.
        * unfold sedges. rewrite (o_len _ _ _ _ _ P). destruct (Nat.ltb_spec i (slen (verts gt))) as [_|]; [|lia].
          rewrite Ev, (o_read _ _ _ _ _ P i Li). by rewrite (x_e _ _ Xh).
        * by rewrite (o_str _ _ _ _ _ P), (x_s _ _ Xh).
    - intros t n i En Li. cbn in *. specialize (P t). destruct (g !! t) as [gt|] eqn:Eg, (o !! t) as [ot|] eqn:Eo; try done. cbn in *. injection En as <-.
      apply (F t gt ot i Eg Eo). by rewrite (o_len _ _ _ _ _ P).
    - eapply Forall2_impl; [exact O|]. intros a b Hab. destruct (o_num _ _ _ _ _ Hab) as (E1 & E2 & E3). by rewrite E1, E2, E3.
    - by apply look_ext.
  Qed.

  (** Whatever is written through one of the two graphs, in whatever state memory is by then, cannot be seen through the other,
      unless it is an element of an edge array. *)
  Theorem C86_apart (h h' : heap) g o qnew mnew take_over : Forall (in_memory B h) g -> oracle_graph B q0 m0 qnew mnew take_over h g = Some (h', o) ->
    forall (hh : heap) w, no_edge w -> same_seen (look B (do_write B hh o w) g) (look B hh g) /\ same_seen (look B (do_write B hh g w) o) (look B hh o).
  Proof using HB.
    intros Mg E hh w Nw. destruct (made h g qnew mnew take_over Mg) as (h1 & h'' & o' & E' & _ & _ & O & _). rewrite E in E'. injection E' as <- <-.
    assert (Go : forall t gt, g !! t = Some gt -> arr (verts gt) < length (hv h) /\ below (length (hp h)) (props gt) /\ below (length (hm h)) (boxes gt)).
    { intros t gt Eg. rewrite list.Forall_forall in Mg. destruct (Mg gt) as ((b & Eb & _) & P & Mb & _); [by eapply elem_of_list_lookup_2|].
      split; [by eapply lookup_lt_Some|]. split; [by eapply covers_below|by eapply covers_below]. }
    assert (Oo : forall t ot, o !! t = Some ot -> length (hv h) <= arr (verts ot) /\ from (length (hp h)) (props ot) /\ from (length (hm h)) (boxes ot)).
    { intros t ot Eo. destruct (Forall2_lookup_r _ _ _ _ _ O Eo) as (gt & Eg & Ho). destruct Ho. by split; [lia|]. }
    assert (K : forall (a b : list gthr), 
      (forall t t' x y, a !! t = Some x -> b !! t' = Some y -> arr (verts x) <> arr (verts y) /\ (forall p, In (Some p) (props x) -> ~ In (Some p) (props y)) /\ (forall p, In (Some p) (boxes x) -> ~ In (Some p) (boxes y))) ->
      same_seen (look B (do_write B hh a w) b) (look B hh b)).
    { intros a b D. destruct w as [t i q|t i q|t i q|]; [| | |done]; cbn [do_write]; unfold or_same; destruct (a !! t) as [x|] eqn:Ex; cbn -[Nat.ltb]; try by repeat split.
      all: destruct (Nat.ltb_spec i (slen (verts x))) as [_|_]; cbn; [|by repeat split].
      - destruct (bwrite B (hp hh) (props x) i q) as [p|] eqn:W; cbn; [|by repeat split]. split; [done|]. split; [done|]. intros t' j. cbn. split; [done|]. split; [done|]. split; [|done].
        destruct (b !! t') as [y|] eqn:Ey; cbn; [|done]. destruct (D t t' x y Ex Ey) as (_ & Dp & _). by apply (bwrite_other B HB _ _ (props x) (props y) i q).
      - destruct (bwrite B (hm hh) (boxes x) i q) as [p|] eqn:W; cbn; [|by repeat split]. split; [done|]. split; [done|]. intros t' j. cbn. split; [done|]. split; [done|]. split; [done|].
        destruct (b !! t') as [y|] eqn:Ey; cbn; [|done]. destruct (D t t' x y Ex Ey) as (_ & _ & Dp). by apply (bwrite_other B HB _ _ (boxes x) (boxes y) i q).
      - destruct (swrite (hv hh) (arr (verts x)) i q) as [p|] eqn:W; cbn; [|by repeat split]. split; [done|]. split; [done|]. intros t' j. cbn. split; [|done].
        destruct (b !! t') as [y|] eqn:Ey; cbn; [|done]. destruct (D t t' x y Ex Ey) as (Da & _). unfold sedges, sread. cbn. by rewrite (swrite_ne _ _ _ _ _ _ W). }
    split; apply K; intros t t' x y Ex Ey.
    - destruct (Oo t x Ex) as (A1 & P1 & B1), (Go t' y Ey) as (A2 & P2 & B2). split; [lia|]. split; [by apply (apart B HB (length (hp h)))|by apply (apart B HB (length (hm h)))].
    - destruct (Go t x Ex) as (A1 & P1 & B1), (Oo t' y Ey) as (A2 & P2 & B2). split; [lia|]. split; intros p I J.
      + by apply (apart B HB (length (hp h)) (props y) (props x) P2 P1 p). + by apply (apart B HB (length (hm h)) (boxes y) (boxes x) B2 B1 p).
  Qed.

  (** The elements of the edge arrays are shared: writing one through the new graph is writing it through the original. *)
  Theorem C86_edges_shared (h h' : heap) g o qnew mnew take_over : Forall (in_memory B h) g -> oracle_graph B q0 m0 qnew mnew take_over h g = Some (h', o) ->
    forall t i k e, do_write B h' o (WEdge t i k e) = do_write B h' g (WEdge t i k e).
  Proof using HB.
    intros Mg E t i k e. destruct (made h g qnew mnew take_over Mg) as (h1 & h'' & o' & E' & Xh & Ev & O & _). rewrite E in E'. injection E' as <- <-.
    cbn [do_write]. f_equal. destruct (g !! t) as [gt|] eqn:Eg.
    - destruct (Forall2_lookup_l _ _ _ _ _ O Eg) as (ot & Eo & Ho). rewrite Eo. cbn -[Nat.ltb]. rewrite (o_len _ _ _ _ _ Ho).
      destruct (Nat.ltb_spec i (slen (verts gt))) as [Li|_]; [|done]. rewrite Ev, (o_read _ _ _ _ _ Ho i Li).
      rewrite <- Ev. f_equal. unfold sread. rewrite list.Forall_forall in Mg. destruct (Mg gt) as ((b & Eb & _) & _); [by eapply elem_of_list_lookup_2|].
      by rewrite (x_v _ _ Xh) by (by eapply lookup_lt_Some).
    - destruct (o !! t) as [ot|] eqn:Eo; [|done]. destruct (Forall2_lookup_r _ _ _ _ _ O Eo) as (gt & Eg' & _). congruence.
  Qed.

  (** The views of queries: however the graph grows and queries come, no property bucket is part of two of the graph and its two
      views, and a query's view has a bucket for every vertex. *)
  Definition vinv (s : @vst Q) : Prop :=
    NoDup (vs_g s ++ vs_a s ++ vs_b s) /\ forall p, In p (vs_g s ++ vs_a s ++ vs_b s) -> exists a b, p = Some a /\ vs_store s !! a = Some b /\ length b = B.
  Lemma vinv_ext (st : store Q) k p : (exists a b, p = Some a /\ st !! a = Some b /\ length b = B) -> exists a b, p = Some a /\ (st ++ replicate k (replicate B q0)) !! a = Some b /\ length b = B.
  Proof using HB. intros (a & b & -> & E & L). exists a, b. split; [done|]. split; [|done]. rewrite lookup_app_l; [done|]. by eapply lookup_lt_Some. Qed.
  Lemma vinv_new (st : store Q) k p : In p (map Some (seq (length st) k)) -> exists a b, p = Some a /\ (st ++ replicate k (replicate B q0)) !! a = Some b /\ length b = B.
  Proof using HB.
    intros I. apply in_map_iff in I as (x & <- & I). apply in_seq in I. exists x, (replicate B q0). split; [done|]. split; [|apply replicate_length].
    rewrite lookup_app_r by lia. apply lookup_replicate_2. lia.
  Qed.
  Lemma vinv_step s x : vinv s -> vinv (vstep B q0 s x).
  Proof using HB.
    intros [ND H]. destruct s as [st g a b]. cbn in ND, H.
    assert (K : forall k l, Permutation l ((g ++ a ++ b) ++ map Some (seq (length st) k)) -> NoDup l /\ forall p, In p l -> exists c d, p = Some c /\ (st ++ replicate k (replicate B q0)) !! c = Some d /\ length d = B).
    { intros k l Pl. split.
      - rewrite Pl. apply NoDup_app. split; [done|]. split; [|exact (nodup_seq B HB _ _)]. intros p I J. apply elem_of_list_In in I, J.
        destruct (H p I) as (c & d & -> & E & _). apply in_map_iff in J as (x' & [= <-] & J). apply in_seq in J. apply lookup_lt_Some in E. lia.
      - intros p I. eapply Permutation_in in I; [|exact Pl]. apply in_app_or in I as [I|I]; [by apply vinv_ext, H|by apply vinv_new]. }
    destruct x as [|[|]]; unfold vinv; cbn [vstep allocate vs_g vs_a vs_b vs_store].
    - apply (K 1). cbn. rewrite <- !app_assoc. apply Permutation_app_head. rewrite (app_assoc a b). exact (Permutation_app_comm [Some (length st)] (a ++ b)).
    - apply K. by rewrite <- !app_assoc.
    - apply K. rewrite <- !app_assoc. apply Permutation_app_head, Permutation_app_head. apply Permutation_app_comm.
  Qed.
  Theorem C86_views (l : list vact) : let s := vrun B q0 l in
    NoDup (vs_g s ++ vs_a s ++ vs_b s) /\
    forall second, let s' := vstep B q0 s (View second) in
      covers B (vs_store s') (if second then vs_b s' else vs_a s') (B * length (vs_g s')) /\
      take (length (if second then vs_b s else vs_a s)) (if second then vs_b s' else vs_a s') = (if second then vs_b s else vs_a s) /\
      (if second then vs_a s' = vs_a s else vs_b s' = vs_b s) /\ vs_g s' = vs_g s.
  Proof using HB.
    intros s. assert (V : vinv s).
    { unfold s, vrun. assert (G : forall l s, vinv s -> vinv (fold_left (vstep B q0) l s)); [|apply G; split; [constructor|done]].
      clear - HB. induction l as [|x l IH]; intros s H; [done|]. apply IH. by apply vinv_step. }
    split; [exact (proj1 V)|]. intros second s'. assert (V' : vinv s') by by apply vinv_step. destruct V' as [_ H'].
    assert (F : forall v, (forall p, In p v -> In p (vs_g s' ++ vs_a s' ++ vs_b s')) -> Forall (fun p => exists a b, p = Some a /\ vs_store s' !! a = Some b /\ length b = B) v).
    { intros v Hv. apply list.Forall_forall. intros p I. apply H', Hv. by apply elem_of_list_In. }
    destruct second; cbn [vstep s' allocate vs_g vs_a vs_b].
    - split; [split; [|apply F; intros p I; apply in_or_app; right; apply in_or_app; by right]|].
      + rewrite app_length, map_length, seq_length. nia.
      + split; [by rewrite take_app|done].
    - split; [split; [|apply F; intros p I; apply in_or_app; right; apply in_or_app; by left]|].
      + rewrite app_length, map_length, seq_length. nia.
      + split; [by rewrite take_app|done].
  Qed.
End props.

(** A graph of two threads: three vertices with two buckets of size two, and one vertex; properties are numbers, new ones 7,
    and CopyForOracle adds the given one.  Edges are numbers. *)
Definition ex_heap : @heap nat nat nat nat nat :=
  Heap [[Slice 0 2; Slice 1 0; Slice 2 1; Slice 0 0]; [Slice 3 1]] [[10; 11]; [12; 0]; [20; 0]] [[(1, 1); (2, 0)]; [(3, 0); (0, 0)]; [(4, 2); (0, 0)]]
    [[1; 0; 9]; []; [0]; [5]] [[100; 101]; [102; 0]; [200; 0]] [70; 71].
Definition ex_graph : list gthr :=
  [GT (Slice 0 3) [Some 0; Some 1] [Some 0; Some 1] [Some 0; Some 1] 0 3%N 0%N 5%N; GT (Slice 1 1) [Some 2] [Some 2] [Some 2] 1 1%N 0%N 6%N].
Definition ex_list (h : @heap nat nat nat nat nat) (g : list gthr) : list (list (option (list nat) * option nat * option nat * option (nat * nat))) :=
  map (fun t => map (fun i => (s_edges (look 2 h g) t i, s_str (look 2 h g) t i, s_prop (look 2 h g) t i, s_box (look 2 h g) t i)) (seq 0 (default 0 (s_count (look 2 h g) t)))) [0; 1].
Example C86_case : match oracle_graph 2 0 0 7 8 (Some Nat.add) ex_heap ex_graph with
  | Some (h, o) =>
      ex_list h o = [[(Some [1; 0], Some 100, Some 17, Some (8, 0)); (Some [], Some 101, Some 18, Some (8, 0)); (Some [0], Some 102, Some 19, Some (8, 0))]; [(Some [5], Some 200, Some 27, Some (8, 0))]] /\
      ex_list h ex_graph = ex_list ex_heap ex_graph /\
      ex_list (do_writes 2 h o [WProp 0 2 99; WBox 1 0 (9, 9); WVertex 0 1 (Slice 3 1)]) ex_graph = ex_list ex_heap ex_graph /\
      ex_list (do_writes 2 h o [WEdge 0 0 1 4]) ex_graph <> ex_list ex_heap ex_graph
  | None => False end.
Proof. vm_compute. repeat split. discriminate. Qed.
Lemma ex_in_memory : Forall (in_memory 2 ex_heap) ex_graph.
Proof.
  repeat constructor; cbn; try lia; try (eexists; split; [reflexivity|cbn; lia]); try (eexists _, _; split; [reflexivity|]; split; reflexivity).
Qed.

(** Writing an element of an edge array on the graph made for the comparison is seen in the original: what the TODO at
    oracle-compare.go:14 says. *)
Theorem C86_edges_refuted : exists (h h' : @heap nat nat nat nat nat) g o w, Forall (in_memory 2 h) g /\ oracle_graph 2 0 0 7 8 None h g = Some (h', o) /\
  ~ same_seen (look 2 (do_write 2 h' o w) g) (look 2 h g).
Proof.
  destruct (oracle_graph 2 0 0 7 8 None ex_heap ex_graph) as [[h' o]|] eqn:E; [|vm_compute in E; discriminate].
  exists ex_heap, h', ex_graph, o, (WEdge 0 0 1 4). split; [exact ex_in_memory|]. split; [done|]. vm_compute in E. injection E as <- <-.
  intros (_ & _ & H). destruct (H 0 0) as (He & _). vm_compute in He. discriminate.
Qed.
Example C86_views_case : let s := vrun 2 0 [Grow; View false; Grow; View true; Grow; View false; Grow] in
  (vs_g s, vs_a s, vs_b s) = ([Some 0; Some 2; Some 5; Some 8], [Some 1; Some 6; Some 7], [Some 3; Some 4]).
Proof. vm_compute. reflexivity. Qed.

Print Assumptions C86_copy.
Print Assumptions C86_apart.
Print Assumptions C86_edges_shared.
Print Assumptions C86_edges_refuted.
Print Assumptions C86_views.
