(** C57: the graph that arrives is that of the file. *)
From Verif Require Import Base IO_Model Load_Spec Load_Model Load_Proofs Load_Props Remit_Spec Remit_Model Remit_Proofs Remit_Props.
From Verif Require Import Link_Spec Link_Proofs Link_Props.
Open Scope N_scope.

Section props.
  Context {P : Type} (prop_of : list (list N) -> P) (set_ts set_raw : N -> P -> P) (zero : P) (get_ts : P -> N).

  (** [evs] is what [m] loaders and the emitter make of the edge lines [wss] of a file, under some schedule, to the end. *)
  Definition loads (o : opts) (nf : nat) (lines : list (list N)) (wss : list (list (list N))) (evs : list (tev P)) : Prop :=
    reads nf lines wss /\ N.of_nat (length wss) < 2 ^ 61 /\
    exists m sched, (0 < m)%nat /\ let s := load_run prop_of set_ts set_raw o nf m lines sched in
      em s = EDone /\ eq s (ei s) = [] /\ evs = elog s.
  (** [s] is what the rest of the pipeline makes of [evs], under some schedule, to the end. *)
  Definition piped (nthr : N) (evs : list (tev P)) (s : pipe P) : Prop :=
    0 < nthr /\ spurious s = false /\ rst s = RDone /\ exists sched, s = pipe_run zero nthr evs sched.

  Section file.
  Context (o : opts) (nf : nat) (lines : list (list N)) (wss : list (list (list N))) (evs : list (tev P)) (nthr : N) (s : pipe P).
  Context (Hl : loads o nf lines wss evs) (Hp : piped nthr evs s).
  Notation events := (stream prop_of set_ts set_raw o nf wss).

  Lemma file_events : map view evs = events.
  Proof.
    destruct Hl as (Hr & Hb & m & sched & Hm & E1 & E2 & ->).
    destruct (C20_complete prop_of set_ts set_raw o nf m lines wss sched Hm Hr Hb _ eq_refl E1 E2) as [E _]. exact E.
  Qed.
  Lemma all_arrived {T} (key : P -> T) u : arrived key nthr s u = edges_from key (deliver events) u.
  Proof.
    destruct Hp as (Hn & Hs & Hd & sched & Es). unfold arrived. rewrite (C22_complete zero get_ts nthr evs sched s Hn Es Hs Hd).
    rewrite edges_share. by rewrite file_events.
  Qed.

  Lemma all_adds k (l : list (list (list N))) e : In e (stream_from prop_of set_ts set_raw o nf k l) -> kind e = ADD.
  Proof.
    revert k. induction l as [|ws l IH]; intros k; [done|]. cbn [stream_from]. intros H. apply in_app_iff in H as [H|H]; [|by eapply IH].
    unfold events_of in H. destruct (ids o ws) as [a b]. destruct H as [<-|H]; [done|]. destruct (undirected o); [|done]. by destruct H as [<-|[]].
  Qed.
  Lemma adds_degree k (l : list (list (list N))) d : adds_to d (stream_from prop_of set_ts set_raw o nf k l) = in_degree o l d.
  Proof.
    revert k. induction l as [|ws l IH]; intros k; [by unfold in_degree; destruct (undirected o)|]. cbn [stream_from]. rewrite adds_app, IH.
    unfold events_of, in_degree. cbn [List.filter]. destruct (ids o ws) as [a b]. cbn [fst snd].
    unfold adds_to. cbn [List.filter]. destruct (undirected o); cbn [List.filter]; cbn [kind dst]; rewrite N.eqb_refl; cbn [andb];
      destruct (b =? d); try destruct (a =? d); cbn [length]; lia.
  Qed.
  Lemma stream_edge k (l : list (list (list N))) a b : (exists e, In e (stream_from prop_of set_ts set_raw o nf k l) /\ src e = a /\ dst e = b) <-> graph_edge o l a b.
  Proof.
    revert k. induction l as [|ws l IH]; intros k; cbn [stream_from].
    - split; [by intros (e & [] & _)|]. intros [(ws & [] & _)|(_ & ws & [] & _)].
    - specialize (IH (k + 1)). unfold graph_edge, file_edge in *. split.
      + intros (e & H & Ha & Hb). apply in_app_iff in H as [H|H].
        * unfold events_of in H. destruct (ids o ws) as [x y] eqn:Ei. destruct H as [<-|H].
          { cbn in Ha, Hb. subst. left. exists ws. split; [by left|done]. }
          destruct (undirected o); [|done]. destruct H as [<-|[]]. cbn in Ha, Hb. subst. right. split; [done|]. exists ws. split; [by left|done].
        * destruct (proj1 IH) as [(w & Hw & E)|(Eu & w & Hw & E)]; [by exists e|left|right; split; [done|]]; exists w; (split; [by right|done]).
      + assert (HX : (exists ws0, In ws0 l /\ ids o ws0 = (a, b)) \/ undirected o = true /\ (exists ws0, In ws0 l /\ ids o ws0 = (b, a)) ->
          exists e, In e (events_of prop_of set_ts set_raw o nf k ws ++ stream_from prop_of set_ts set_raw o nf (k + 1) l) /\ src e = a /\ dst e = b).
        { intros H. apply IH in H as (e & He & H). exists e. split; [|done]. apply in_app_iff. by right. }
        intros [(w & [<-|Hw] & E)|(Eu & w & [<-|Hw] & E)]; [|by apply HX; left; exists w| |by apply HX; right; split; [done|exists w]].
        * unfold events_of. rewrite E. eexists. split; [apply in_app_iff; left; by left|done].
        * unfold events_of. rewrite E, Eu. eexists. split; [apply in_app_iff; left; right; by left|done].
  Qed.

  (** An edge is in the list of its source exactly when an event of the file says so. *)
  Theorem C57_edges : forall {T} (key : P -> T) u v w, (exists p, (v, (w, p)) ∈ arrived key nthr s u) <->
    exists e, In e events /\ src e = N.of_nat u /\ dst e = N.of_nat v /\ key (prop e) = w.
  Proof.
    intros T key u v w. rewrite all_arrived. unfold edges_from. split.
    - intros (p & H). apply elem_of_list_In, in_map_iff in H as (x & H & Hx). apply filter_In in Hx as [Hx Hf].
      unfold is_add_from in Hf. apply andb_prop in Hf as [_ Hf]. apply N.eqb_eq in Hf.
      apply elem_of_list_In, elem_of_list_lookup in Hx as (i & Hx). rewrite deliver_lookup in Hx. destruct (events !! i) as [e|] eqn:E; [|done].
      cbn in Hx. injection Hx as <-. cbn in *. injection H as H1 H2 H3. exists e. split_and!; [|done|lia|done].
      apply elem_of_list_In. by eapply elem_of_list_lookup_2.
    - intros (e & He & H1 & H2 & H3). pose proof (all_adds _ _ _ He) as K. apply elem_of_list_In, elem_of_list_lookup in He as (i & He).
      exists (N.to_nat (pos_after (take i events) e)). apply elem_of_list_In, in_map_iff. exists (e, pos_after (take i events) e). split.
      + unfold edge_of. cbn. rewrite H2, H3, Nat2N.id. done.
      + apply filter_In. split.
        * apply elem_of_list_In. eapply elem_of_list_lookup_2. by rewrite deliver_lookup, He.
        * unfold is_add_from. cbn. rewrite K, H1. cbn. by rewrite N.eqb_refl.
  Qed.
  Theorem C57_graph : forall {T} (key : P -> T) u v, In v (map fst (arrived key nthr s u)) <-> graph_edge o wss (N.of_nat u) (N.of_nat v).
  Proof.
    intros T key u v. rewrite <- (stream_edge 0). split.
    - intros H. apply in_map_iff in H as ([v' [w p]] & Hv & H). cbn in Hv. subst v'. destruct (proj1 (C57_edges key u v w)) as (e & He & H1 & H2 & _); [exists p; by apply elem_of_list_In|].
      by exists e.
    - intros (e & He & H1 & H2). destruct (proj2 (C57_edges key u v (key (prop e)))) as (p & H); [by exists e|].
      apply in_map_iff. exists (v, (key (prop e), p)). split; [done|]. by apply elem_of_list_In.
  Qed.
  End file.
End props.
