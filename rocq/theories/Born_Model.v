(** Model of CreateEvent and AtEvent: when a vertex is considered to have been created, and
    which vertices a time-series entry counts.  On top of the pipeline of [Remit_Model]. *)
From Verif Require Import Base Vertex_Model Load_Spec Load_Model Remit_Model.
Open Scope N_scope.

Section model.
  Context {P : Type} (zero : P).

  (** [create t raw]: VertexStructure.CreateEvent of the vertex with that RawId in thread [t]'s
      table (meaningful if it is there); [at_ev t]: GraphThread.AtEvent. *)
  Record born := Born { bpipe : pipe P; create : nat -> N -> N; at_ev : nat -> N }.

  (** graph/stream-enact-events.go:15-37 [NewVertex] sets CreateEvent to the number of the event
      that made it look the vertex up, if the vertex is not there yet: in checkToRemit (96-98)
      for the destination, in EnactTopologyEvents (217-219) for the source.  AtEvent is set to
      the last event of the batch (227); here, with one event per step, to the event. *)
  Definition note_new (s : born) (t : nat) (raw ev : N) : nat -> N -> N :=
    match find_idx raw (verts (bpipe s) t) with
    | Some _ => create s
    | None => fun t' v => if (Nat.eqb t' t && (v =? raw))%bool then ev else create s t' v
    end.
  Definition born_step (nthr : N) (s : born) (w : who) : born :=
    let p := bpipe s in
    let p' := step zero nthr p w in
    match w with
    | WThread t =>
        match fe p t with
        | e :: _ => Born p' (note_new s t (tdst e) (event_idx (word e))) (at_ev s)
        | [] => Born p' (create s) (at_ev s)
        end
    | WTake t =>
        match tq p t with
        | r :: _ => Born p' (note_new s t (rsrc r) (event_idx (rword r))) (fset (at_ev s) t (event_idx (rword r)))
        | [] => Born p' (create s) (at_ev s)
        end
    | _ => Born p' (create s) (at_ev s)
    end.
  Definition born_run (nthr : N) (evs : list (tev P)) (sched : list who) : born :=
    fold_left (born_step nthr) sched (Born (pipe_init evs) (fun _ _ => 0) (fun _ => 0)).

  (** graph/queries.go:94-99: AtEventIndex of a query is the maximum over the threads.  (It is
      kept from query to query, but a thread's AtEvent never decreases.) *)
  Definition at_index (nthr : N) (s : born) : N :=
    fold_left (fun m t => N.max m (at_ev s t)) (seq 0 (N.to_nat nthr)) 0.

  (** cmd/lp-colouring/timeseries.go:66-78 (RealVertexCount and the entries of EntryAll; likewise
      main.go:101-113 and lp-temporal-paths/timeseries.go:122-126): the vertices with
      CreateEvent <= AtEventIndex, thread by thread. *)
  Definition counted (nthr : N) (s : born) : list N :=
    flat_map (fun t => List.filter (fun v => create s t v <=? at_index nthr s) (verts (bpipe s) t)) (seq 0 (N.to_nat nthr)).

  (** cmd/lp-pagerank/pagerank.go:216: "vertex would not exist yet"; tested for vertices without
      out-edges only (211). *)
  Definition not_yet (nthr : N) (s : born) (v : N) : bool :=
    at_index nthr s <? create s (wth nthr v) v.
End model.
Arguments born : clear implicits.
