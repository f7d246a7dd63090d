(** Model of the second half of the event pipeline: what an emitter does with its events
    (graph/stream.go:194-222, 342-368), checkToRemit (graph/stream-enact-events.go:86-118 with
    its caller graph/run-dynamic.go:174-184), and the Remitter (graph/stream.go:84-165). *)
From Verif Require Import Base Vertex_Model Load_Spec Load_Model.
Open Scope N_scope.

Section model.
  Context {P : Type} (zero : P) (get_ts : P -> N).

  (** stream.go:71-76 [RawEdgeEvent] with its Edge. *)
  Record rev := Rev { rword : N; rsrc : N; rdst : N; rdidx : N; rpos : N; rprop : P }.
  (** The zero value the queue returns along with "closed". *)
  Definition rev0 : rev := Rev 0 0 0 0 0 zero.

  Inductive bpc := BPut | BOrder (t : nat).
  Inductive rpc := RGet | RLook (t : nat) | RSeen (t : nat) | RDone.

  (** [todo]: events not yet emitted; [fe]: FromEmitQueue per thread; [ord]: the order queue;
      [bclosed]: both closed; per thread the vertices in order of creation (RawIds) and
      InEventPos by RawId; ToRemitQueue with its status; the Remitter; TopologyQueue per thread.
      Logs, oldest first: [emitted], [rlog] (handed on by the Remitter), [taken] (events the
      thread has taken out of its TopologyQueue), and whether the Remitter was ever told that
      a ToRemitQueue is closed. *)
  Record pipe := Pipe {
    todo : list (tev P); bst : bpc; bclosed : bool;
    fe : nat -> list (tev P); ord : list nat;
    verts : nat -> list N; inpos : nat -> N -> N;
    tr : nat -> list rev; trclosed : nat -> bool;
    rst : rpc; tq : nat -> list rev;
    emitted : list (tev P); rlog : list rev; taken : nat -> list rev; spurious : bool }.

  Definition wth (nthr raw : N) : nat := N.to_nat (within raw nthr).

  (** Emitter (or SendAdd/SendDel): put to FromEmitQueue of the destination's thread, then
      its number to [order]; when there is no more, close all. *)
  Definition bstep (nthr : N) (s : pipe) : pipe :=
    match bst s with
    | BPut =>
        match todo s with
        | [] => Pipe (todo s) BPut true (fe s) (ord s) (verts s) (inpos s) (tr s) (trclosed s) (rst s) (tq s) (emitted s) (rlog s) (taken s) (spurious s)
        | e :: rest =>
            let t := wth nthr (tdst e) in
            Pipe rest (BOrder t) (bclosed s) (fset (fe s) t (fe s t ++ [e])) (ord s) (verts s) (inpos s) (tr s) (trclosed s) (rst s) (tq s)
              (emitted s ++ [e]) (rlog s) (taken s) (spurious s)
        end
    | BOrder t =>
        Pipe (todo s) BPut (bclosed s) (fe s) (ord s ++ [t]) (verts s) (inpos s) (tr s) (trclosed s) (rst s) (tq s) (emitted s) (rlog s) (taken s) (spurious s)
    end.

  (** VertexMap look-up or NewVertex (C19): the internal id of a raw id. *)
  Fixpoint find_idx (raw : N) (l : list N) : option nat :=
    match l with
    | [] => None
    | r :: l => if r =? raw then Some O else option_map S (find_idx raw l)
    end.
  Definition lookup_or_new (t : nat) (l : list N) (raw : N) : list N * N :=
    match find_idx raw l with
    | Some i => (l, compress (N.of_nat t) (N.of_nat i))
    | None => (l ++ [raw], compress (N.of_nat t) (N.of_nat (length l)))
    end.

  (** One event of checkToRemit's loop (93-113); when FromEmitQueue is closed and empty the
      thread closes ToRemitQueue (run-dynamic.go:178-184). *)
  Definition gstep (t : nat) (s : pipe) : pipe :=
    match fe s t with
    | [] =>
        if bclosed s
        then Pipe (todo s) (bst s) (bclosed s) (fe s) (ord s) (verts s) (inpos s) (tr s) (fset (trclosed s) t true) (rst s) (tq s) (emitted s) (rlog s) (taken s) (spurious s)
        else s
    | e :: q =>
        let '(vs, didx) := lookup_or_new t (verts s t) (tdst e) in
        let isadd := event_type (word e) =? ADD in
        let pos := if isadd then inpos s t (tdst e) else w32 - 1 in
        let ip := if isadd then (fun r => if r =? tdst e then (inpos s t r + 1) mod w32 else inpos s t r) else inpos s t in
        let r := Rev (word e) (tsrc e) (tdst e) didx pos (tprop e) in
        Pipe (todo s) (bst s) (bclosed s) (fset (fe s) t q) (ord s) (fset (verts s) t vs) (fset (inpos s) t ip)
          (fset (tr s) t (tr s t ++ [r])) (trclosed s) (rst s) (tq s) (emitted s) (rlog s) (taken s) (spurious s)
    end.

  (** The Remitter: next thread from [order] (stop when closed and empty, C11), next event from
      its ToRemitQueue — looking at the queue and at its status are two steps, and the "closed"
      answer is ignored (stream.go:109-112) —, then to the source's TopologyQueue. *)
  Definition remit (nthr : N) (s : pipe) (t : nat) (r : rev) (q : list rev) (sp : bool) : pipe :=
    let d := wth nthr (rsrc r) in
    Pipe (todo s) (bst s) (bclosed s) (fe s) (ord s) (verts s) (inpos s) (fset (tr s) t q) (trclosed s) RGet
      (fset (tq s) d (tq s d ++ [r])) (emitted s) (rlog s ++ [r]) (taken s) sp.
  Definition rmove (s : pipe) (o : list nat) (pc : rpc) : pipe :=
    Pipe (todo s) (bst s) (bclosed s) (fe s) o (verts s) (inpos s) (tr s) (trclosed s) pc (tq s) (emitted s) (rlog s) (taken s) (spurious s).
  Definition rstep (nthr : N) (s : pipe) : pipe :=
    match rst s with
    | RGet =>
        match ord s with
        | t :: o => rmove s o (RLook t)
        | [] => if bclosed s then rmove s [] RDone else s
        end
    | RLook t =>
        match tr s t with
        | r :: q => remit nthr s t r q (spurious s)
        | [] => rmove s (ord s) (RSeen t)
        end
    | RSeen t => if trclosed s t then remit nthr s t rev0 (tr s t) true else rmove s (ord s) (RLook t)
    | RDone => s
    end.

  (** A graph thread takes an event off its TopologyQueue and looks up or creates the source
      (run-dynamic.go:205-216, stream-enact-events.go:214-219). *)
  Definition tstep (t : nat) (s : pipe) : pipe :=
    match tq s t with
    | [] => s
    | r :: q =>
        Pipe (todo s) (bst s) (bclosed s) (fe s) (ord s) (fset (verts s) t (fst (lookup_or_new t (verts s t) (rsrc r)))) (inpos s)
          (tr s) (trclosed s) (rst s) (fset (tq s) t q) (emitted s) (rlog s) (fset (taken s) t (taken s t ++ [r])) (spurious s)
    end.

  Inductive who := WEmit | WThread (t : nat) | WRemit | WTake (t : nat).
  Definition step (nthr : N) (s : pipe) (w : who) : pipe :=
    match w with
    | WEmit => bstep nthr s
    | WThread t => gstep t s
    | WRemit => rstep nthr s
    | WTake t => tstep t s
    end.
  Definition prun (nthr : N) (s : pipe) (sched : list who) : pipe := fold_left (step nthr) sched s.
  Definition pipe_init (evs : list (tev P)) : pipe :=
    Pipe evs BPut false (fun _ => []) [] (fun _ => []) (fun _ _ => 0) (fun _ => []) (fun _ => false) RGet (fun _ => [])
      [] [] (fun _ => []) false.

  (** The Remitter's query checks (stream.go:88, 90-91, 122-131), as the arguments of the
      ExecuteQuery calls while going through the remitted events.  uint64 additions wrap. *)
  Fixpoint query_count (interval next remitted : N) (l : list rev) : list N :=
    match l with
    | [] => []
    | _ :: l =>
        let remitted := (remitted + 1) mod w64 in
        if next <=? remitted then remitted :: query_count interval ((next + interval) mod w64) remitted l
        else query_count interval next remitted l
    end.
  Fixpoint query_time (interval next : N) (l : list rev) : list N :=
    match l with
    | [] => []
    | r :: l =>
        let ts := get_ts (rprop r) in
        if next <=? ts then ts :: query_time interval ((ts + interval) mod w64) l
        else query_time interval next l
    end.
  Definition queries (log_ts edge_count : bool) (interval : N) (l : list rev) : list N :=
    if log_ts then
      if edge_count then query_count interval interval 0 l else query_time interval interval l
    else [].
End model.
Arguments rev : clear implicits.
Arguments pipe : clear implicits.
