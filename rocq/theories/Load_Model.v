(** Model of graph/stream.go: the loader goroutines (EdgeEnqueueToEmitter) and the Emitter. *)
From Verif Require Import Base IO_Model Load_Spec.
Open Scope N_scope.

Section model.
  (** The edge property type E with its ParseProperty, applied to a fresh property of default
      weight and the words after the ids (stream.go:281-284); ReplaceTimestamp; ReplaceRaw. *)
  Context {P : Type} (prop_of : list (list N) -> P) (set_ts set_raw : N -> P -> P).

  (** stream.go:63-68 [TopologyEvent]. *)
  Record tev := Tev { word : N; tsrc : N; tdst : N; tprop : P }.
  (** stream.go:23-24, 28-35 [EventType], [EventIdx]. *)
  Definition EVENT_TYPE_BITS : N := 2.
  Definition EVENT_TYPE_MASK : N := N.shiftl 1 EVENT_TYPE_BITS - 1.
  Definition event_type (w : N) : N := N.land w EVENT_TYPE_MASK.
  Definition event_idx (w : N) : N := N.shiftr w EVENT_TYPE_BITS.

  (** graph-edge.go:9. *)
  Definition MAX_ELEMS_PER_EDGE : nat := 5.

  (** stream.go:279-293: the event of a line whose fields are [fields], the loader's counter
      being [lines].  Only the first [nf] fields are looked at (the two ids and, through
      wPos and tPos, words of the property).  EdgeParser is stream-parse.go:75-81. *)
  Definition make_event (o : opts) (nf : nat) (lines : N) (fields : list (list N)) : tev :=
    let undirectedMul := if undirected o then 2 else 1 in
    let a := to_int (nth 0 fields []) in
    let b := to_int (nth 1 fields []) in
    let p := prop_of (drop 2 (take nf fields)) in
    let p := if logical o then set_ts ((lines * undirectedMul) mod w64) p else p in
    let '(a, b) := if transpose o then (b, a) else (a, b) in
    Tev ADD a b (set_raw b p).

  Inductive lstat := LRun | LClosed | LPanic.
  Inductive epc := EGet | ESeen | ETwin (e : tev) | EDone.

  (** Loader i: the lines it has not read yet, its counter, its field buffer, its status;
      its queue; and the Emitter: where it is, the queue it is at, eventIdx, and the events it
      has handed on (to FromEmitQueue and order), oldest first. *)
  Record load := Load {
    lrest : nat -> list (list N); lcnt : nat -> N; lfields : nat -> list (list N);
    lst : nat -> lstat; eq : nat -> list tev;
    em : epc; ei : nat; eidx : N; elog : list tev }.

  Definition fset {A} (f : nat -> A) (i : nat) (x : A) : nat -> A := fun j => if Nat.eqb j i then x else f j.

  (** stream.go:262-303, one iteration of the loop of loader [i] of [m] (FIFO queue with
      blocking put: C10).  The counter of a comment line is decremented and incremented again. *)
  Definition lstep (o : opts) (nf m i : nat) (s : load) : load :=
    match lst s i with
    | LRun =>
        match lrest s i with
        | [] => Load (lrest s) (lcnt s) (lfields s) (fset (lst s) i LClosed) (eq s) (em s) (ei s) (eidx s) (elog s)
        | b :: rest =>
            match b with
            | [] => Load (lrest s) (lcnt s) (lfields s) (fset (lst s) i LPanic) (eq s) (em s) (ei s) (eidx s) (elog s)
            | c :: _ =>
                if c =? 35
                then Load (fset (lrest s) i rest) (lcnt s) (lfields s) (lst s) (eq s) (em s) (ei s) (eidx s) (elog s)
                else if lcnt s i mod N.of_nat m =? N.of_nat i
                then
                  match fast_fields (lfields s i) b with
                  | None => Load (lrest s) (lcnt s) (lfields s) (fset (lst s) i LPanic) (eq s) (em s) (ei s) (eidx s) (elog s)
                  | Some fields =>
                      Load (fset (lrest s) i rest) (fset (lcnt s) i ((lcnt s i + 1) mod w64)) (fset (lfields s) i fields) (lst s)
                        (fset (eq s) i (eq s i ++ [make_event o nf (lcnt s i) fields])) (em s) (ei s) (eidx s) (elog s)
                  end
                else Load (fset (lrest s) i rest) (fset (lcnt s) i ((lcnt s i + 1) mod w64)) (lfields s) (lst s) (eq s) (em s) (ei s) (eidx s) (elog s)
            end
        end
    | _ => s
    end.

  (** stream.go:182-223, the Emitter.  Looking at the queue and looking at its status are two
      steps, as in RingBuffSPSC.GetSlow (C11). *)
  Definition next_queue (m i : nat) : nat := if (S i <? m)%nat then S i else O.
  Definition estep (o : opts) (m : nat) (s : load) : load :=
    match em s with
    | EGet =>
        match eq s (ei s) with
        | [] => Load (lrest s) (lcnt s) (lfields s) (lst s) (eq s) ESeen (ei s) (eidx s) (elog s)
        | e :: q =>
            let e := Tev (N.lor (word e) (N.shiftl (eidx s) EVENT_TYPE_BITS mod w64)) (tsrc e) (tdst e) (tprop e) in
            if undirected o
            then Load (lrest s) (lcnt s) (lfields s) (lst s) (fset (eq s) (ei s) q) (ETwin e) (ei s) ((eidx s + 1) mod w64) (elog s ++ [e])
            else Load (lrest s) (lcnt s) (lfields s) (lst s) (fset (eq s) (ei s) q) EGet (next_queue m (ei s)) ((eidx s + 1) mod w64) (elog s ++ [e])
        end
    | ESeen =>
        match lst s (ei s) with
        | LClosed => Load (lrest s) (lcnt s) (lfields s) (lst s) (eq s) EDone (ei s) (eidx s) (elog s)
        | _ => Load (lrest s) (lcnt s) (lfields s) (lst s) (eq s) EGet (ei s) (eidx s) (elog s)
        end
    | ETwin e =>
        let w := N.lor (N.land (word e) EVENT_TYPE_MASK) (N.shiftl (eidx s) EVENT_TYPE_BITS mod w64) in
        let p := set_raw (tsrc e) (tprop e) in
        let p := if logical o then set_ts (eidx s) p else p in
        Load (lrest s) (lcnt s) (lfields s) (lst s) (eq s) EGet (next_queue m (ei s)) ((eidx s + 1) mod w64)
          (elog s ++ [Tev w (tdst e) (tsrc e) p])
    | EDone => s
    end.

  (** [Some i]: a step of loader i (there are [m]); [None]: a step of the Emitter. *)
  Fixpoint lrun (o : opts) (nf m : nat) (s : load) (sched : list (option nat)) : load :=
    match sched with
    | [] => s
    | Some i :: sched => lrun o nf m (if (i <? m)%nat then lstep o nf m i s else s) sched
    | None :: sched => lrun o nf m (estep o m s) sched
    end.
  (** LoadGraphStream (stream.go:306-326): every loader reads the same file. *)
  Definition load_init (lines : list (list N)) : load :=
    Load (fun _ => lines) (fun _ => 0) (fun _ => repeat [] MAX_ELEMS_PER_EDGE) (fun _ => LRun) (fun _ => [])
      EGet O 0 [].
End model.
Arguments tev : clear implicits.
Arguments load : clear implicits.
Arguments epc : clear implicits.
