(** Model of the compare-and-swap loops of utils/atomics.go.  One shared cell, any
    number of threads, each with a list of calls to make.  A load and a CAS are the
    atomic steps.  The cell holds the 64-bit pattern; for the float variants the CAS
    compares bit patterns, and equality of [V] is equality of patterns. *)
From Verif Require Import Base Atomics_Spec.

Section model.
  Context {V Op : Type} (eqb : V -> V -> bool).
  (** [write o old] is the value the loop tries to store, [None] when the loop returns
      without a CAS ([new >= old] in AtomicMin, [new <= old] in AtomicMax). *)
  Context (write : Op -> V -> option V).

  (** Control state of a thread: calls still to start, and inside a call the value
      loaded last. *)
  Record thread := Thread { todo : list Op; loaded : option (Op * V) }.
  Record state := State { cell : V; threads : list thread; log : list (nat * Op * V) }.

  (** One atomic step of thread [t].  utils/atomics.go:15-24 AtomicAddFloat64,
      38-46 AtomicSwapFloat64, 49-56 AtomicMinUint32, 59-66 AtomicMaxUint64,
      69-79 AtomicMinFloat64. *)
  Definition step_thread (s : state) (t : nat) : option state :=
    match threads s !! t with
    | None => None
    | Some th =>
        match loaded th with
        | None =>                                   (* start of an iteration: load *)
            match todo th with
            | [] => None
            | o :: rest =>
                match write o (cell s) with
                | None =>                           (* return old without a CAS *)
                    Some (State (cell s) (<[t := Thread rest None]> (threads s))
                            (log s ++ [(t, o, cell s)]))
                | Some _ =>
                    Some (State (cell s) (<[t := Thread rest (Some (o, cell s))]> (threads s)) (log s))
                end
            end
        | Some (o, old) =>
            match write o old with
            | None => None
            | Some new =>
                if eqb (cell s) old                 (* CAS *)
                then Some (State new (<[t := Thread (todo th) None]> (threads s))
                             (log s ++ [(t, o, old)]))
                else Some (State (cell s) (<[t := Thread (o :: todo th) None]> (threads s)) (log s))
            end
        end
    end.

  (** Any schedule: a list of thread numbers; a thread that cannot move is skipped. *)
  Fixpoint run (s : state) (sched : list nat) : state :=
    match sched with
    | [] => s
    | t :: sched => run (match step_thread s t with Some s' => s' | None => s end) sched
    end.

  Definition start (v0 : V) (progs : list (list Op)) : state :=
    State v0 (map (fun p => Thread p None) progs) [].

  Definition all_done (s : state) : Prop :=
    Forall (fun th => todo th = [] /\ loaded th = None) (threads s).
End model.

(** The instances: AtomicMinUint32 / AtomicMinFloat64, AtomicMaxUint64,
    AtomicAddFloat64 (addition as an arbitrary function: float rounding included),
    AtomicSwapFloat64. *)
Definition min_write (new old : N) : option N := if (old <=? new)%N then None else Some new.
Definition max_write (new old : N) : option N := if (new <=? old)%N then None else Some new.
Definition add_write {V} (plus : V -> V -> V) (delta old : V) : option V := Some (plus old delta).
Definition swap_write {V} (new old : V) : option V := Some new.
