(** Turns of the program with queries (Query_Model), for what happens in the long run.  A turn is a
    step of the Remitter, of the logging goroutine, or of a thread; before every step a thread
    looks at its channel of commands (graph/run-dynamic.go:166-169, which has an effect only where an
    iteration starts) and notices that its topology queue is empty and closed, or empty in an epoch
    (197-217, which has an effect only where it looks for events).

    In a round everybody gets their turn at everything that they may have to do: which of it
    applies is up to the state, the rest does nothing.  Rounds are arbitrary lists otherwise. *)
From Verif Require Import Base Engine_Spec Engine_Model Whole_Model Query_Model.
From Verif Require Term_Model.
Open Scope nat_scope.

Section turns.
Context (a : alg) (owner : nat -> nat) (swap : bool) (n : nat).
Context (evs : list (nat * (nat * edge_t a))) (ask : nat -> bool).

Inductive turn := TRemit | TLog | TThread (t : nat) (x : tchoice a).
Definition actors (y : turn) : list (actor a) :=
  match y with
  | TRemit => [Remitter] | TLog => [Logger]
  | TThread t x => [Thread t Take; Thread t (Loop (Ctl Term_Model.Close)); Thread t x]
  end.
Definition steps_of (l : list turn) : list (actor a) := concat (map actors l).

(** No more initial messages, and no more events that a thread has to remit. *)
Definition allowed (x : actor a) : Prop :=
  match x with
  | Thread _ (Loop (Do (SendInit _ _))) => False
  | Thread _ (Pull _ r) => r = 0%N
  | _ => True
  end.
Definition duties : list (tchoice a) :=
  [Loop (Ctl Term_Model.Go); Loop (Ctl Term_Model.Finish); Loop (Do Run); Loop (Do Pop); Pull 1 0; Answer; Awake].
Definition fair_turns (l : list turn) : Prop :=
  (forall x, x ∈ steps_of l -> allowed x) /\ TRemit ∈ l /\ TLog ∈ l /\
  (forall t x, t < n -> x ∈ duties -> TThread t x ∈ l) /\
  (forall v, v ∈ map fst evs -> TThread (owner v) (Loop (Do (AddEdges v []))) ∈ l).

(** Round after round. *)
Fixpoint after (R : nat -> list turn) (s : qst a) (k : nat) : qst a :=
  match k with O => s | S k => qrun a owner swap n evs ask (after R s k) (steps_of (R k)) end.

(** No thread takes a step in line 63 of termination.go for a thread that is between lines 44 and
    45 (C30, C31). *)
Definition clear (s : qst a) (x : actor a) : Prop :=
  match x with
  | Thread t _ => forall i acc, Term_Model.at_ (trm (who s)) t = Term_Model.KSeen i acc -> forall b, Term_Model.at_ (trm (who s)) i <> Term_Model.KReset b
  | _ => True
  end.
Fixpoint clears (s : qst a) (l : list (actor a)) : Prop :=
  match l with [] => True | x :: l => clear s x /\ clears (qstep a owner swap n evs ask s x) l end.
End turns.
Arguments TRemit {a}. Arguments TLog {a}. Arguments TThread {a} _ _. Arguments actors {a} _. Arguments steps_of {a} _. Arguments allowed {a} _. Arguments duties {a}.
Arguments clear {a} _ _.
