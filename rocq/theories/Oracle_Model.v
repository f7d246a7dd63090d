(** Comparing the graph with a solution computed anew, while a query looks at it: graph/oracle-compare.go:107-141
    (CompareToOracle with finishOriginal, for an algorithm with OnFinish) as graph/queries.go:123-129 calls it.
    The properties of all vertices are saved, OnFinish overwrites them in place (it is called with the graph itself in both
    places), both graphs are compared, and the saved properties are put back; then the query goes on.

    This is put on top of a program that has queries (Query_Model, Block_Model): [step] are its steps, [getp] and [setp] the
    properties of the vertices in its states, [looking] the states in which the logging goroutine has looked at the graph
    (and has handed it to the finishing goroutine) but has not sent RESUME yet, [is_log] its steps.

    What OnFinish does is left open: any writes to any vertices.  Simplifications: saving and putting back are
    one step each; computing the solution (lines 36-104) works on its own graph, with copies of vertices and properties and new mailboxes
    (graph-vertex.go:212-242), and is not a step of this program; a comparison has to be done in every query (as with the option). *)
From Verif Require Import Base.
From Verif Require Engine_Model.
Open Scope nat_scope.

Section compare.
Context {S A Q : Type} (step : S -> A -> S) (getp : S -> nat -> Q) (setp : S -> (nat -> Q) -> S) (looking : S -> bool) (is_log : A -> bool).

Record cst := Cst { sys : S; stash : option (nat -> Q); compared : bool }.
Inductive cactor := Plain (x : A) | Stash | Write (v : nat) (q : Q) | Restore.
(** The logging goroutine does not go on before it has compared. *)
Definition waits (s : cst) (x : A) : bool := is_log x && looking (sys s) && negb (compared s).
Definition cstep (s : cst) (x : cactor) : cst :=
  match x, stash s with
  | Plain x, _ => if waits s x then s else let b := step (sys s) x in Cst b (stash s) (looking b && compared s)
  | Stash, None => if looking (sys s) && negb (compared s) then Cst (sys s) (Some (getp (sys s))) false else s        (* 112-115 *)
  | Write v q, Some _ => Cst (setp (sys s) (Engine_Model.upd (getp (sys s)) v q)) (stash s) (compared s)            (* 119 *)
  | Restore, Some p => Cst (setp (sys s) p) None true                                                               (* 129-134 *)
  | _, _ => s
  end.
Definition crun (s : cst) (sched : list cactor) : cst := fold_left cstep sched s.
Definition cstart (b : S) : cst := Cst b None false.

(** The steps of the program in a schedule, without those of the comparison. *)
Definition kept_at (s : cst) (x : cactor) : list A := match x with Plain x => if waits s x then [] else [x] | _ => [] end.
Fixpoint kept (s : cst) (sched : list cactor) : list A := match sched with [] => [] | x :: l => kept_at s x ++ kept (cstep s x) l end.
End compare.
Arguments Cst {_ _} _ _ _. Arguments sys {_ _} _. Arguments stash {_ _} _. Arguments compared {_ _} _.
Arguments Plain {_ _} _. Arguments Stash {_ _}. Arguments Write {_ _} _ _. Arguments Restore {_ _}.
