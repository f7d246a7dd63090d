(** Queries over a stream of edges: the graph of a prefix of the stream, and when to ask. *)
From Verif Require Import Base.
Open Scope nat_scope.

(** An event: a source, and an edge (a destination and a property).  The out-edges of [v] after
    the events [l]. *)
Definition out {E} (l : list (nat * (nat * E))) (v : nat) : list (nat * E) :=
  map snd (List.filter (fun x => fst x =? v) l).
