(** Vertices of one thread that an edge leads to. *)
From Verif Require Import Base.
Open Scope nat_scope.

(** How many of the vertices below [N] that belong to thread [t] have property [P]. *)
Definition owned (owner : nat -> nat) (N t : nat) (P : nat -> bool) : nat := length (List.filter (fun v => (owner v =? t) && P v) (seq 0 N)).
(** An edge leads to [v], which is not [u]. *)
Definition leads {E} (es : list (nat * E)) (u v : nat) : bool := negb (v =? u) && existsb (fun e => fst e =? v) es.
