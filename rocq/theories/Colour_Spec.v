(** Graph colouring, for graphs given as lists of (destination, position) at every vertex; the
    position numbers the edges into the destination. *)
From Verif Require Import Base.

(** No two edges ever present share destination and position. *)
Definition slots_unique (ever : nat -> list (nat * nat)) : Prop :=
  forall u1 u2 i1 i2 x, ever u1 !! i1 = Some x -> ever u2 !! i2 = Some x -> u1 = u2 /\ i1 = i2.
Definition undirected (es : nat -> list (nat * nat)) : Prop :=
  forall u v p, (v, p) ∈ es u -> exists q, (u, q) ∈ es v.
(** Adjacent distinct vertices have different colours. *)
Definition proper (es : nat -> list (nat * nat)) (col : nat -> N) : Prop :=
  forall u v p, (v, p) ∈ es u -> u <> v -> col u <> col v.

(** [c] is the smallest number that is not in [used]. *)
Definition smallest_unused (used : N -> Prop) (c : N) : Prop := ~ used c /\ forall d, (d < c)%N -> used d.
