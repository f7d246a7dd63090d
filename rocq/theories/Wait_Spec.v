(** Greedy colouring of a fixed graph; see Colour_Spec.v for how graphs are given. *)
From Verif Require Import Base Colour_Spec.

(** How often [v] is a destination at [u]. *)
Definition mult (es : nat -> list (nat * nat)) (u v : nat) : nat := length (List.filter (fun x => (fst x =? v)%nat) (es u)).
(** An undirected multigraph: as many edges from [u] to [v] as back. *)
Definition balanced (es : nat -> list (nat * nat)) : Prop := forall u v, mult es u v = mult es v u.
(** The colours of the neighbours of [v] that go before it. *)
Definition before (first : nat -> nat -> bool) (es : nat -> list (nat * nat)) (col : nat -> N) (v : nat) (c : N) : Prop :=
  exists u p, (v, p) ∈ es u /\ first u v = true /\ c = col u.
(** Every vertex in [vs] has the smallest colour that none of these has. *)
Definition greedy (first : nat -> nat -> bool) (es : nat -> list (nat * nat)) (col : nat -> N) (vs : nat -> Prop) : Prop :=
  forall v, vs v -> smallest_unused (before first es col v) (col v).
