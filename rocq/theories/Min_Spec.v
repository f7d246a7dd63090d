(** Values carried along the walks of a graph. *)
From Verif Require Import Base.
Section spec.
Context {V E : Type} (ext : E -> V -> V).
(** [walk given es v x]: some walk ending in [v] starts at a vertex with a given value and turns
    that value, edge by edge, into [x]. *)
Inductive walk (given : list (nat * V)) (es : nat -> list (nat * E)) : nat -> V -> Prop :=
| walk_given v x : (v, x) ∈ given -> walk given es v x
| walk_edge u v e x : walk given es u x -> (v, e) ∈ es u -> walk given es v (ext e x).

(** [best le top reached x]: [x] is reached, or is the bound [top]; and neither [top] nor
    anything reached is smaller. *)
Definition best (le : V -> V -> Prop) (top : V) (reached : V -> Prop) (x : V) : Prop :=
  (reached x \/ le top x) /\ le x top /\ forall y, reached y -> le x y.
End spec.

(** Vertices that are joined by edges, in the given direction. *)
Inductive joined {E} (es : nat -> list (nat * E)) : nat -> nat -> Prop :=
| joined_refl v : joined es v v
| joined_step u v w e : joined es u v -> (w, e) ∈ es v -> joined es u w.

(** Paths with their lengths. *)
From Coq Require Import QArith Qcanon.
Inductive path (es : nat -> list (nat * Qc)) : nat -> nat -> Qc -> Prop :=
| path_nil v : path es v v 0%Qc
| path_snoc u v w e x : path es u v x -> (w, e) ∈ es v -> path es u w (x + e)%Qc.
