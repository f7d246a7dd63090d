(** Temporal reachability.  An edge (u, v, a, b) appears at time [a] and lasts until [b]. *)
From Verif Require Import Base Window_Spec.
Open Scope N_scope.

(** Something that starts at [src] can cross the edge: it leaves the source at any time after 0; it
    leaves another vertex over an edge that appears strictly while an edge it came by lasts. *)
Inductive carries (src : nat) (E : nat -> nat -> N -> N -> Prop) : nat -> nat -> N -> N -> Prop :=
| carries_source v a b : E src v a b -> 0 < a -> carries src E src v a b
| carries_step u v w a b a' b' : carries src E u v a b -> E v w a' b' -> a < a' < b -> carries src E v w a' b'.

(** What the stream supplies: for each vertex, its edges as (destination, (time, slot at the destination)).
    No slot is used twice; the edges of a vertex come in the order of time, and so do the slots of a
    destination; times are below a bound. *)
Definition slots_once (es : nat -> list (nat * (N * nat))) : Prop :=
  forall u1 u2 i1 i2 d a1 a2 p, es u1 !! i1 = Some (d, (a1, p)) -> es u2 !! i2 = Some (d, (a2, p)) -> u1 = u2 /\ i1 = i2.
Definition by_time (es : nat -> list (nat * (N * nat))) : Prop :=
  forall u, StronglySorted (fun e e' => fst (snd e) <= fst (snd e')) (es u).
Definition slots_by_time (es : nat -> list (nat * (N * nat))) : Prop :=
  forall u1 u2 d a1 a2 p1 p2, (d, (a1, p1)) ∈ es u1 -> (d, (a2, p2)) ∈ es u2 -> (p1 <= p2)%nat -> a1 <= a2.
Definition times_below (bound : N) (es : nat -> list (nat * (N * nat))) : Prop :=
  forall u d a p, (d, (a, p)) ∈ es u -> a < bound.
