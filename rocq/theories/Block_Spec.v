(** Queries that do not wait for the algorithm: what can be said of the graph they see. *)
From Verif Require Import Base Query_Spec.
Open Scope nat_scope.

(** Every part of the graph is that of the first so many events, but of how many may differ from part to
    part: [upto] says how many for the part of [v], of at most [k]. *)
Definition in_parts {E} (part : nat -> nat) (evs : list (nat * (nat * E))) (k : nat) (before now : nat -> list (nat * E)) : Prop :=
  exists upto : nat -> nat, forall v, upto (part v) <= k /\ now v = before v ++ out (firstn (upto (part v)) evs) v.
