(** Coming to rest. *)
From Verif Require Import Base.

(** In a round, every thread gets its turn at every kind of action at least once, in any order and as often as one likes,
    and nothing else happens. *)
Definition round {C} (acts : list C) (n : nat) (l : list (nat * C)) : Prop :=
  (forall t c, (t, c) ∈ l -> c ∈ acts) /\ (forall t c, (t < n)%nat -> c ∈ acts -> (t, c) ∈ l).
(** After a certain number of rounds, whatever they are, all is quiet, and stays so. *)
Definition settles {S C} (run : S -> list (nat * C) -> S) (acts : list C) (n : nat) (quiet : S -> Prop) (s : S) : Prop :=
  exists bound, forall rounds, Forall (round acts n) rounds -> (bound <= length rounds)%nat -> quiet (run s (concat rounds)).
