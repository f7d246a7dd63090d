(** What the loops need of a machine, and what is said about it: independent of the loops. *)
From Verif Require Import Base.
Open Scope nat_scope.

Section spec.
Context {S C : Type} (step : S -> nat -> C -> S).
Definition runs (s : S) (l : list (nat * C)) : S := fold_left (fun s '(t, c) => step s t c) l s.
(** Only so much work is left: a set of states closed under the work, on which every step of the work leads down. *)
Definition winds_down (n : nat) (can : S -> nat -> C -> bool) (s : S) : Prop :=
  exists (P : S -> Prop) (mu : S -> nat), P s /\
  forall s t c, P s -> t < n -> can s t c = true -> P (step s t c) /\ mu (step s t c) < mu s.
End spec.
