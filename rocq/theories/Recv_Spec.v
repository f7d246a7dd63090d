(** What a thread does with its notifications, independently of how it stores them: it hands them
    to the vertex update one by one. *)
From Verif Require Import Base.

Section spec.
Context {T U : Type} (update : U -> T -> U * N).
(** The vertex updates for [l], in order: the final state and the number of messages sent. *)
Fixpoint hand (u : U) (l : list T) : U * N :=
  match l with
  | [] => (u, 0%N)
  | x :: l => let '(u1, k) := update u x in let '(u2, k2) := hand u1 l in (u2, (k + k2)%N)
  end.
End spec.
