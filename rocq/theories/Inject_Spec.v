(** What it means to play a sequence of additions and deletions of edges. *)
From Coq Require Import List Permutation NArith.
Import ListNotations.

Section spec.
  Context {A : Type}.
  (** [plays l es l']: from the multiset [l], the events [es] ([true] adds, [false] deletes an
      edge that must be there) lead to the multiset [l']. *)
  Inductive plays : list A -> list (bool * A) -> list A -> Prop :=
  | plays_end l l' : Permutation l l' -> plays l [] l'
  | plays_add l e es l' : plays (e :: l) es l' -> plays l ((true, e) :: es) l'
  | plays_del l l1 e es l' : Permutation l (e :: l1) -> plays l1 es l' -> plays l ((false, e) :: es) l'.
End spec.
