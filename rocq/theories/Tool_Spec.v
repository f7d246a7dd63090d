(** What sorting an edge list by timestamp should do. *)
From Coq Require Import NArith List Permutation Sorted.
From Verif Require Import IO_Spec.
Close Scope N_scope.
Import ListNotations.

(** A line starting with '#' is a comment. *)
Definition comment (l : list N) : bool := match l with c :: _ => N.eqb c 35 | [] => false end.
Definition kept (ls : list (list N)) : list (list N) := filter (fun l => negb (comment l)) ls.

(** The lines whose numbers, counted from [k], are [i] modulo [q]. *)
Fixpoint share (q i k : nat) (ls : list (list N)) : list (list N) :=
  match ls with
  | [] => []
  | l :: ls => (if Nat.eqb (Nat.modulo k q) i then kept [l] else []) ++ share q i (S k) ls
  end.

(** Byte order of strings. *)
Fixpoint before (a b : list N) : Prop :=
  match a, b with
  | _, [] => False
  | [], _ :: _ => True
  | x :: a, y :: b => (x < y)%N \/ (x = y /\ before a b)
  end.

(** The [pos]-th word of a line, empty if there are fewer. *)
Definition stamp (pos : nat) (l w : list N) : Prop := exists ws, splits l ws /\ w = nth pos ws [].

(** [l'] is [l] sorted by a key, lines with equal keys in their old order. *)
Definition sorted_by {A} (lt : A -> A -> Prop) (l l' : list A) : Prop :=
  Permutation l l' /\ StronglySorted (fun a b => ~ lt b a) l' /\
  forall p, (forall a b, In a l -> In b l -> p a = true -> p b = true -> ~ lt a b) -> filter p l' = filter p l.
