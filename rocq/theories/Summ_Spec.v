(** C95: what the summaries should say: orders of indexes, how often each value occurs. *)
From Verif Require Import Base.
Open Scope nat_scope.

(** How often [x] occurs. *)
Definition occurs (x : nat) (l : list nat) : nat := length (List.filter (Nat.eqb x) l).

(** [i] belongs before [j]: its key comes first, or neither key comes first and [i] is smaller. *)
Definition before {T} (lt : T -> T -> bool) (key : nat -> T) (i j : nat) : Prop :=
  lt (key i) (key j) = true \/ (lt (key j) (key i) = false /\ i < j).

(** [l] lists the indexes below [n], each once, those that belong before others before them. *)
Definition ordered {T} (lt : T -> T -> bool) (key : nat -> T) (n : nat) (l : list nat) : Prop :=
  Permutation l (seq 0 n) /\ StronglySorted (before lt key) l.

(** A strict weak order (int and string with < or >; float64 without NaN). *)
Record weak {T} (lt : T -> T -> bool) : Prop := {
  wk_irrefl : forall x, lt x x = false;
  wk_trans : forall x y z, lt x y = true -> lt y z = true -> lt x z = true;
  wk_incomp : forall x y z, lt x y = false -> lt y z = false -> lt x z = false }.
