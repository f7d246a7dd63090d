(** Triangles of the undirected graph of a stream of edges; self-loops and repeated edges do not
    count. *)
From Verif Require Import Base.

Definition adj (E : list (nat * nat)) (u v : nat) : bool :=
  negb (u =? v) && existsb (fun '(a, b) => ((a =? u) && (b =? v)) || ((a =? v) && (b =? u))) E.
(** f 0 + ... + f (n - 1). *)
Fixpoint sumn (f : nat -> nat) (n : nat) : nat := match n with 0 => 0 | S k => sumn f k + f k end.
Definition one (b : bool) : nat := if b then 1 else 0.
(** The number of a < b < c < N that are pairwise adjacent. *)
Definition triangles (E : list (nat * nat)) (N : nat) : nat :=
  sumn (fun c => sumn (fun b => sumn (fun a => one (adj E a b && adj E a c && adj E b c)) b) c) N.
