(** What PageRank is about, in exact arithmetic.  A graph on the vertices below [N] is a list of
    destinations for each vertex. *)
From Verif Require Import Base RBO_Spec.
From Coq Require Import QArith Qcanon.
Open Scope nat_scope.

(** f 0 + ... + f (n - 1). *)
Fixpoint qsum (f : nat -> Qc) (n : nat) : Qc := match n with 0 => 0%Qc | S k => (qsum f k + f k)%Qc end.
(** The number of edges to [v] in a list of destinations. *)
Definition copies (v : nat) (l : list nat) : nat := length (List.filter (Nat.eqb v) l).
(** A vertex that kept [mass] out of each unit it got handed on d for every 1 - d it kept, in
    equal parts over its edges. *)
Definition part (d mass : Qc) (l : list nat) : Qc := (d / (1 - d) * mass / inject_nat (length l))%Qc.
(** What all of them handed to [v]. *)
Definition handed (d : Qc) (N : nat) (out : nat -> list nat) (mass : nat -> Qc) (v : nat) : Qc :=
  qsum (fun w => inject_nat (copies v (out w)) * part d (mass w) (out w))%Qc N.
(** Masses that balance exactly: nothing is left in mailboxes or unabsorbed. *)
Definition exact_ranks (d : Qc) (N : nat) (out : nat -> list nat) (init mass : nat -> Qc) : Prop :=
  forall v, v < N -> (mass v / (1 - d) = init v + handed d N out mass v)%Qc.
