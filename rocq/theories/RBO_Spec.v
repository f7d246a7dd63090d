(** Rank-biased overlap (extrapolated) of two rankings, as a formula over the sizes
    of the intersections of prefixes (Webber, Moffat, Zobel, eq. 32). *)
From Coq Require Import List ZArith QArith Qcanon.
Import ListNotations.
Open Scope Qc_scope.

Definition inject_nat (n : nat) : Qc := Q2Qc (inject_Z (Z.of_nat n)).

(** Number of elements common to the first [d] entries of [s] and of [t]. *)
Definition common (s t : list Z) (d : nat) : nat :=
  length (filter (fun x => existsb (Z.eqb x) (firstn d t)) (firstn d s)).

(** Agreement at depth [d]; beyond the end of the shorter list (length [m]) the
    overlap at [m] is extrapolated. *)
Definition agreement (s t : list Z) (m d : nat) : Qc :=
  inject_nat (common s t d) / inject_nat d +
  (if Nat.leb d m then 0
   else inject_nat (common s t m * (d - m)) / inject_nat (d * m)).

Fixpoint weighted (s t : list Z) (p : Qc) (m : nat) (l : nat) : Qc :=
  match l with
  | O => 0
  | S k => weighted s t p m k + agreement s t m (S k) * ((1 - p) * p ^ k)
  end.

(** [m] and [l] are the lengths of the shorter and of the longer list. *)
Definition rbo_ext (s t : list Z) (p : Qc) : Qc :=
  let m := Nat.min (length s) (length t) in
  let l := Nat.max (length s) (length t) in
  weighted s t p m l +
  ((inject_nat (common s t l) - inject_nat (common s t m)) / inject_nat l +
   inject_nat (common s t m) / inject_nat m) * p ^ l.
