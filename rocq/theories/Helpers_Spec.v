(** Order statistics and medians, independent of how the code computes them. *)
From Coq Require Import List ZArith Sorted Permutation.
Import ListNotations.
Open Scope Z_scope.

(** [x] is the k-th smallest (from 0) entry of [l]. *)
Definition kth (l : list Z) (k : nat) (x : Z) : Prop :=
  exists s, Permutation s l /\ Sorted Z.le s /\ nth_error s k = Some x.

(** [m] is the median of the non-empty [l]: the middle entry when the length is
    odd, the (truncated) mean of the two middle entries when it is even. *)
Definition median_of (l : list Z) (m : Z) : Prop :=
  (exists k, length l = 2 * k + 1 /\ kth l k m)%nat \/
  (exists k lo hi, length l = 2 * k + 2 /\ kth l k lo /\ kth l (k + 1) hi)%nat /\
  (forall k lo hi, (length l = 2 * k + 2)%nat -> kth l k lo -> kth l (k + 1) hi ->
     m = Z.quot (lo + hi) 2).

(** Mean of absolute differences, as numerator (the denominator is the length). *)
Fixpoint l1_sum (a b : list Z) : Z :=
  match a, b with
  | x :: a, y :: b => Z.abs (y - x) + l1_sum a b
  | _, _ => 0
  end.
