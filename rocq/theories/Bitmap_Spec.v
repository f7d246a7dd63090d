(** What a user of the bitmap relies on: it is a finite set of numbers with a
    "smallest number not in the set" query.  Nothing here mentions words,
    slices or capacities. *)
From Coq Require Import NArith.

Inductive bm_op :=
| OpSet (x : N)        (* bitmap.Set(x) *)
| OpQuickSet (x : N)   (* bitmap.QuickSet(x) *)
| OpGrow (x : N)       (* bitmap.Grow(x) *)
| OpZeroes             (* bitmap.Zeroes() *)
| OpFirstUnused.       (* bitmap.FirstUnused() *)

Inductive bm_res := RUnit | RBool (b : bool) | RNum (n : N).

(** The smallest number that is not in the set. *)
Definition least_unused (S : N -> Prop) (m : N) : Prop :=
  ~ S m /\ forall k, (k < m)%N -> S k.

Definition add_elem (S : N -> Prop) (x : N) : N -> Prop := fun y => y = x \/ S y.
Definition empty_set : N -> Prop := fun _ => False.

(** One abstract step: the result that may be returned and the set after it.
    [FirstUnused] returns a uint32, hence the [mod 2^32], which only matters
    when all 2^32 numbers are in the set. *)
Inductive bm_step : (N -> Prop) -> bm_op -> bm_res -> (N -> Prop) -> Prop :=
| st_set S x : bm_step S (OpSet x) RUnit (add_elem S x)
| st_quick_ok S x : bm_step S (OpQuickSet x) (RBool true) (add_elem S x)
| st_quick_no S x : bm_step S (OpQuickSet x) (RBool false) S
| st_grow S x : bm_step S (OpGrow x) RUnit S
| st_zero S : bm_step S OpZeroes RUnit empty_set
| st_first S m : least_unused S m ->
    bm_step S OpFirstUnused (RNum (m mod 2 ^ 32)) S.

(** Arguments are uint32. *)
Definition op_ok (o : bm_op) : Prop :=
  match o with
  | OpSet x | OpQuickSet x | OpGrow x => (x < 2 ^ 32)%N
  | _ => True
  end.

(** A whole history with its results is allowed from set [S] to set [S']. *)
Inductive bm_steps : (N -> Prop) -> list bm_op -> list bm_res -> (N -> Prop) -> Prop :=
| sts_nil S : bm_steps S nil nil S
| sts_cons S o r S1 os rs S2 :
    bm_step S o r S1 -> bm_steps S1 os rs S2 ->
    bm_steps S (o :: os) (r :: rs) S2.
