(** Model of the slice helpers of utils/helpers.go. *)
From Verif Require Import Base.
From stdpp Require Import sorting.
Open Scope Z_scope.

(** sort.Slice / sort.Float64s on numbers: some sorting algorithm; on a total
    order the sorted slice is unique, so which one does not matter. *)
Definition sorted_copy (n : list Z) : list Z := merge_sort Z.le n.

(** utils/helpers.go:89-91 [Median] and 93-117 [Percentile] at percentile 50, for
    an integer element type.  int(0.5 * float64(len)) is len/2 exactly (len <
    2^53).  Overflow of the sum is not modelled.  Reads that would be out of range
    would yield the filler 0; with idx = len/2 there are none. *)
Definition median (n : list Z) : Z :=
  match n with
  | [] => 0
  | [x] => x
  | _ =>
      let c := sorted_copy n in
      let idx := (length c / 2)%nat in
      if (length c mod 2 =? 0)%nat || (idx =? 0)%nat then nth idx c 0
      else if nth (idx - 1) c 0 =? nth idx c 0 then nth idx c 0
      else Z.quot (nth (idx - 1) c 0 + nth idx c 0) 2
  end.

(** utils/helpers.go:119-124 [Shuffle]; the i-th call of rand.Intn(i + 1) returns
    [js !! i] (any number <= i; a missing entry means 0). *)
Section shuffle.
  Context {A : Type}.
  Definition swap2 (l : list A) (i j : nat) : list A :=
    match l !! i, l !! j with
    | Some a, Some b => <[i := b]> (<[j := a]> l)
    | _, _ => l
    end.
  Fixpoint shuffle_loop (fuel : nat) (js : nat -> nat) (l : list A) (i : nat) : list A :=
    match fuel with
    | O => l
    | S f => shuffle_loop f js (swap2 l i (js i)) (S i)
    end.
  Definition shuffle (js : nat -> nat) (l : list A) : list A := shuffle_loop (length l) js l 0.

  (** utils/helpers.go:126-131 [RemoveRandomElement]; rand.Intn(len) returned [idx]
      (it panics for an empty slice: [None]). *)
  Definition remove_random (l : list A) (idx : nat) : option (A * list A) :=
    match l !! idx, last l with
    | Some ret, Some z => Some (ret, take (length l - 1) (<[idx := z]> l))
    | _, _ => None
    end.
End shuffle.

(** utils/helpers.go:136-161 [ResultCompare] with ignoreSize = 0 on slices of
    [width]-bit unsigned integers ([b[i] - a[i]] wraps before the conversion to
    float64 and the Abs).  Result: sum of differences (the average times the
    length), twice the median, the index used for the 95th percentile; [None] is an
    index panic.  The float product with 0.95 is taken exactly. *)
Definition l1_delta (width : N) (x y : Z) : Z := Z.abs ((y - x) mod 2 ^ Z.of_N width).
Definition result_compare (width : N) (a b : list Z) : option (Z * Z * Z) :=
  match a with
  | [] => Some (0, 0, 0)
  | _ =>
      if (length b <? length a)%nat then None
      else
        let l := sorted_copy (zip_with (l1_delta width) a b) in
        let sum := fold_left Z.add (zip_with (l1_delta width) a b) 0 in
        let m := (length l / 2)%nat in
        let p := (length l * 95 / 100)%nat in
        if (length l mod 2 =? 1)%nat then
          if (m =? 0)%nat then None                      (* listL1Diff[-1] *)
          else Some (sum, nth (m - 1) l 0 + nth m l 0, nth p l 0)
        else Some (sum, 2 * nth m l 0, nth p l 0)
  end.
