(** Model of utils/bitmap.go. *)
From Verif Require Import Base Helpers_RoundUp Bitmap_Spec.
Open Scope N_scope.

(** A Go slice of uint64 words: backing array [mem] (its length is the
    capacity), slice length [len], and whether the slice header is nil.
    utils/bitmap.go:12 [type Bitmap []uint64].  Aliasing between bitmaps is not
    modelled (the code never copies the slice header to another owner). *)
Record bitmap := Bm { mem : list N; len : nat; isnil : bool }.

(** [var bm Bitmap]: a nil slice. *)
Definition bm_empty : bitmap := Bm [] 0 true.

Definition words (b : bitmap) : list N := take (len b) (mem b).

(** 0xFFFFFFFFFFFFFFFF *)
Definition full_word : N := w64 - 1.

(** utils/bitmap.go:73-89, the loop of [resize]; [fuel] bounds the number of
    iterations (each adds at least 256, and [v + 1] of them always suffice). *)
Fixpoint resize_loop (fuel : nat) (capacity v : N) : N :=
  match fuel with
  | O => capacity
  | S f =>
      if (0 <? capacity) && (capacity <? v + 1)
      then resize_loop f (capacity + (capacity + 3 * 256) / 4) v
      else capacity
  end.

(** utils/bitmap.go:73-89 [resize].  Go [int] overflow is not modelled
    (arguments are at most 2^26 + 1). *)
Definition resize (capacity v : N) : N :=
  if v <? 256 then round_up_pow (v + 1)
  else
    let capacity := if capacity <? 256 then 256 else capacity in
    resize_loop (N.to_nat (v + 1)) capacity v.

(** utils/bitmap.go:52-61 [grow].  Reslicing within the capacity exposes
    whatever the backing array holds. *)
Definition grow_to (b : bitmap) (idx : nat) : bitmap :=
  if (idx <? length (mem b))%nat
  then Bm (mem b) (S idx) false
  else
    let newcap := N.to_nat (resize (N.of_nat (length (mem b))) (N.of_nat (S idx))) in
    Bm (words b ++ replicate (newcap - len b) 0) (S idx) false.

(** The word index and bit index of a bit: [int(x >> 6)], [int(x % 64)]. *)
Definition word_idx (x : N) : nat := N.to_nat (N.shiftr x 6).
Definition bit_idx (x : N) : N := x mod 64.

(** [( *bitmap)[idx] |= (1 << bit)], 64-bit. *)
Definition or_bit (b : bitmap) (idx : nat) (bit : N) : bitmap :=
  Bm (alter (fun w => N.lor w (N.shiftl 1 bit)) idx (mem b)) (len b) (isnil b).

(** utils/bitmap.go:15-23 [QuickSet]. *)
Definition quick_set (b : bitmap) (x : N) : bitmap * bool :=
  let idx := word_idx x in
  let bit := bit_idx x in
  if (len b <=? idx)%nat then (b, false) else (or_bit b idx bit, true).

(** utils/bitmap.go:26-33 [Set]. *)
Definition set (b : bitmap) (x : N) : bitmap :=
  let idx := word_idx x in
  let bit := bit_idx x in
  let b := if (len b <=? idx)%nat then grow_to b idx else b in
  or_bit b idx bit.

(** utils/bitmap.go:36-40 [Zeroes]: zeroes the words of the slice. *)
Definition zeroes (b : bitmap) : bitmap :=
  Bm (replicate (length (words b)) 0 ++ drop (len b) (mem b)) (len b) (isnil b).

(** utils/bitmap.go:43-49 [Grow].  Note the strict comparison. *)
Definition grow (b : bitmap) (desired : N) : bitmap :=
  let idx := word_idx desired in
  if (len b <? idx)%nat || isnil b then grow_to b idx else b.

(** [bits.TrailingZeros64(^w)]: the number of trailing one bits of [w]. *)
Fixpoint trailing_ones (fuel : nat) (w : N) : N :=
  match fuel with
  | O => 0
  | S f => if N.odd w then 1 + trailing_ones f (N.div2 w) else 0
  end.

(** utils/bitmap.go:64-71 [FirstUnused]: the result is converted to uint32. *)
Fixpoint first_unused_from (i : N) (ws : list N) : N :=
  match ws with
  | [] => N.shiftl i 6 mod w32
  | w :: ws' =>
      if w =? full_word then first_unused_from (i + 1) ws'
      else (N.shiftl i 6 + trailing_ones 64 w) mod w32
  end.
Definition first_unused (b : bitmap) : N := first_unused_from 0 (words b).

(** One API call with its observable result. *)
Definition bm_exec (b : bitmap) (o : bm_op) : bitmap * bm_res :=
  match o with
  | OpSet x => (set b x, RUnit)
  | OpQuickSet x => let (b', r) := quick_set b x in (b', RBool r)
  | OpGrow x => (grow b x, RUnit)
  | OpZeroes => (zeroes b, RUnit)
  | OpFirstUnused => (b, RNum (first_unused b))
  end.

Fixpoint bm_run (b : bitmap) (os : list bm_op) : bitmap * list bm_res :=
  match os with
  | [] => (b, [])
  | o :: os =>
      let (b1, r) := bm_exec b o in
      let (b2, rs) := bm_run b1 os in
      (b2, r :: rs)
  end.
