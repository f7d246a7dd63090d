(** Model of [RoundUpPow] (used by the bitmap and the ring buffers). *)
From Verif Require Import Base.
Open Scope N_scope.

(** utils/helpers.go:39-49 [RoundUpPow].  uint64 arithmetic: the initial
    decrement and the final increment wrap modulo 2^64; the shifts and ors never
    leave 64 bits. *)
Definition round_up_pow (i0 : N) : N :=
  let i := (i0 + (w64 - 1)) mod w64 in
  let i := N.lor i (N.shiftr i 1) in
  let i := N.lor i (N.shiftr i 2) in
  let i := N.lor i (N.shiftr i 4) in
  let i := N.lor i (N.shiftr i 8) in
  let i := N.lor i (N.shiftr i 16) in
  let i := N.lor i (N.shiftr i 32) in
  (i + 1) mod w64.
