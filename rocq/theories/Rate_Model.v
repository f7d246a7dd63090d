(** Model of the rate limit of the Remitter, graph/stream.go:88-160.
    The target rate is rn/rd events per second (exact instead of float64); times are nanoseconds
    of g.Watch.  [unit] is the factor of line 139: time.Nanosecond = 1 in the code. *)
From Verif Require Import Base Rate_Spec.
Open Scope N_scope.

(** stream.go:24. *)
Definition min_sleep : N := 10 * 10 ^ 6.

Record pace := Pace { remitted : N; allowed : N; now : N }.
(** 92-104. *)
Definition begin (t : N) : pace := Pace 0 0 t.

(** 136, 142: uint64(elapsed seconds * rate). *)
Definition quota (rn rd t : N) : N := (rn * t) / (rd * second).
(** 138-141: extra / rate * unit, at least the minimum, truncated. *)
Definition pause (unit rn rd extra : N) : N := N.max min_sleep ((extra * rd * unit) / rn).

(** One event (105-145): the loop arrives at the check after [d] ns; sleeping takes [o] ns longer than asked. *)
Definition event (unit rn rd : N) (s : pace) (io : N * N) : pace :=
  let '(d, o) := io in
  let t := now s + d in
  let n := remitted s + 1 in
  if negb (rn =? 0) && (allowed s <? n) then
    let q := quota rn rd t in
    if q <? n then
      let t' := t + pause unit rn rd (n - q) + o in
      Pace n (quota rn rd t') t'
    else Pace n q t
  else Pace n (allowed s) t.
Definition remit_all (unit rn rd t0 : N) (l : list (N * N)) : pace := fold_left (event unit rn rd) l (begin t0).
