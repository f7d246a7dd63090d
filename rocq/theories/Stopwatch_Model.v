(** Model of utils/stopwatch.go.  Times are integers (nanoseconds); Duration
    saturation is not modelled.  The mutex makes each call atomic. *)
From Verif Require Import Base Stopwatch_Spec.
Open Scope Z_scope.

(** utils/stopwatch.go:8-14 *)
Record watch := Watch { paused : bool; pause_time : Z; started : Z; adjusted : Z }.
(** The zero value; [t0] is Go's zero time. *)
Definition watch_zero (t0 : Z) : watch := Watch false t0 t0 t0.

Definition sw_exec (w : watch) (e : event) : watch * sw_res :=
  let '(o, now) := e in
  match o with
  | SwStart =>    (* stopwatch.go:16-24 *)
      let w' := Watch (paused w) (pause_time w) now now in
      if paused w then (w', SwPanic) else (w', SwUnit)
  | SwElapsed =>  (* stopwatch.go:26-37 *)
      if paused w then (w, SwTime ((now - adjusted w) - (now - pause_time w)))
      else (w, SwTime (now - adjusted w))
  | SwAbsolute => (* stopwatch.go:39-45 *) (w, SwTime (now - started w))
  | SwPause =>    (* stopwatch.go:47-57 *)
      if paused w then (w, SwPanic)
      else (Watch true now (started w) (adjusted w), SwTime (now - adjusted w))
  | SwUnPause =>  (* stopwatch.go:59-68 *)
      if paused w
      then (Watch false (pause_time w) (started w) (adjusted w + (now - pause_time w)), SwUnit)
      else (w, SwPanic)
  | SwIsPaused => (* stopwatch.go:70-72 *) (w, SwBool (paused w))
  end.

Fixpoint sw_run (w : watch) (h : list event) : list sw_res :=
  match h with
  | [] => []
  | e :: h =>
      match sw_exec w e with
      | (_, SwPanic) => [SwPanic]
      | (w', r) => r :: sw_run w' h
      end
  end.
