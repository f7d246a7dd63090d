(** What a stopwatch shows, computed from the call history alone. *)
From Coq Require Import List ZArith.
Import ListNotations.
Open Scope Z_scope.

Inductive sw_op := SwStart | SwPause | SwUnPause | SwElapsed | SwAbsolute | SwIsPaused.
Inductive sw_res := SwUnit | SwTime (z : Z) | SwBool (b : bool) | SwPanic.

(** A history is a list of calls with the clock reading each of them saw, oldest
    first.  The calls that matter for the state: *)
Definition event : Type := sw_op * Z.

(** Is the watch paused after the history (legal calls only)? *)
Fixpoint paused_after (p : bool) (h : list event) : bool :=
  match h with
  | [] => p
  | (SwPause, _) :: h => paused_after true h
  | (SwUnPause, _) :: h => paused_after false h
  | _ :: h => paused_after p h
  end.

(** Time of the last Start. *)
Fixpoint start_time (t : Z) (h : list event) : Z :=
  match h with
  | [] => t
  | (SwStart, u) :: h => start_time u h
  | _ :: h => start_time t h
  end.

(** Total running time up to [now]: [acc] so far; running since [Some last] or
    paused ([None]). *)
Fixpoint running_time (acc : Z) (since : option Z) (h : list event) (now : Z) : Z :=
  match h with
  | [] => match since with Some u => acc + (now - u) | None => acc end
  | (SwStart, u) :: h => running_time 0 (Some u) h now
  | (SwPause, u) :: h =>
      match since with Some v => running_time (acc + (u - v)) None h now
                     | None => running_time acc None h now end
  | (SwUnPause, u) :: h => running_time acc (Some u) h now
  | _ :: h => running_time acc since h now
  end.

(** The result each call must have after history [h]; [t0] is the zero clock of a
    watch that was never started. *)
Definition sw_expected (t0 : Z) (h : list event) (e : event) : sw_res :=
  let '(o, now) := e in
  match o with
  | SwStart => if paused_after false h then SwPanic else SwUnit
  | SwPause => if paused_after false h then SwPanic else SwTime (running_time 0 (Some t0) h now)
  | SwUnPause => if paused_after false h then SwUnit else SwPanic
  | SwElapsed => SwTime (running_time 0 (Some t0) h now)
  | SwAbsolute => SwTime (now - start_time t0 h)
  | SwIsPaused => SwBool (paused_after false h)
  end.

(** Results of a whole history; nothing after a panic. *)
Fixpoint sw_expected_all (t0 : Z) (done todo : list event) : list sw_res :=
  match todo with
  | [] => []
  | e :: todo =>
      match sw_expected t0 done e with
      | SwPanic => [SwPanic]
      | r => r :: sw_expected_all t0 (done ++ [e]) todo
      end
  end.
