(** C14: stopwatch. *)
From Verif Require Import Base Stopwatch_Spec Stopwatch_Model Stopwatch_Proofs.
Open Scope Z_scope.

(** C14.  Every call history, with any clock readings, returns exactly the total
    running time / time since Start / paused flag, and panics exactly on Start or
    Pause while paused and on UnPause while running. *)
Theorem C14_stopwatch_results : forall (t0 : Z) (h : list event),
  sw_run (watch_zero t0) h = sw_expected_all t0 [] h.
Proof. intros t0 h. exact (sw_run_ok t0 h [] _ (watch_zero_inv t0)). Qed.
Print Assumptions C14_stopwatch_results.

(** C14.  For non-decreasing clock readings the running time is between zero and
    the time since Start. *)
Theorem C14_elapsed_bounds : forall t0 h now,
  clock_ok t0 h -> last_time t0 h <= now ->
  0 <= running_time 0 (Some t0) h now <= now - start_time t0 h.
Proof.
  intros t0 h now H1 H2. apply running_time_bounds with (last := t0); try done; lia.
Qed.
Print Assumptions C14_elapsed_bounds.

Example C14_case :
  sw_run (watch_zero 0)
    [(SwStart, 100); (SwElapsed, 130); (SwPause, 150); (SwElapsed, 170); (SwUnPause, 200);
     (SwElapsed, 210); (SwAbsolute, 215); (SwIsPaused, 216); (SwUnPause, 220)]
  = [SwUnit; SwTime 30; SwTime 50; SwTime 50; SwUnit; SwTime 60; SwTime 115; SwBool false; SwPanic].
Proof. vm_compute. reflexivity. Qed.
