(** Sets of times described by lists of windows.  A window (s, e) is the interval [s, e). *)
From Verif Require Import Base.
Open Scope N_scope.

Definition window : Type := N * N.
(** Time [t] lies in the window; an edge appearing at [t] can be taken (it comes after the start and before the end). *)
Definition covers (t : N) (w : window) : Prop := fst w <= t < snd w.
Definition passes (t : N) (w : window) : Prop := fst w < t < snd w.
(** The same times, in both senses. *)
Definition same_times (l l' : list window) : Prop :=
  forall t, ((exists w, w ∈ l /\ covers t w) <-> (exists w, w ∈ l' /\ covers t w)) /\
            ((exists w, w ∈ l /\ passes t w) <-> (exists w, w ∈ l' /\ passes t w)).
(** Sorted by start. *)
Definition by_start (l : list window) : Prop := StronglySorted (fun a b => fst a <= fst b) l.
(** Well-formed windows, each ending before (or when) the next begins. *)
Definition apart (l : list window) : Prop :=
  Forall (fun w => fst w <= snd w) l /\ StronglySorted (fun a b => fst a <= snd a /\ snd a <= fst b) l.
