(** A stream of timed edges and a sliding window over it. *)
From Verif Require Import Base.
From Coq Require Import Sorting.Sorted.
Open Scope nat_scope.

Section spec.
Context {E : Type} (ts : E -> N).
(** An event: a source, and the edge to be added (a destination and a property, which has the time). *)
Notation event := (nat * (nat * E))%type.
Definition at_time (x : event) : N := ts (snd (snd x)).
(** Times never go back. *)
Definition rising (l : list event) : Prop := StronglySorted (fun x y => (at_time x <= at_time y)%N) l.
(** The edges added at [v], in order. *)
Definition outs (v : nat) (l : list event) : list (nat * E) := map snd (List.filter (fun x => fst x =? v) l).
(** The events whose source is one of thread [t]'s. *)
Definition of_thread (owner : nat -> nat) (t : nat) (l : list event) : list event := List.filter (fun x => owner (fst x) =? t) l.
(** The time of the last event. *)
Definition clock (l : list event) : N := match list.last l with Some x => at_time x | None => 0%N end.
(** The edges that are younger than [W] at the time [now]. *)
Definition window (W now : N) (l : list (nat * E)) : list (nat * E) := List.filter (fun e => (now <? ts (snd e) + W)%N) l.
End spec.
