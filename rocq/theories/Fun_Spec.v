(** What the statistics about temporal paths should say: counts over all vertices that exist,
    whatever thread they are on. *)
From Coq Require Import List NArith.
Import ListNotations.
Open Scope N_scope.

(** A vertex: when it was created, the end times of its out-edges (0: not ended), its windows
    (start, end, hops), latest start first. *)
Record tv := TV { tcreate : N; tends : list N; twins : list (N * N * N) }.

Definition seen (at_event : N) (v : tv) : Prop := tcreate v <= at_event.
Definition active (v : tv) : Prop := In 0 (tends v).
Definition visited (v : tv) : Prop := twins v <> [].
Definition visitable (v : tv) : Prop := exists s h, In (s, 2 ^ 64 - 1, h) (twins v).
(** The start of the [w]-th window of some vertex that exists. *)
Definition start (at_event : N) (all : list tv) (w : nat) (s : N) : Prop :=
  exists v e h, In v all /\ seen at_event v /\ nth_error (twins v) w = Some (s, e, h).

(** [n] of the elements of [l] satisfy [p]. *)
Inductive number {A} (p : A -> Prop) : list A -> N -> Prop :=
| nu_nil : number p [] 0
| nu_yes x l n : p x -> number p l n -> number p (x :: l) (n + 1)
| nu_no x l n : ~ p x -> number p l n -> number p (x :: l) n.
(** Largest and smallest element; [d] if there is none below it (above it). *)
Definition largest (d x : N) (p : N -> Prop) : Prop := (p x \/ x = d) /\ forall y, p y -> y <= x.
Definition smallest (d x : N) (p : N -> Prop) : Prop := (p x \/ x = d) /\ forall y, p y -> x <= y.
