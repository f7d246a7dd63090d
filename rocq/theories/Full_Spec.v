(** Queues with little room: how many vertices a thread has, and what it means that threads wait for
    each other for ever. *)
From Verif Require Import Base.
Open Scope nat_scope.

(** Vertices below [N] that belong to thread [t]. *)
Definition residents (owner : nat -> nat) (N t : nat) : nat := length (List.filter (fun v => owner v =? t) (seq 0 N)).

(** From [s] on, on every schedule, thread [t] does not end. *)
Definition never {S X} (run : S -> list X -> S) (ended : S -> Prop) (s : S) : Prop := forall l, ~ ended (run s l).
