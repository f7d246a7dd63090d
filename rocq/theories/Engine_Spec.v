(** What is expected of notifications, in terms of two kinds of events: the mailbox of a vertex
    got new information ([Told]), and an update cycle of a vertex began ([Began]). *)
From Verif Require Import Base.
Inductive event := Told (v : nat) | Began (v : nat).

(** Every piece of new information is followed by an update cycle of that vertex. *)
Definition answered (l : list event) : Prop := forall l1 v l2, l = l1 ++ Told v :: l2 -> Began v ∈ l2.
Global Instance event_eq_dec : EqDecision event.
Proof. solve_decision. Defined.
