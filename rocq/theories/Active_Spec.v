(** Events of the engine with active notifications: the send of a notification to [v] begins and
    ends; a notification of [v] is handled, with the activity that its handler is told. *)
From Verif Require Import Base.
Inductive aevent := Began_send (v : nat) | Ended_send (v : nat) | Handled (v activity : nat).
Global Instance aevent_eq_dec : EqDecision aevent.
Proof. solve_decision. Defined.

Fixpoint count {A} (p : A -> bool) (l : list A) : nat :=
  match l with [] => 0 | x :: l' => (if p x then 1 else 0) + count p l' end.
Definition began v := count (fun e => match e with Began_send w => (w =? v)%nat | _ => false end).
Definition ended v := count (fun e => match e with Ended_send w => (w =? v)%nat | _ => false end).
Definition handled v := count (fun e => match e with Handled w _ => (w =? v)%nat | _ => false end).
