(** Turns of the program with sliding windows (QWin_Model), for what happens in the long run: turns, duties and fair rounds are those of
    QDLive_Model; which edges are too old is found out in each pull, so windows need no turns of their own
    (graph/stream-enact-events.go:120-185). *)
From Verif Require Import Base Engine_Spec Engine_Model Whole_Model QDel_Spec QDel_Model QDLive_Model QWin_Spec QWin_Model.
From Verif Require Term_Model.
Open Scope nat_scope.

Section turns.
Context (a : alg) (owner : nat -> nat) (swap : bool) (n : nat).
Context (evs : list (nat * (nat * edge_t a))) (ask : nat -> bool) (ts : edge_t a -> N) (W : N).

(** Round rounds round. *)
Fixpoint xrounds (R : nat -> list (turn a)) (s : xst a) (k : nat) : xst a :=
  match k with O => s | S k => xrun a owner swap n evs ask ts W (xrounds R s k) (steps_of (R k)) end.
(** As [clears] in QDLive_Model (C30, C31). *)
Fixpoint xclears (s : xst a) (l : list (actor a)) : Prop :=
  match l with [] => True | x :: l => clear (base s) x /\ xclears (xstep a owner swap n evs ask ts W s x) l end.
End turns.
