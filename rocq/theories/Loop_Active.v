(** The engine with active notifications (Active_Model) as a machine for the loops, for any algorithm. *)
From Verif Require Import Base Active_Spec Active_Model Active_Proofs.
From Verif Require Import Loop_Spec Loop_Model Loop_Proofs Loop_Live Loop_TC.
Open Scope nat_scope.

Section active.
Context (a : aalg) (owner : nat -> nat).
Definition act_kind (c : achoice a) : mkind := match c with ARun => IsRun | APop => IsPop | _ => IsChange end.
Definition act_busy (s : ast a) (t : nat) : bool := match atodo s t with [] => false | _ => true end.
Definition act_send (s : ast a) (t : nat) : option nat := match atodo s t with APut d _ :: _ => Some (owner d) | _ => None end.
Definition act_len (s : ast a) (t : nat) : nat := length (aqueue s t).
Definition act_machine : machine := Machine (ast a) (achoice a) (astep a owner) act_kind act_busy act_send act_len.

Lemma act_lawful n : (forall v, owner v < n) -> lawful n act_machine.
Proof.
  intros Hown. constructor; cbn.
  - intros s t c w _ Hne. unfold act_busy. by rewrite astep_other.
  - intros s t c u Hk Hb. unfold act_busy, act_send, act_len in *. destruct c; try done. destruct (atodo s t) as [|o r] eqn:Et; [done|].
    rewrite (astep_run a owner s t o r u Et). by destruct o.
  - intros s t c u Hk Hb Hl. unfold act_busy, act_len in *. destruct c; try done. destruct (atodo s t) as [|o r] eqn:Et; [|done]. by apply astep_pop.
  - intros s t c u Hk Hb. unfold act_busy, act_len in *. destruct (atodo s t) as [|o r] eqn:Et; [|done]. f_equal. apply astep_change; [done|]. by destruct c.
  - intros s t u. unfold act_send. destruct (atodo s t) as [|[] r]; try done. intros [= <-]. apply Hown.
Qed.
End active.
