(** Triangle counting as a machine for the loops (Loop_Model): which of its actions are work, and
    what is in its queues. *)
From Verif Require Import Base TC_Spec Active_Spec Active_Model Active_Proofs TC_Model TC_Count TC_Static TC_Proofs TC_Props Rest_Spec Rest_Gen Rest_TC TCRest_Props.
From Verif Require Import Loop_Spec Loop_Model Loop_Proofs Loop_Live.
Open Scope nat_scope.

Definition tc_kind (c : tchoice) : mkind := match c with TRun => IsRun | TPop => IsPop | _ => IsChange end.
Definition tc_busy (s : tst) (t : nat) : bool := match atodo (base s) t with [] => false | _ => true end.
Definition tc_send (owner : nat -> nat) (s : tst) (t : nat) : option nat := match atodo (base s) t with APut d _ :: _ => Some (owner d) | _ => None end.
Definition tc_len (s : tst) (t : nat) : nat := length (aqueue (base s) t).
Definition tc_machine (raw : nat -> N) (owner : nat -> nat) (E : list (nat * nat)) : machine :=
  Machine tst tchoice (tstep raw owner E) tc_kind tc_busy (tc_send owner) tc_len.

(** The engine below it. *)
Lemma astep_other (a : aalg) owner (b : ast a) t c w : w <> t -> atodo (astep a owner b t c) w = atodo b w.
Proof.
  intros Hne. unfold astep. destruct (atodo b t) as [|o r]; [destruct c; try done; repeat case_match; try done; cbn; unfold Active_Model.upd; by destruct (Nat.eqb_spec w t)|].
  destruct c; try done. unfold aexec. destruct o; try destruct (areact _ _ _ _ _ _); cbn; unfold Active_Model.upd; by destruct (Nat.eqb_spec w t).
Qed.
Lemma astep_run (a : aalg) owner (b : ast a) t o r u : atodo b t = o :: r ->
  length (aqueue (astep a owner b t ARun) u) = length (aqueue b u) + match o with APut d _ => if u =? owner d then 1 else 0 | _ => 0 end.
Proof.
  intros Et. unfold astep. rewrite Et. unfold aexec. destruct o; try destruct (areact _ _ _ _ _ _); cbn; try lia.
  unfold Active_Model.upd. destruct (Nat.eqb_spec u (owner d)) as [->|]; [|lia]. rewrite app_length. done.
Qed.
Lemma astep_pop (a : aalg) owner (b : ast a) t u : atodo b t = [] -> 0 < length (aqueue b t) ->
  length (aqueue (astep a owner b t APop) u) + (if u =? t then 1 else 0) = length (aqueue b u).
Proof.
  intros Et Hq. unfold astep. rewrite Et. destruct (aqueue b t) as [|[v x] q] eqn:Eq; [cbn in Hq; lia|]. cbn. unfold Active_Model.upd.
  destruct (Nat.eqb_spec u t) as [->|]; [rewrite Eq; cbn; lia|lia].
Qed.
Lemma astep_change (a : aalg) owner (b : ast a) t c u : atodo b t = [] -> c <> APop -> aqueue (astep a owner b t c) u = aqueue b u.
Proof. intros Et Hc. unfold astep. rewrite Et. destruct c; try done; by case_match. Qed.

Lemma tc_lawful raw owner E n : (forall v, owner v < n) -> lawful n (tc_machine raw owner E).
Proof.
  intros Hown. constructor; cbn.
  - intros s t c w _ Hne. unfold tc_busy. enough (atodo (base (tstep raw owner E s t c)) w = atodo (base s) w) as -> by done.
    destruct c as [| |v|v|v k]; cbn [tstep base]; try by apply astep_other.
    + repeat case_match; try done; cbn [base]; by apply astep_other.
    + repeat case_match; try done; cbn [base]; by apply astep_other.
  - intros s t c u Hk Hb. unfold tc_busy, tc_send, tc_len in *. destruct c; try done. destruct (atodo (base s) t) as [|o r] eqn:Et; [done|].
    cbn [tstep base]. rewrite (astep_run tcount owner (base s) t o r u Et). by destruct o.
  - intros s t c u Hk Hb Hl. unfold tc_busy, tc_len in *. destruct c; try done. destruct (atodo (base s) t) as [|o r] eqn:Et; [|done].
    cbn [tstep base]. by apply astep_pop.
  - intros s t c u Hk Hb. unfold tc_busy, tc_len in *. destruct (atodo (base s) t) as [|o r] eqn:Et; [|done]. f_equal.
    destruct c as [| |v|v|v k]; try done; cbn [tstep base]; rewrite ?Et.
    + by apply astep_change.
    + repeat case_match; try done; cbn [base]; by apply astep_change.
    + repeat case_match; try done; cbn [base]; by apply astep_change.
  - intros s t u. unfold tc_send. destruct (atodo (base s) t) as [|[] r]; try done. intros [= <-]. apply Hown.
Qed.

Section tc.
Context (raw : nat -> N) (owner : nat -> nat) (E : list (nat * nat)) (M nt : nat) (st : bool).
Hypothesis Hown : forall v, owner v < nt.
Hypothesis Hraw : forall u v, u < M -> v < M -> raw u = raw v -> u = v.
Hypothesis Hsmall : forall v, v < M -> (raw v < 2147483647)%N.
Hypothesis Hends : forall a b, (a, b) ∈ E -> a < M /\ b < M.
Notation TM := (tc_machine raw owner E).

Lemma able_can s t c : able TM s t c = true -> can owner E s t c = true /\ forall v, c <> TNote v.
Proof.
  unfold able. cbn. destruct c; cbn; try done; unfold tc_busy, tc_len.
  all: intros H; split; [|done]; destruct (atodo (base s) t); try done; destruct (aqueue (base s) t); done.
Qed.
Lemma tc_winds s : tinv raw owner E M nt st s -> winds_down (tstep raw owner E) nt (able TM) s.
Proof.
  intros HI. exists (tinv raw owner E M nt st), (mu E M nt). split; [done|]. intros s' t c H Ht Ha. apply able_can in Ha as [Hc Hv]. split; [by apply tinv_step|].
  by apply (step_down raw owner E M nt st Hown Hraw Hsmall Hends).
Qed.
End tc.
