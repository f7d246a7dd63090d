(** Comparing does no harm to a program in which others leave the properties alone meanwhile. *)
From Verif Require Import Base Oracle_Model.
From Verif Require Engine_Model.
Open Scope nat_scope.

Section harmless.
Context {S A Q : Type} (step : S -> A -> S) (getp : S -> nat -> Q) (setp : S -> (nat -> Q) -> S) (looking : S -> bool) (is_log : A -> bool).
(** [forget] drops what others may have read meanwhile. *)
Context (forget : S -> S) (I : S -> Prop).
Hypothesis Hinv : forall s x, I s -> I (step s x).
Hypothesis get_set : forall s p, getp (setp s p) = p.
Hypothesis set_set : forall s p q, setp (setp s p) q = setp s q.
Hypothesis set_get : forall s, setp s (getp s) = s.
Hypothesis look_set : forall s p, looking (setp s p) = looking s.
Hypothesis f_step : forall s x, forget (step (forget s) x) = forget (step s x).
Hypothesis f_get : forall s, getp (forget s) = getp s.
Hypothesis f_look : forall s, looking (forget s) = looking s.
Hypothesis f_set : forall s p, forget (setp s p) = setp (forget s) p.
Hypothesis Hstill : forall s x p, I s -> looking s = true -> is_log x = false ->
  forget (step (setp s p) x) = forget (setp (step s x) p) /\ getp (step s x) = getp s /\ looking (step s x) = true.

Definition alike (s s' : S) : Prop := forget s = forget s'.
Lemma alike_step s s' x : alike s s' -> alike (step s x) (step s' x).
Proof. unfold alike. intros H. by rewrite <- (f_step s), H, f_step. Qed.
Lemma alike_get s s' : alike s s' -> getp s = getp s'.
Proof. unfold alike. intros H. by rewrite <- (f_get s), H, f_get. Qed.
Lemma alike_look s s' : alike s s' -> looking s = looking s'.
Proof. unfold alike. intros H. by rewrite <- (f_look s), H, f_look. Qed.
Lemma alike_set s s' p : alike s s' -> alike (setp s p) (setp s' p).
Proof. unfold alike. intros H. by rewrite !f_set, H. Qed.

Notation cstep := (cstep step getp setp looking is_log).
Notation kept_at := (kept_at looking is_log).
Definition follows (c : cst) (b : S) : Prop :=
  I b /\ match stash c with
         | None => alike (sys c) b
         | Some p => looking b = true /\ compared c = false /\ p = getp b /\ alike (sys c) (setp b (getp (sys c)))
         end.
Lemma follows_step c b x : follows c b -> follows (cstep c x) (fold_left step (kept_at c x) b).
Proof.
  intros [HI H]. unfold Oracle_Model.cstep, Oracle_Model.kept_at. destruct x as [x| |v q|].
  - destruct (waits looking is_log c x) eqn:Ew; [by split|]. cbn [fold_left]. split; [by apply Hinv|]. cbn [stash sys compared].
    destruct (stash c) as [p|]; [|by apply alike_step]. destruct H as (Hl & Hc & -> & Ha).
    assert (Hx : is_log x = false).
    { unfold waits in Ew. rewrite (alike_look _ _ Ha), look_set, Hl, Hc in Ew. by destruct (is_log x). }
    destruct (Hstill b x (getp (sys c)) HI Hl Hx) as (K1 & K2 & K3).
    assert (Ha' : alike (step (sys c) x) (setp (step b x) (getp (sys c)))) by (unfold alike; rewrite <- K1; by apply alike_step).
    split_and!; [done|by rewrite Hc, andb_false_r|done|]. by rewrite (alike_get _ _ Ha'), get_set.
  - destruct (stash c) as [p|] eqn:Es; [cbn; split; [done|]; by rewrite Es|].
    destruct (looking (sys c) && negb (compared c)) eqn:E; cbn; split; try done; [|by rewrite Es].
    apply andb_prop in E as [El Ec]. cbn. rewrite (alike_look _ _ H) in El. split_and!; try done; [by apply alike_get|].
    by rewrite (alike_get _ _ H), set_get.
  - destruct (stash c) as [p|] eqn:Es; cbn; split; try done; [|by rewrite Es]. cbn. destruct H as (Hl & Hc & -> & Ha). split_and!; try done.
    rewrite get_set. apply (alike_set _ _ (Engine_Model.upd (getp (sys c)) v q)) in Ha. by rewrite set_set in Ha.
  - destruct (stash c) as [p|] eqn:Es; cbn; split; try done; [|by rewrite Es]. cbn. destruct H as (Hl & Hc & -> & Ha).
    apply (alike_set _ _ (getp b)) in Ha. by rewrite set_set, set_get in Ha.
Qed.
Lemma follows_run l : forall c b, follows c b ->
  follows (crun step getp setp looking is_log c l) (fold_left step (kept step getp setp looking is_log c l) b).
Proof.
  induction l as [|x l IH]; intros c b H; [done|]. cbn [crun fold_left kept]. rewrite fold_left_app. apply IH. by apply follows_step.
Qed.
Lemma follows_start b : I b -> follows (cstart b) b.
Proof. intros H. by split. Qed.
End harmless.

(** The steps that are kept are steps of the schedule, in its order. *)
Definition plains {A Q} (l : list (cactor (A := A) (Q := Q))) : list A := flat_map (fun x => match x with Plain x => [x] | _ => [] end) l.
Lemma kept_sub {S A Q : Type} (step : S -> A -> S) (getp : S -> nat -> Q) setp looking is_log l :
  forall c, kept step getp setp looking is_log c l `sublist_of` plains l.
Proof.
  induction l as [|x l IH]; intros c; [done|]. cbn [kept plains flat_map]. apply sublist_app; [|apply IH].
  unfold kept_at. destruct x; try done. destruct (waits _ _ _ _); [apply sublist_nil_l|done].
Qed.
