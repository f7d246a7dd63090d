(** Coming to rest, for any machine and with a measure: every step that does something leads down. *)
From Verif Require Import Base Rest_Spec.
Open Scope nat_scope.

Section gen.
Context {S C : Type} (step : S -> nat -> C -> S) (acts : list C) (n : nat) (can : S -> nat -> C -> bool) (inv : S -> Prop) (mu : S -> nat).
Context (Hstep : forall s t c, inv s -> t < n -> c ∈ acts -> inv (step s t c)) (Hout : forall s t c, inv s -> n <= t -> c ∈ acts -> step s t c = s)
  (Hnot : forall s t c, inv s -> c ∈ acts -> can s t c = false -> step s t c = s)
  (Hdown : forall s t c, inv s -> t < n -> c ∈ acts -> can s t c = true -> mu (step s t c) < mu s).
Definition grun (s : S) (l : list (nat * C)) : S := fold_left (fun s '(t, c) => step s t c) l s.
Definition stuck (s : S) : Prop := forall t c, t < n -> c ∈ acts -> can s t c = false.
Lemma grun_step s t c l : grun s ((t, c) :: l) = grun (step s t c) l.
Proof. done. Qed.
Lemma grun_inv s l : inv s -> (forall t c, (t, c) ∈ l -> c ∈ acts) -> inv (grun s l).
Proof.
  revert s. induction l as [|[t c] l IH]; intros s Hs Hl; [done|]. rewrite grun_step. apply IH; [|intros t' c' H; by apply (Hl t' c'), elem_of_list_further].
  pose proof (Hl t c ltac:(apply elem_of_list_here)) as Hc. destruct (decide (t < n)) as [Ht|Ht]; [by apply Hstep|]. rewrite Hout; [done|done|lia|done].
Qed.
Lemma grun_down s l : inv s -> (forall t c, (t, c) ∈ l -> c ∈ acts) ->
  mu (grun s l) < mu s \/ (grun s l = s /\ forall t c, (t, c) ∈ l -> t < n -> can s t c = false).
Proof.
  revert s. induction l as [|[t c] l IH]; intros s Hs Hl; [right; split; [done|intros t c H; by apply elem_of_nil in H]|]. rewrite grun_step.
  assert (Hl' : forall t c, (t, c) ∈ l -> c ∈ acts) by (intros t' c' H; by apply (Hl t' c'), elem_of_list_further).
  pose proof (Hl t c ltac:(apply elem_of_list_here)) as Hc. destruct (decide (t < n)) as [Ht|Ht].
  - destruct (can s t c) eqn:Ec.
    + left. pose proof (Hdown s t c Hs Ht Hc Ec). destruct (IH (step s t c) (Hstep s t c Hs Ht Hc) Hl') as [H1|[-> _]]; lia.
    + rewrite (Hnot s t c Hs Hc Ec). destruct (IH s Hs Hl') as [H1|[-> H1]]; [by left|right]. split; [done|].
      intros t' c' [[= -> ->]|H]%elem_of_cons H'; [done|by apply (H1 t' c')].
  - rewrite (Hout s t c Hs ltac:(lia) Hc). destruct (IH s Hs Hl') as [H1|[-> H1]]; [by left|right]. split; [done|].
    intros t' c' [[= -> ->]|H]%elem_of_cons H'; [done|by apply (H1 t' c')].
Qed.
Lemma grun_stuck s l : inv s -> stuck s -> (forall t c, (t, c) ∈ l -> c ∈ acts) -> grun s l = s.
Proof.
  intros Hs Hq. induction l as [|[t c] l IH]; intros Hl; [done|]. rewrite grun_step.
  assert (Hl' : forall t c, (t, c) ∈ l -> c ∈ acts) by (intros t' c' H; by apply (Hl t' c'), elem_of_list_further).
  pose proof (Hl t c ltac:(apply elem_of_list_here)) as Hc. destruct (decide (t < n)) as [Ht|Ht]; [rewrite Hnot; auto|rewrite Hout; auto; lia].
Qed.
Lemma settles_measure s : inv s -> settles grun acts n (fun s' => inv s' /\ stuck s') s.
Proof.
  intros Hs. exists (1 + mu s). intros rounds. revert s Hs. induction rounds as [|r rounds IH]; intros s Hs HF Hlen; [cbn in Hlen; lia|].
  apply list.Forall_cons in HF as [Hr HF]. cbn [concat]. unfold grun. rewrite fold_left_app. fold (grun s r). fold (grun (grun s r) (concat rounds)).
  assert (HC : forall t c, (t, c) ∈ concat rounds -> c ∈ acts).
  { intros t c Hin. apply elem_of_list_In, in_concat in Hin as (r' & Hr' & Hin). rewrite list.Forall_forall in HF. apply (HF r') with t; by apply elem_of_list_In. }
  destruct Hr as [R1 R2]. destruct (grun_down s r Hs R1) as [H|[-> H]].
  - apply IH; [by apply grun_inv|done|cbn in Hlen; lia].
  - assert (Hq : stuck s). { intros t c Ht Hc. apply H; [|done]. by apply R2. }
    rewrite (grun_stuck s _ Hs Hq HC). done.
Qed.
End gen.
