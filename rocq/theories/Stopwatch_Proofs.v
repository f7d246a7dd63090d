From Verif Require Import Base Stopwatch_Spec Stopwatch_Model.
Open Scope Z_scope.

(** The accumulators of [running_time] after a history. *)
Fixpoint acc_after (acc : Z) (since : option Z) (h : list event) : Z * option Z :=
  match h with
  | [] => (acc, since)
  | (SwStart, u) :: h => acc_after 0 (Some u) h
  | (SwPause, u) :: h =>
      match since with Some v => acc_after (acc + (u - v)) None h
                     | None => acc_after acc None h end
  | (SwUnPause, u) :: h => acc_after acc (Some u) h
  | _ :: h => acc_after acc since h
  end.

Lemma running_time_app h h2 now : forall acc since,
  running_time acc since (h ++ h2) now =
  let (acc', since') := acc_after acc since h in running_time acc' since' h2 now.
Proof.
  induction h as [|[o u] h IH]; intros acc since; simpl; [done|].
  destruct o; try apply IH. destruct since; apply IH.
Qed.
Lemma acc_after_app h h2 : forall acc since,
  acc_after acc since (h ++ h2) =
  let (acc', since') := acc_after acc since h in acc_after acc' since' h2.
Proof.
  induction h as [|[o u] h IH]; intros acc since; simpl; [done|].
  destruct o; try apply IH. destruct since; apply IH.
Qed.
Lemma paused_after_app h h2 p : paused_after p (h ++ h2) = paused_after (paused_after p h) h2.
Proof. revert p. induction h as [|[o u] h IH]; intros p; simpl; [done|]. destruct o; apply IH. Qed.
Lemma start_time_app h h2 t : start_time t (h ++ h2) = start_time (start_time t h) h2.
Proof. revert t. induction h as [|[o u] h IH]; intros t; simpl; [done|]. destruct o; apply IH. Qed.

Record sw_inv (t0 : Z) (h : list event) (w : watch) : Prop := {
  si_paused : paused w = paused_after false h;
  si_start : started w = start_time t0 h;
  si_acc : exists acc since, acc_after 0 (Some t0) h = (acc, since) /\
           match since with
           | None => paused w = true /\ acc = pause_time w - adjusted w
           | Some v => paused w = false /\ acc - v = - adjusted w
           end }.

Lemma sw_exec_ok t0 h w e w' r : sw_inv t0 h w -> sw_exec w e = (w', r) ->
  r = sw_expected t0 h e /\ (r <> SwPanic -> sw_inv t0 (h ++ [e]) w').
Proof.
  intros [Hp Hs (acc & since & Ha & Hm)] He. destruct e as [o now].
  assert (Hrt : running_time 0 (Some t0) h now =
                if paused w then pause_time w - adjusted w else now - adjusted w).
  { rewrite <- (app_nil_r h), running_time_app, Ha. simpl.
    destruct since as [v|]; destruct Hm as [-> Hm]; lia. }
  assert (Hinv : forall w2, sw_exec w (o, now) = (w2, r) -> r <> SwPanic ->
            sw_inv t0 (h ++ [(o, now)]) w2).
  { clear He. intros w2 He Hr. split.
    - rewrite paused_after_app, <- Hp. destruct o; simpl in *; repeat case_match; simplify_eq; done.
    - rewrite start_time_app, <- Hs. destruct o; simpl in *; repeat case_match; simplify_eq; done.
    - rewrite acc_after_app, Ha. destruct o; simpl in *;
        destruct since as [v|]; destruct Hm as [Hm1 Hm2]; rewrite ?Hm1 in He; simplify_eq;
        eexists _, _; (split; [reflexivity|]); simpl; split; try done; lia. }
  split; [|by intros; eapply Hinv].
  unfold sw_expected. rewrite <- Hp, <- Hs, Hrt.
  destruct o; simpl in He; destruct (paused w) eqn:E; simplify_eq; try done.
  simpl. f_equal. lia.
Qed.

Lemma sw_run_ok t0 : forall todo h w, sw_inv t0 h w ->
  sw_run w todo = sw_expected_all t0 h todo.
Proof.
  induction todo as [|e todo IH]; intros h w Hi; simpl; [done|].
  destruct (sw_exec w e) as [w' r] eqn:E.
  destruct (sw_exec_ok _ _ _ _ _ _ Hi E) as [Hr Hn]. rewrite <- Hr.
  destruct r; try done; (f_equal; apply IH, Hn; done).
Qed.

Lemma watch_zero_inv t0 : sw_inv t0 [] (watch_zero t0).
Proof. split; [done|done|]. exists 0, (Some t0). simpl. split; [done|]. split; [done|lia]. Qed.

(** With non-decreasing clock readings the running time is non-negative and at most
    the wall time. *)
Fixpoint clock_ok (last : Z) (h : list event) : Prop :=
  match h with [] => True | (_, u) :: h => last <= u /\ clock_ok u h end.
Fixpoint last_time (last : Z) (h : list event) : Z :=
  match h with [] => last | (_, u) :: h => last_time u h end.

Lemma running_time_bounds h now : forall acc since t last,
  clock_ok last h -> last_time last h <= now ->
  0 <= acc -> acc <= last - t ->
  match since with Some v => v <= last /\ acc <= v - t | None => True end ->
  0 <= running_time acc since h now <= now - start_time t h.
Proof.
  induction h as [|[o u] h IH]; intros acc since t last Hc Hn H0 H1 H2; simpl in *.
  - destruct since as [v|]; lia.
  - destruct Hc as [Hlu Hc]. destruct o; simpl;
      try (apply IH with (last := u); try done; try lia; destruct since; lia).
    destruct since as [v|]; apply IH with (last := u); try done; lia.
Qed.
