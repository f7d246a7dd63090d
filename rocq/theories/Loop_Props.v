(** C70: the program as a whole for algorithms with active notifications, and triangle counting in
    particular.  When every thread has left its loop, on whatever schedule, nothing is left, the check
    at the end passes, and the number of triangles is exact.  Once no more topology events come,
    every fair schedule ends (as in C61, for the code as it is without a vote read between the two
    writes of lines 44-45). *)
From Verif Require Import Base TC_Spec Active_Spec Active_Model Active_Proofs TC_Model TC_Count TC_Static TC_Proofs TC_Props Rest_Spec Rest_Gen Rest_TC TCRest_Props.
From Verif Require Import Loop_Spec Loop_Model Loop_Proofs Loop_Live Loop_TC.
From Verif Require Term_Model Term_Proofs Term_All Term_Live.
Open Scope nat_scope.

(** Where the loops start: no thread is in the middle of anything, and the initial notifications,
    all for threads that exist, have been counted as sent. *)
Definition fresh {m : machine} (n : nat) (e : m_st m) (sent0 : nat -> N) : Prop :=
  (forall t, m_busy e t = false) /\ (forall t, n <= t -> m_len e t = 0) /\ sumN sent0 n = sumN (fun t => N.of_nat (m_len e t)) n.
Definition left {m : machine} (s : wst m) (t : nat) : Prop := Term_Model.at_ (trm s) t = Term_Model.Done.

Section loop.
Context (m : machine) (swap : bool) (n : nat) (L : lawful n m).

(** All threads have left. *)
Theorem C70_whole e own sent0 sched later : fresh n e sent0 ->
  let s0 := wstart m e own sent0 in let s := wrun m swap n s0 sched in
  (forall t, t < n -> left s t) ->
  eng s = runs m_step e (eworks m swap n s0 sched) /\ (forall t, m_busy (eng s) t = false /\ m_len (eng s) t = 0) /\ complete n s = true /\
  eng (wrun m swap n s later) = eng s.
Proof.
  intros (F1 & F2 & F3) s0 s Hl.
  assert (HW0 : winv m n s0) by (by apply winv_start).
  assert (HW : winv m n s) by (by apply (winv_run m swap n L)).
  assert (He : eng s = runs m_step e (eworks m swap n s0 sched)) by (unfold s; by rewrite eng_run).
  assert (HQ : Term_Proofs.quiet n (trm s)).
  { unfold s. rewrite trm_run. apply Term_All.all_left_quiet. intros t Ht. specialize (Hl t Ht). unfold left, s in Hl. by rewrite trm_run in Hl. }
  pose proof (quiet_resting m n s HW HQ) as HI.
  split_and!; [done|exact HI|by apply resting_complete|by apply (quiet_run m swap n L)].
Qed.

(** The loops end. *)
Theorem C70_ends e own sent0 sched cr cp : fresh n e sent0 -> m_kind cr = IsRun -> m_kind cp = IsPop ->
  let s0 := wstart m e own sent0 in let s := wrun m swap n s0 sched in
  closed m n s -> winds_down m_step n (able m) (eng s) ->
  exists bound, forall rounds, Forall (fair_round m n cr cp) rounds -> bound <= length rounds ->
    swap = true \/ Term_Proofs.tidy swap n (trm s0) (lworks m swap n s0 (sched ++ concat rounds)) ->
    let s' := wrun m swap n s (concat rounds) in
    (forall t, t < n -> left s' t) /\ complete n s' = true /\ (forall t, m_busy (eng s') t = false /\ m_len (eng s') t = 0) /\
    eng s' = runs m_step (eng s) (eworks m swap n s (concat rounds)) /\ forall t c, (t, c) ∈ eworks m swap n s (concat rounds) -> m_kind c <> IsChange.
Proof.
  intros Hf Hcr Hcp s0 s HC (P & mu & HP & Hdown). destruct Hf as (F1 & F2 & F3).
  assert (HW0 : winv m n s0) by (by apply winv_start).
  destruct (ends m swap n L P mu Hdown cr cp Hcr Hcp e own sent0 sched HW0 HC HP) as (bound & Hb). exists bound. intros rounds HF Hl Htd s'.
  specialize (Hb rounds HF Hl Htd). fold s0 s s' in Hb.
  assert (Es : s' = wrun m swap n s0 (sched ++ concat rounds)) by (unfold s', s; by rewrite wrun_app).
  assert (Hleft : forall t, t < n -> left (wrun m swap n s0 (sched ++ concat rounds)) t) by (rewrite <- Es; exact Hb).
  destruct (C70_whole e own sent0 (sched ++ concat rounds) [] ltac:(by split_and!) Hleft) as (_ & HI & HCm & _). fold s0 in HI, HCm. rewrite <- Es in HI, HCm.
  split_and!; [exact Hb|done|exact HI|unfold s'; by rewrite eng_run|].
  intros t c Hin. apply eworks_in in Hin. apply elem_of_list_In, in_concat in Hin as (r & Hr & Hin). rewrite list.Forall_forall in HF.
  specialize (HF r ltac:(by apply elem_of_list_In)). apply (proj1 HF t (Do c)). by apply elem_of_list_In.
Qed.
(** Only threads below [n] work. *)
Lemma eworks_below s sched t c : winv m n s -> (t, c) ∈ eworks m swap n s sched -> t < n.
Proof.
  revert s. induction sched as [|[t' x] l IH]; intros s HW; cbn [eworks]; [intros H; by apply elem_of_nil in H|]. rewrite elem_of_app. intros [H|H]; [|by apply (IH _ (winv_step m swap n L s t' x HW) H)].
  unfold ework in H. destruct x as [y|y]; [by apply elem_of_nil in H|]. destruct (may_work m s t' y) eqn:Em; [|by apply elem_of_nil in H].
  apply elem_of_list_singleton in H. injection H as -> ->. by destruct (may_work_spec m n s t' y HW Em) as (? & ? & ? & _ & ? & _).
Qed.
End loop.

Section tc.
Context (raw : nat -> N) (owner : nat -> nat) (E : list (nat * nat)) (M n : nat) (swap : bool).
Hypothesis Hown : forall v, owner v < n.
Hypothesis Hraw : forall u v, u < M -> v < M -> raw u = raw v -> u = v.
Hypothesis Hsmall : forall v, v < M -> (raw v < 2147483647)%N.
Hypothesis Hends : forall a b, (a, b) ∈ E -> a < M /\ b < M.
Notation TM := (tc_machine raw owner E).

Lemma run_all s l l' : runs m_step (runs (m_step (m := TM)) s l) l' = trun raw owner E s (l ++ l').
Proof. unfold runs, trun. by rewrite fold_left_app. Qed.
Lemma new_fresh : fresh (m := TM) n tnew (fun _ => 0%N).
Proof. split_and!; [done|done|]. cbn. by rewrite (sumN_zero (fun _ => 0%N)) by done. Qed.
Lemma resting_at_rest (e : m_st TM) : (forall t, m_busy e t = false /\ m_len e t = 0) -> at_rest n e.
Proof.
  intros H t Ht. destruct (H t) as [H1 H2]. cbn in H1, H2. unfold tc_busy in H1. unfold tc_len in H2. split; [by destruct (atodo (base e) t)|by apply length_zero_iff_nil].
Qed.

Lemma added_keeps l (e : tst) u : (forall t c, (t, c) ∈ l -> m_kind (m := TM) c <> IsChange) -> added (trun raw owner E e l) u = added e u.
Proof.
  revert e. induction l as [|[t c] l IH]; intros e Hl; [done|]. unfold trun. cbn [fold_left]. fold (trun raw owner E (tstep raw owner E e t c) l).
  rewrite IH by (intros t' c' Hin; by apply (Hl t' c'), elem_of_list_further). pose proof (Hl t c ltac:(apply elem_of_list_here)) as Hc. by destruct c.
Qed.
(** A stream: the edges arrive while the threads work. *)
Theorem C70_stream own sched :
  let s := wrun TM swap n (wstart TM tnew own (fun _ => 0%N)) sched in
  (forall t, t < n -> left s t) -> (forall u, u < M -> added (eng s) u = length (outs E u)) ->
  complete n s = true /\ counted M (eng s) = triangles E M.
Proof.
  intros s Hl Ha. pose proof (tc_lawful raw owner E n Hown) as L.
  destruct (C70_whole TM swap n L tnew own (fun _ => 0%N) sched [] new_fresh Hl) as (He & HI & HC & _). fold s in He, HI, HC. split; [done|].
  assert (HW0 : winv TM n (wstart TM tnew own (fun _ => 0%N))) by (apply winv_start; apply new_fresh).
  set (w := eworks TM swap n (wstart TM tnew own (fun _ => 0%N)) sched) in *. change (eng s = trun raw owner E tnew w) in He.
  pose proof (C43_stream raw owner E M n w Hown Hraw Hsmall Hends) as T. cbv zeta in T. rewrite <- He in T. apply T; [|by apply resting_at_rest|done].
  intros t c Hin. by apply (eworks_below TM swap n L _ _ _ _ HW0 Hin).
Qed.
Theorem C70_stream_ends own sched :
  let s0 := wstart TM tnew own (fun _ => 0%N) in let s := wrun TM swap n s0 sched in
  closed TM n s -> (forall u, u < M -> added (eng s) u = length (outs E u)) ->
  exists bound, forall rounds, Forall (fair_round TM n TRun TPop) rounds -> bound <= length rounds ->
    swap = true \/ Term_Proofs.tidy swap n (trm s0) (lworks TM swap n s0 (sched ++ concat rounds)) ->
    let s' := wrun TM swap n s (concat rounds) in
    (forall t, t < n -> left s' t) /\ complete n s' = true /\ counted M (eng s') = triangles E M.
Proof.
  intros s0 s HC Ha. pose proof (tc_lawful raw owner E n Hown) as L.
  assert (HW0 : winv TM n s0) by (apply winv_start; apply new_fresh).
  assert (HI : tinv raw owner E M n false (eng s)).
  { unfold s. rewrite eng_run. apply (tinv_trun raw owner E M n false Hown Hraw Hsmall Hends (eworks TM swap n s0 sched) tnew); [|by apply tinv_new].
    intros t c Hin. by apply (eworks_below TM swap n L _ _ _ _ HW0 Hin). }
  destruct (C70_ends TM swap n L tnew own (fun _ => 0%N) sched TRun TPop new_fresh eq_refl eq_refl HC) as (bound & Hb).
  { by apply (tc_winds raw owner E M n false). }
  exists bound. intros rounds Hf Hlen Htd s'. destruct (Hb rounds Hf Hlen Htd) as (H1 & H2 & _ & H4 & H5). fold s0 in H1, H2, H4. fold s in H1, H2, H4. fold s' in H1, H2, H4.
  split_and!; [done|done|]. assert (Es : s' = wrun TM swap n s0 (sched ++ concat rounds)) by (unfold s', s; by rewrite wrun_app).
  rewrite Es. apply C70_stream; fold s0; rewrite <- Es; [exact H1|]. intros u Hu. rewrite H4.
  rewrite <- (Ha u Hu). apply (added_keeps (eworks TM swap n s (concat rounds)) (eng s)). exact H5.
Qed.

(** A static graph: loaded first; [before]: what sends the initial notifications. *)
Theorem C70_static before own sent0 sched : (forall t c, (t, c) ∈ before -> t < n) ->
  let e := trun raw owner E (tloaded raw owner E) before in fresh (m := TM) n e sent0 ->
  (forall u, u < M -> outs E u <> [] -> Began_send u ∈ alog (base e)) ->
  let s0 := wstart TM e own sent0 in let s := wrun TM swap n s0 sched in
  closed TM n s ->
  ((forall t, t < n -> left s t) -> complete n s = true /\ counted M (eng s) = triangles E M) /\
  exists bound, forall rounds, Forall (fair_round TM n TRun TPop) rounds -> bound <= length rounds ->
    swap = true \/ Term_Proofs.tidy swap n (trm s0) (lworks TM swap n s0 (sched ++ concat rounds)) ->
    let s' := wrun TM swap n s (concat rounds) in
    (forall t, t < n -> left s' t) /\ complete n s' = true /\ counted M (eng s') = triangles E M.
Proof.
  intros Hb e Hf Hn s0 s HC. pose proof (tc_lawful raw owner E n Hown) as L.
  assert (HW0 : winv TM n s0) by (apply winv_start; apply Hf).
  assert (Hw : forall l t c, (t, c) ∈ before ++ eworks TM swap n s0 l -> t < n).
  { intros l t c [Hin|Hin]%elem_of_app; [by apply (Hb t c)|by apply (eworks_below TM swap n L _ _ _ _ HW0 Hin)]. }
  assert (Er : forall l, eng (wrun TM swap n s0 l) = trun raw owner E (tloaded raw owner E) (before ++ eworks TM swap n s0 l)).
  { intros l. rewrite eng_run. cbn [eng wstart]. unfold s0 at 1. cbn [eng wstart]. unfold e, trun, runs. by rewrite fold_left_app. }
  assert (Hnote : forall l u, u < M -> outs E u <> [] -> Began_send u ∈ alog (base (eng (wrun TM swap n s0 l)))).
  { intros l u Hu Ho. rewrite Er. unfold trun. rewrite fold_left_app. fold (trun raw owner E (tloaded raw owner E) before). fold e. fold (trun raw owner E e (eworks TM swap n s0 l)).
    specialize (Hn u Hu Ho). revert Hn. generalize (eworks TM swap n s0 l). generalize e. clear. intros e l. revert e. induction l as [|[t c] l IH]; intros s0 H; [done|]. cbn. apply IH.
    assert (Ha : forall c', Began_send u ∈ alog (astep tcount owner (base s0) t c')).
    { intros c'. unfold astep. destruct (atodo (base s0) t) as [|o r].
      - destruct c'; try done; repeat case_match; done.
      - destruct c'; try done. unfold aexec. destruct o; try (destruct (areact _ _ _ _ _ _)); cbn [alog]; try done; apply elem_of_app; by left. }
    destruct c as [| |v|v|v k]; cbn [tstep base]; try apply Ha; repeat case_match; try done; cbn [base]; apply Ha. }
  assert (Hres : forall l, (forall t, t < n -> left (wrun TM swap n s0 l) t) -> complete n (wrun TM swap n s0 l) = true /\ counted M (eng (wrun TM swap n s0 l)) = triangles E M).
  { intros l Hl. destruct (C70_whole TM swap n L e own sent0 l [] Hf Hl) as (_ & HI & HCm & _). fold s0 in HI, HCm. split; [done|].
    pose proof (C43_static raw owner E M n (before ++ eworks TM swap n s0 l) Hown Hraw Hsmall Hends (Hw l)) as T. cbv zeta in T. rewrite <- Er in T.
    apply T; [by apply resting_at_rest|by apply Hnote]. }
  split; [apply Hres|].
  destruct (C70_ends TM swap n L e own sent0 sched TRun TPop Hf eq_refl eq_refl HC) as (bound & Hbd).
  { apply (tc_winds raw owner E M n true); try done. fold s0. fold s. unfold s. rewrite Er.
    apply (tinv_trun raw owner E M n true Hown Hraw Hsmall Hends); [apply Hw|by apply tinv_loaded]. }
  exists bound. intros rounds HF Hlen Htd s'. destruct (Hbd rounds HF Hlen Htd) as (H1 & _). fold s0 in H1. fold s in H1. fold s' in H1.
  assert (Es : s' = wrun TM swap n s0 (sched ++ concat rounds)) by (unfold s', s; by rewrite wrun_app).
  split; [exact H1|]. rewrite Es. apply Hres. rewrite <- Es. exact H1.
Qed.
End tc.

(** The square with both diagonals of C43, streamed to two threads that then take turns until both
    leave, in the order of the code: after 10 rounds half the triangles are counted, after 100
    both threads have left, with 4 triangles. *)
Notation case_machine := (tc_machine (fun v => N.of_nat (v + 7)) (fun v => v mod 2) square).
Definition case_turns : list (nat * wchoice case_machine) := map (pair 0) (turns case_machine TRun TPop) ++ map (pair 1) (turns case_machine TRun TPop).
Definition case_edges : list (nat * wchoice case_machine) :=
  concat (repeat (flat_map (fun v => [(v mod 2, Do (m := case_machine) (TIn v)); (v mod 2, Do (m := case_machine) (TOut v 1)); (v mod 2, Do (m := case_machine) TRun)]) [0; 1; 2; 3] : list (nat * wchoice case_machine)) 12).
Definition case_sched : list (nat * wchoice case_machine) :=
  [(0, Ctl Term_Model.Go); (1, Ctl Term_Model.Go); (0, Ctl (Term_Model.Own 9%N)); (1, Ctl (Term_Model.Own 3%N))] ++ case_edges
  ++ [(0, Ctl (Term_Model.More true)); (1, Ctl (Term_Model.More true))].
Definition case_at k := wrun case_machine false 2 (wstart case_machine tnew (fun _ => true) (fun _ => 0%N)) (case_sched ++ concat (repeat case_turns k)).
Example C70_case :
  fair_round case_machine 2 TRun TPop case_turns /\ triangles square 4 = 4 /\
  map (Term_Model.open_ (trm (case_at 0))) [0; 1] = [false; false] /\
  map (added (eng (case_at 0))) [0; 1; 2; 3] = map (fun u => length (outs square u)) [0; 1; 2; 3] /\
  counted 4 (eng (case_at 0)) = 0 /\ counted 4 (eng (case_at 10)) = 2 /\ counted 4 (eng (case_at 100)) = 4 /\
  map (Term_Model.at_ (trm (case_at 100))) [0; 1] = [Term_Model.Done; Term_Model.Done] /\ complete 2 (case_at 100) = true.
Proof.
  split; [|vm_compute; repeat split; done]. split.
  - intros t x. unfold case_turns. rewrite elem_of_app, !elem_of_list_fmap. intros [(y & [= -> ->] & H)|(y & [= -> ->] & H)];
      unfold turns in H; rewrite !elem_of_cons, elem_of_nil in H; destruct H as [->|[->|[->|[->|[]]]]]; done.
  - intros t x Ht Hx. unfold case_turns. rewrite elem_of_app, !elem_of_list_fmap. destruct t as [|[|t]]; [left|right|lia]; by exists x.
Qed.
Print Assumptions C70_whole.
Print Assumptions C70_ends.
Print Assumptions C70_stream.
Print Assumptions C70_stream_ends.
Print Assumptions C70_static.
