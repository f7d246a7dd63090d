(** C78: the statistics about temporal paths. *)
From Verif Require Import Base Fun_Spec Fun_Model Fun_Proofs.
Open Scope N_scope.

(** With at least one thread there is an answer, and its numbers are those of the whole graph:
    whatever the distribution of the vertices over the threads. *)
Theorem C78_counts at_event threads : threads <> [] ->
  exists s, fun_stats at_event threads = Some s /\
    number (fun v => seen at_event v /\ visited v) (concat threads) (st_visited s) /\
    number (fun v => seen at_event v /\ visitable v) (concat threads) (st_now s) /\
    number (seen at_event) (concat threads) (st_vc s) /\
    number (fun v => seen at_event v /\ active v) (concat threads) (st_act s) /\
    largest 0 (st_max s) (fun n => exists v, In v (concat threads) /\ seen at_event v /\ n = N.of_nat (length (twins v))).
Proof.
  intros Hne. unfold fun_stats. destruct (max_slice (map c_maxw (map (pass1 at_event) threads))) as [m|] eqn:Em; [|by destruct threads].
  eexists. split; [reflexivity|]. cbn [st_visited st_now st_vc st_act st_max]. repeat split.
  - apply sum_threads; [done|]. apply (step1_count at_event c_visit _ visited visited_dec). intros a v E. unfold step1. rewrite E. done.
  - apply sum_threads; [done|]. apply (step1_count at_event c_now _ visitable visitable_dec). intros a v E. unfold step1. rewrite E. done.
  - apply sum_threads; [done|]. intros a v. destruct (step1_count at_event c_vc (fun _ => true) (fun _ => True) ltac:(done)) with (a := a) (v := v) as [[[H _] E]|[H E]].
    + intros a' v' E. unfold step1. rewrite E. done.
    + by left.
    + right. split; [|done]. intros Hs. by apply H.
  - apply sum_threads; [done|]. apply (step1_count at_event c_act _ active active_dec). intros a v E. unfold step1. rewrite E. done.
  - apply max_slice_spec in Em as [H _]. apply in_map_iff in H as (a & <- & H). apply in_map_iff in H as (vs & <- & Hvs).
    destruct (maxw_fold at_event vs (Acc1 0 0 0 0 0 0)) as (_ & _ & [E|(v & Hv & Hs & E)]); [by right|]. left. exists v. split; [|done].
    apply in_concat. eauto.
  - intros y (v & Hv & Hs & ->). apply max_slice_spec in Em as [_ H]. apply in_concat in Hv as (vs & Hvs & Hv).
    destruct (maxw_fold at_event vs (Acc1 0 0 0 0 0 0)) as (H1 & _ & _). specialize (H1 v Hv Hs).
    transitivity (c_maxw (pass1 at_event vs)); [done|]. apply H, in_map, in_map, Hvs.
Qed.

(** So the first two percentages are at most 100. *)
Theorem C78_percent at_event threads s : fun_stats at_event threads = Some s ->
  fst (pct_visited_now s) <= 100 * snd (pct_visited_now s) /\ fst (pct_could s) <= 100 * snd (pct_could s) /\ st_act s <= st_vc s.
Proof.
  intros E. assert (Hne : threads <> []) by (by intros ->). destruct (C78_counts at_event threads Hne) as (s' & E' & H1 & H2 & H3 & H4 & _).
  rewrite E in E'. injection E' as <-. unfold pct_visited_now, pct_could. cbn [fst snd].
  assert (st_now s <= st_visited s).
  { refine (number_le _ _ _ _ _ _ H2 H1). intros v [Hs (x & h & Hin)]. split; [done|]. unfold visited. by destruct (twins v). }
  assert (st_visited s <= st_vc s) by (refine (number_le _ _ _ _ _ _ H1 H3); by intros v [Hs _]).
  assert (st_act s <= st_vc s) by (refine (number_le _ _ _ _ _ _ H4 H3); by intros v [Hs _]).
  lia.
Qed.

(** Not so the third, "percentage of the active vertices that can be visited now": the vertices that
    can be visited now are not restricted to the active ones (the count of active visited ones is
    computed, and not used).  One edge from the source, two vertices, one of them active: 200 %. *)
Theorem C78_active_refuted :
  ~ forall at_event threads s, fun_stats at_event threads = Some s -> fst (pct_of_active s) <= 100 * snd (pct_of_active s).
Proof.
  intros H. specialize (H 5 [[TV 0 [0] [(0, 2 ^ 64 - 1, 0)]; TV 0 [] [(3, 2 ^ 64 - 1, 1)]]] _ eq_refl). vm_compute in H. by apply H.
Qed.

(** One round per window index up to the largest number of windows.  A round reports all the starts
    of the windows of that index, thread by thread, and the largest of them; and the smallest non-zero
    start of the windows *up to* that index. *)
Theorem C78_windows at_event threads s w r : fun_stats at_event threads = Some s -> nth_error (st_rounds s) w = Some r ->
  exists mx mn l, r = (Some mx, Some mn, l) /\
    (forall x, In x l <-> start at_event (concat threads) w x) /\
    number (fun v => seen at_event v /\ (w < length (twins v))%nat) (concat threads) (N.of_nat (length l)) /\
    largest 0 mx (start at_event (concat threads) w) /\
    smallest (2 ^ 64 - 1) mn (fun x => x <> 0 /\ exists w', (w' <= w)%nat /\ start at_event (concat threads) w' x).
Proof.
  intros E Hr. assert (Hne : threads <> []) by (by intros ->). unfold fun_stats in E. destruct (max_slice _) as [m|]; [|done]. injection E as <-. cbn [st_rounds] in Hr.
  destruct (rounds_spec at_event threads (N.to_nat m) Hne 0 (map (fun _ => Acc2 0 max64 []) threads)) with (i := w) (r := r) as (mx & mn & -> & H1 & H2); [| | |done|].
  - unfold mins_ok. clear. induction threads as [|vs threads IH]; simpl; constructor; [|exact IH]. cbn [x_min]. split; [done|]. split; [by left|]. intros w' s Hw. lia.
  - apply list.Forall_forall. intros a Ha. apply elem_of_list_In, in_map_iff in Ha as (? & <- & _). done.
  - apply map_length.
  - exists mx, mn, (startsw at_event threads w). simpl in H1, H2 |- *. split; [done|]. split; [apply startsw_in|]. split; [|done].
    unfold startsw. generalize (concat threads). clear. induction l as [|v l IH]; simpl; [constructor|].
    rewrite app_length. unfold wstart at 1. destruct (at_event <? tcreate v) eqn:Es.
    + simpl. apply nu_no; [|done]. intros [H _]. apply seen_dec in H. congruence.
    + apply seen_dec in Es. destruct (nth_error (twins v) w) as [[[s e] h]|] eqn:En.
      * cbn [length]. replace (N.of_nat (1 + length (flat_map (wstart at_event w) l))) with (N.of_nat (length (flat_map (wstart at_event w) l)) + 1) by lia.
        apply nu_yes; [|done]. split; [done|]. apply nth_error_Some. congruence.
      * simpl. apply nu_no; [|done]. intros [_ H]. apply nth_error_Some in H. done.
Qed.
(** As many rounds as the largest number of windows. *)
Theorem C78_rounds at_event threads s : fun_stats at_event threads = Some s -> N.of_nat (length (st_rounds s)) = st_max s.
Proof.
  unfold fun_stats. destruct (max_slice _) as [m|]; [|done]. intros [= <-]. cbn [st_rounds st_max].
  assert (G : forall n w accs, length (rounds at_event threads accs w n) = n) by (induction n; intros; simpl; auto). rewrite G. lia.
Qed.

(** The printed minimum is not that of the windows of its own index: it is kept from the earlier rounds. *)
Theorem C78_min_refuted :
  ~ forall at_event threads s w mx mn l, fun_stats at_event threads = Some s -> nth_error (st_rounds s) w = Some (mx, Some mn, l) ->
    smallest (2 ^ 64 - 1) mn (fun x => x <> 0 /\ start at_event (concat threads) w x).
Proof.
  intros H.
  specialize (H 9 [[TV 0 [0] [(5, 2 ^ 64 - 1, 1)]; TV 0 [] [(9, 2 ^ 64 - 1, 1); (8, 9, 2)]]] _ 1%nat (Some 8) 5 [8] eq_refl eq_refl).
  destruct H as [[(_ & v & e & h & Hv & _ & Hn)|H] _]; [|done].
  simpl in Hv. destruct Hv as [<-|[<-|[]]]; simpl in Hn; [done|]. injection Hn as Hn. done.
Qed.

(** Three vertices on two threads, one created too late. *)
Example C78_case : exists s, fun_stats 9 [[TV 1 [0; 4] [(7, 2 ^ 64 - 1, 1); (3, 5, 2)]; TV 10 [0] [(1, 2, 3)]]; [TV 2 [6] [(4, 8, 1)]; TV 3 [] []]] = Some s /\
  st_visited s = 2 /\ st_now s = 1 /\ st_vc s = 3 /\ st_act s = 1 /\ st_max s = 2 /\
  st_rounds s = [(Some 7, Some 4, [7; 4]); (Some 3, Some 3, [3])].
Proof. eexists. split; [reflexivity|]. vm_compute. done. Qed.

Print Assumptions C78_counts.
Print Assumptions C78_percent.
Print Assumptions C78_active_refuted.
Print Assumptions C78_windows.
Print Assumptions C78_rounds.
Print Assumptions C78_min_refuted.
