(** Runs of temporal paths. *)
From Verif Require Import Base Engine_Spec Engine_Model Engine_Proofs Engine_Shape Window_Spec Window_Model Window_Proofs
  Path_Spec Path_Model Path_Local Path_Proofs.
Open Scope nat_scope.

Lemma stat_set_end x e : stat (set_end x e) = stat e.
Proof. destruct x as [[d p] en], e as [d' [[ts en'] p']]. cbn. by destruct (_ && _). Qed.
Lemma stat_end_all l es : map stat (end_all l es) = map stat es.
Proof.
  unfold end_all. revert es. induction l as [|x l IH]; intros es; [done|]. cbn [fold_left]. rewrite IH, map_map. apply map_ext. intros e. apply stat_set_end.
Qed.
Lemma end_all_in l es d ts en p : (d, (ts, en, p)) ∈ end_all l es -> (d, (ts, en, p)) ∈ es \/ (d, p, en) ∈ l.
Proof.
  unfold end_all. revert es. induction l as [|x l IH]; intros es H; [by left|]. cbn [fold_left] in H.
  destruct (IH _ H) as [H'|H']; [|right; by apply elem_of_list_further].
  apply elem_of_list_fmap in H'. destruct H' as ([d0 [[ts0 en0] p0]] & E & Hin). destruct x as [[d1 p1] en1]. cbn in E.
  destruct ((d1 =? d0) && (p1 =? p0)) eqn:Eb; injection E as -> -> -> ->; [|by left]. right.
  apply andb_true_iff in Eb. destruct Eb as [->%Nat.eqb_eq ->%Nat.eqb_eq]. apply elem_of_list_here.
Qed.
Lemma ended_in l es d ts en p : (d, (ts, en, p)) ∈ es -> (d, p, en) ∈ l -> (d, (ts, en, p)) ∈ ended l es.
Proof.
  intros H1 H2. unfold ended. apply elem_of_list_In, filter_In. split; [by apply elem_of_list_In|].
  apply existsb_exists. exists (d, p, en). split; [by apply elem_of_list_In|]. by rewrite !Nat.eqb_refl.
Qed.
Lemma ended_sub l es e : e ∈ ended l es -> e ∈ es.
Proof. unfold ended. intros H%elem_of_list_In. apply filter_In in H. apply elem_of_list_In, H. Qed.
Lemma no_path_times k : times_of no_path (replicate k no_path) = [].
Proof.
  unfold times_of. change ((p_start no_path =? 0) && (p_end no_path =? INFINITY))%N with false. unfold mail_retrieve.
  change ((p_start no_path =? 0) && (p_end no_path =? INFINITY))%N with false. cbv iota.
  assert (gather (replicate k no_path) = []) as ->; [|done].
  unfold gather. induction k as [|k IH]; [done|]. cbn [replicate fold_left]. exact IH.
Qed.

(** The ends of the edges do not precede their beginning. *)
Definition ends_later (past : nat -> list (nat * (N * nat))) (c : tchoice) : Prop :=
  match c with TEnd v l => forall d p en ts, (d, p, en) ∈ l -> (d, (ts, p)) ∈ past v -> (ts <= extent en)%N | _ => True end.

Section run.
Context (owner : nat -> nat) (n : nat) (Hown : forall v, owner v < n) (src : nat).
Notation est := (est tpaths).
Notation pinv := (pinv owner n src).

Lemma pinv_mono past past' s : pinv past s -> (forall u, sublist (past u) (past' u)) -> pinv past' s.
Proof.
  intros [A1 A2 A3 A4 A5 A6 A7 A8 A9 A10 A11 A12 A13 A14 A15] H. constructor; try done. intros u. etrans; [apply A3|apply H].
Qed.
Lemma no_tell es k u e : will_tell [] k es u e -> False.
Proof.
  destruct e as [v [[ts en] p]].
  intros [(x & H)|[(_ & y & x & H & _)|[(st & [H|(i & got & H)] & _)|(g & [H|(i & got & H)] & _)]]]; [by apply elem_of_nil in H|done..].
Qed.

Lemma step_pop past s t v q : pinv past s -> todo s t = [] -> queue s t = v :: q ->
  let s' := start_task tpaths (Est (box s) (act s) (upd (queue s) t q) (prop s) (edges s) (todo s) (sent s) (elog s)) t [Dec v; Begin v KUpd] in
  shaped tpaths owner s' -> wake tpaths owner n s' -> pinv past s'.
Proof.
  intros Hs Et Eq s' Hsh Hw. eapply (quiet owner n Hown src past s); try done; cbn [start_task todo sent box elog edges prop s'].
  - intros k Hk. by us.
  - by rewrite Et.
  - left. by split.
  - intros u w m [H|(x & H & _)]; do 2 (apply elem_of_cons in H; destruct H as [H|H]; [done|]); by apply elem_of_nil in H.
  - intros u gone [H|(x & y & H)]; do 2 (apply elem_of_cons in H; destruct H as [H|H]; [done|]); by apply elem_of_nil in H.
  - intros w m H; do 2 (apply elem_of_cons in H; destruct H as [H|H]; [done|]); by apply elem_of_nil in H.
  - rewrite Et. by intros u e _ ?%no_tell.
Qed.
Lemma step_init past s t : pinv past s -> todo s t = [] ->
  let s' := start_task tpaths s t [Init (a := tpaths) src MInit] in
  shaped tpaths owner s' -> wake tpaths owner n s' -> pinv past s'.
Proof.
  intros Hs Et s' Hsh Hw. eapply (quiet owner n Hown src past s); try done; cbn [start_task todo sent box elog edges prop s'].
  - intros k Hk. by us.
  - by rewrite Et.
  - left. by split.
  - intros u w m [H|(x & H & _)]; by apply elem_of_list_singleton in H.
  - intros u gone [H|(x & y & H)]; by apply elem_of_list_singleton in H.
  - intros w m H%elem_of_list_singleton. by injection H as -> ->.
  - rewrite Et. by intros u e _ ?%no_tell.
Qed.

(** Edges of [v] change while its thread has nothing else to do. *)
Lemma step_edges past past' s t v (new : list (nat * tedge)) kd : pinv past s -> todo s t = [] -> owner v = t ->
  (forall u, sublist (past u) (past' u)) -> sublist (map stat new) (past' v) ->
  (forall d ts en p, (d, (ts, en, p)) ∈ new -> (ts <= extent en)%N) ->
  (forall e, e ∈ (edges s v : list (nat * tedge)) -> exists e', e' ∈ new /\ stat e' = stat e) ->
  (forall e, e ∈ new -> e ∈ (edges s v : list (nat * tedge)) \/ (exists st, kd = KAdd st /\ e ∈ skipn st new) \/ (exists gone, kd = KDel gone /\ e ∈ gone)) ->
  (forall gone, kd = KDel gone -> forall e, e ∈ gone -> e ∈ new) ->
  let s' := start_task tpaths (set_edges tpaths s v new) t [Begin (a := tpaths) v kd] in
  shaped tpaths owner s' -> wake tpaths owner n s' -> pinv past' s'.
Proof.
  intros Hs Et Ev Hp Hnew Hext Hold Hin Hgone s' Hsh Hw. apply (pinv_mono past past') in Hs; [|done].
  assert (Htodo : todo s' = upd (todo s) t [Begin (a := tpaths) v kd]) by done.
  assert (Hsc : forall w, scanning owner s w -> scanning owner s' w).
  { intros w (k1 & i1 & got1 & E). exists k1, i1, got1. rewrite Htodo. destruct (decide (owner w = t)) as [Ew|Ew]; us; [|done].
    by rewrite Ew, Et in E. }
  assert (Hsc' : forall w k1 i1 got1, todo s' (owner w) = [Scan (a := tpaths) w k1 i1 got1] -> todo s (owner w) = [Scan (a := tpaths) w k1 i1 got1]).
  { intros w k1 i1 got1 E. rewrite Htodo in E. destruct (decide (owner w = t)) as [Ew|Ew]; us; [by rewrite Ew, upd_eq in E|done]. }
  assert (Hee : forall u, u <> v -> edges s' u = edges s u) by (intros u Hu; cbn; by us).
  assert (Hev : edges s' v = new) by (cbn; by us).
  assert (Hok : forall w p x, okslot s w p x -> okslot s' w p x).
  { intros w p x H. eapply okslot_edges; [exact H|]. intros u e He. destruct (decide (u = v)) as [->|Hu].
    - destruct (Hold e He) as (e' & H1 & H2). exists e'. by rewrite Hev.
    - exists e. by rewrite Hee. }
  destruct Hs as [A1 A2 A3 A4 A5 A6 A7 A8 A9 A10 A11 A12 A13 A14 A15]. constructor; try done.
  - intros u. destruct (decide (u = v)) as [->|Hu]; [by rewrite Hev|rewrite Hee by done; apply A3].
  - intros u d ts en p. destruct (decide (u = v)) as [->|Hu]; [rewrite Hev; apply Hext|rewrite Hee by done; apply A4].
  - intros w p x H. by apply Hok, A7.
  - intros w k1 i1 got1 E. apply Hsc' in E. destruct (A8 w k1 i1 got1 E) as (H1 & H2 & H3 & H4). split_and!; try done.
    intros p x H. by apply Hok, H2.
  - intros j u w m H. rewrite Htodo in H. destruct (decide (j = t)) as [->|Hj]; us.
    + destruct H as [H|(x & H & _)]; by apply elem_of_list_singleton in H.
    + destruct (A9 j u w m H) as (H1 & H2). rewrite Hee; [done|]. congruence.
  - intros j u gone H. rewrite Htodo in H. destruct (decide (j = t)) as [->|Hj]; us.
    + destruct H as [H|(? & ? & H)]; apply elem_of_list_singleton in H; [|done]. injection H as -> Hk.
      split; [done|]. rewrite Hev. by apply Hgone.
    + destruct (A10 j u gone H) as (H1 & H2). split; [done|]. rewrite Hee; [done|]. congruence.
  - intros j w m H. rewrite Htodo in H. destruct (decide (j = t)) as [->|Hj]; us; [by apply elem_of_list_singleton in H|by eapply A11].
  - intros w. destruct (A12 w) as [?|[?|?]]; auto.
  - intros u w ts en p H1. change (bx s' w) with (bx s w). change (winof s' u) with (winof s u).
    assert (Hold0 : (w, (ts, en, p)) ∈ (edges s u : list (nat * tedge)) -> se (slotval (bx s w) p) = offer_se (winof s u) ts en \/
      will_tell (todo s' (owner u)) (sent s' (owner u)) (edges s' u) u (w, (ts, en, p))).
    { intros Hin0. destruct (A13 u w ts en p Hin0) as [H|H]; [by left|right].
      destruct (decide (owner u = t)) as [Eu|Eu]; [rewrite Eu, Et in H; by apply no_tell in H|].
      rewrite Hee by congruence. rewrite Htodo. change (sent s') with (upd (sent s) t 0). by us. }
    destruct (decide (u = v)) as [->|Huv]; [|apply Hold0; by rewrite Hee in H1].
    rewrite Hev in H1. destruct (Hin _ H1) as [H|[(st & -> & Hst)|(g & -> & Hg)]]; [by apply Hold0|right|right]; rewrite Ev, Htodo, upd_eq, Hev.
    + right; right; left. exists st. split; [by left|done].
    + right; right; right. exists g. split; [by left|done].
  - intros H. destruct (A15 H) as (H1 & H2 & H3 & H4). split_and!; try done.
    intros w k1 i1 got1 p x E Hx. apply Hsc' in E. by eapply H4.
Qed.

Lemma tever_app es0 sched x u : tever es0 (sched ++ [x]) u = tever es0 sched u ++ tadded [x] u.
Proof. unfold tever, tadded. rewrite map_app, concat_app. by rewrite app_assoc. Qed.

Lemma step_all past past' s t c : pinv past s -> (forall u, past' u = past u ++ tadded [(t, c)] u) ->
  slots_once past' -> by_time past' -> slots_by_time past' -> times_below INFINITY past' -> ends_later past' c ->
  pinv past' (tstep owner src s t c).
Proof.
  intros Hs Hp HU HS HT HI HE.
  assert (Hsub : forall u, sublist (past u) (past' u)).
  { intros u. rewrite Hp. apply sublist_inserts_r. done. }
  pose proof (pinv_mono _ _ _ Hs Hsub) as Hs'.
  pose proof (fun c => shaped_estep tpaths owner s t c (p_shape _ _ _ _ _ Hs) (w_queue _ _ _ _ (p_wake _ _ _ _ _ Hs))) as Hsh.
  pose proof (fun c => wake_estep tpaths owner n s t c Hown (p_wake _ _ _ _ _ Hs)) as Hw.
  destruct c as [| | |v es|v l]; cbn [tstep].
  - specialize (Hsh Run). specialize (Hw Run). revert Hsh Hw. unfold estep. destruct (todo s t) as [|o rest] eqn:Et; [done|].
    destruct o as [u0 d m|d|d|v|v k|v k i got|l|v m].
    + intros Hsh Hw. by eapply step_merge.
    + intros Hsh Hw. by eapply step_other.
    + intros Hsh Hw. by eapply step_other.
    + intros Hsh Hw. by eapply step_other.
    + intros Hsh Hw. by eapply step_other.
    + intros Hsh Hw. destruct (box s v !! i) as [c|] eqn:Ec.
      * by eapply step_read.
      * by eapply step_react.
    + intros Hsh Hw. by eapply step_other.
    + intros Hsh Hw. by eapply step_other.
  - specialize (Hsh Pop). specialize (Hw Pop). revert Hsh Hw. unfold estep. destruct (todo s t) as [|o rest] eqn:Et; [|done].
    destruct (queue s t) as [|v q] eqn:Eq; [done|]. by apply step_pop.
  - specialize (Hsh (SendInit (a := tpaths) src MInit)). specialize (Hw (SendInit (a := tpaths) src MInit)). revert Hsh Hw.
    unfold estep. destruct (todo s t) as [|o rest] eqn:Et; [|done].
    destruct (Nat.eqb_spec (owner src) t) as [Ev|]; [|done]. by apply step_init.
  - specialize (Hsh (AddEdges (a := tpaths) v (map new_edge es))). specialize (Hw (AddEdges (a := tpaths) v (map new_edge es))). revert Hsh Hw.
    unfold estep. destruct (todo s t) as [|o rest] eqn:Et; [|done].
    destruct (Nat.eqb_spec (owner v) t) as [Ev|]; [|done].
    assert (Es : map stat (map new_edge es) = es).
    { rewrite map_map. erewrite map_ext; [apply map_id|]. by intros [d [ts p]]. }
    assert (Epv : past' v = past v ++ es).
    { rewrite Hp. unfold tadded. cbn. by rewrite Nat.eqb_refl, app_nil_r. }
    eapply (step_edges past past'); try done.
    + rewrite map_app. rewrite Epv. change (map stat (map new_edge es)) with (map stat (map new_edge es : list (nat * tedge))). rewrite Es. apply sublist_app; [apply Hs|done].
    + intros d ts en p H. apply elem_of_app in H. destruct H as [H|H]; [by eapply Hs|].
      apply elem_of_list_fmap in H. destruct H as ([d' [ts' p']] & E & Hin). cbn in E. injection E as -> -> -> ->.
      assert (Hpast : (d', (ts', p')) ∈ past' v). { rewrite Epv. apply elem_of_app. by right. }
      apply HI in Hpast. unfold extent. cbn. lia.
    + intros e He. exists e. split; [|done]. apply elem_of_app. by left.
    + intros e [H|H]%elem_of_app; [by left|right; left]. exists (length (edges s v)). split; [done|]. by rewrite drop_app.
  - unfold tstep in *. destruct (todo s t) as [|o rest] eqn:Et; [|done].
    destruct (Nat.eqb_spec (owner v) t) as [Ev|]; [|done]. cbv zeta.
    assert (Hwk : wake tpaths owner n (start_task tpaths (set_edges tpaths s v (end_all l (edges s v))) t [Begin (a := tpaths) v (KDel (ended l (end_all l (edges s v))))])).
    { apply (wake_start_task tpaths owner n s); try done.
      - apply Hs.
      - by rewrite <- Ev.
      - intros k w. apply (w_queue _ _ _ _ (p_wake _ _ _ _ _ Hs)).
      - intros o H. apply elem_of_list_singleton in H. by subst o.
      - intros w H. by apply elem_of_list_singleton in H. }
    assert (Hsp : shaped tpaths owner (start_task tpaths (set_edges tpaths s v (end_all l (edges s v))) t [Begin (a := tpaths) v (KDel (ended l (end_all l (edges s v))))])).
    { intros k. cbn [start_task set_edges todo sent]. destruct (decide (k = t)) as [->|Hk]; us; [by apply sh_begin|apply (p_shape _ _ _ _ _ Hs)]. }
    eapply (step_edges past past'); try done.
    + rewrite stat_end_all. apply Hs'.
    + intros d ts en p H. pose proof H as H0. apply end_all_in in H. destruct H as [H|H]; [by eapply Hs|].
      eapply HE; [exact H|]. eapply sub_in; [apply (p_past _ _ _ _ _ Hs' v)|]. rewrite <- (stat_end_all l). apply elem_of_list_fmap. by exists (d, (ts, en, p)).
    + intros e He. assert (Hst : stat e ∈ map stat (end_all l (edges s v))). { rewrite stat_end_all. apply elem_of_list_fmap. by exists e. }
      apply elem_of_list_fmap in Hst. destruct Hst as (e' & E & Hin). by exists e'.
    + intros [d [[ts en] p]] He. pose proof He as He0. apply end_all_in in He. destruct He as [He|He]; [by left|right; right].
      eexists. split; [reflexivity|]. by apply ended_in.
    + intros gone [= <-] e He. by apply ended_sub in He.
Qed.

Context (b : nat -> nat) (es0 : nat -> list (nat * tedge)).
Hypothesis He0 : forall u d ts en p, (d, (ts, en, p)) ∈ es0 u -> (ts <= extent en)%N.

Lemma pinv_start : pinv (fun u => map stat (es0 u)) (tpath_start b es0).
Proof.
  constructor; try done.
  - apply shaped_start.
  - apply wake_start.
  - intros v. exists (TProp [] [] false). split; [done|]. split; constructor.
  - intros v. exists no_path, (replicate (b v) no_path). split; [done|]. by left.
  - intros v p x H. left. cbn in H. change (replicate (b v) no_path !! p = Some x) in H. apply lookup_replicate in H. destruct H as [-> _]. done.
  - intros t u v m [H|(x & H & _)]; by apply elem_of_nil in H.
  - intros t u gone [H|(x & y & H)]; by apply elem_of_nil in H.
  - intros t v m H. by apply elem_of_nil in H.
  - intros v. right; right. cbn. by rewrite no_path_times.
  - intros u v ts en p H. left. change (offer_se (winof (tpath_start b es0) u) ts en) with (se no_path).
    change (bx (tpath_start b es0) v) with (no_path :: replicate (b v) no_path). rewrite slotval_cons.
    destruct (replicate (b v) no_path !! p) as [x|] eqn:E; [|done]. apply lookup_replicate in E. destruct E as [-> _]. done.
  - exists (TProp [] [] false). cbn. auto.
  - intros _. split_and!; try done.
    + by exists (TProp [] [] false).
    + intros v p x H. change (replicate (b v) no_path !! p = Some x) in H. apply lookup_replicate in H. destruct H as [-> _]. done.
Qed.

Lemma pinv_run sched : slots_once (tever es0 sched) -> by_time (tever es0 sched) -> slots_by_time (tever es0 sched) ->
  times_below INFINITY (tever es0 sched) -> Forall (fun '(_, c) => ends_later (tever es0 sched) c) sched ->
  pinv (tever es0 sched) (tpath_run owner src (tpath_start b es0) sched).
Proof.
  induction sched as [|[t c] sched IH] using rev_ind; intros HU HS HT HI HE.
  - cbn. eapply pinv_mono; [apply pinv_start|]. intros u. unfold tever, tadded. cbn. by rewrite app_nil_r.
  - unfold tpath_run. rewrite fold_left_app. cbn [fold_left]. fold (tpath_run owner src (tpath_start b es0) sched).
    assert (Hin : forall u e, e ∈ tever es0 sched u -> e ∈ tever es0 (sched ++ [(t, c)]) u).
    { intros u e H. rewrite tever_app. apply elem_of_app. by left. }
    apply list.Forall_app in HE. destruct HE as [HE1 HE2]. apply list.Forall_cons in HE2. destruct HE2 as [HE2 _].
    eapply step_all; [apply IH| |done..].
    + intros u1 u2 i1 i2 d a1 a2 p H1 H2. apply (HU u1 u2 i1 i2 d a1 a2 p); rewrite tever_app; by apply lookup_app_l_Some.
    + intros u. eapply sub_sorted; [|apply HS]. rewrite tever_app. by apply sublist_inserts_r.
    + intros u1 u2 d a1 a2 p1 p2 H1 H2. apply (HT u1 u2 d a1 a2 p1 p2); by apply Hin.
    + intros u d a p H. by eapply HI, Hin.
    + eapply List.Forall_impl; [|exact HE1]. intros [t' [| | |v es|v l]]; try done. cbn. intros H d p en ts H1 H2. eapply H; [exact H1|by apply Hin].
    + intros u. apply tever_app.
Qed.
End run.
