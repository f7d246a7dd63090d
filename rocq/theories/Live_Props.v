(** C61: the program ends.  Once no more topology events come, there is, for components, shortest
    paths and PageRank, a number of rounds after which every thread has left its loop, whatever
    the rounds are; and then the result is there.  For the code as it is this needs that no vote
    is read between the two writes of lines 44-45 (C60_hang: without, it may hang); with the two
    writes exchanged it holds on all fair schedules. *)
From Verif Require Import Base RBO_Spec QcUtil Engine_Spec Engine_Model Engine_Proofs Engine_Shape Engine_Props Min_Spec Min_Model Min_Proofs Min_Props.
From Verif Require Import Rank_Spec Rank_Model Rank_Proofs Rank_Run Rank_Wake Rank_Props Rank_Error Rank_Close RankRest_Props.
From Verif Require Import Rest_Spec Rest_Proofs Rest_Props Whole_Model Whole_Proofs Whole_Props Live_Proofs.
From Verif Require Term_Model Term_Proofs Term_Props Term_Live.
From Coq Require Import QArith Qcanon.
Open Scope nat_scope.

(** The termination check alone: when nothing is left, all leave. *)
Theorem C61_check_ends swap n own q c sched rounds :
  let s := Term_Model.exec swap n (Term_Model.start own q c) sched in
  Term_Proofs.quiet n s ->
  Forall (fun l => forall t, t < n -> (t, Term_Model.Go) ∈ l) rounds -> 7 * (10 * n + 31) <= length rounds ->
  swap = true \/ Term_Proofs.tidy swap n (Term_Model.start own q c) (sched ++ concat rounds) ->
  forall t, t < n -> Term_Model.at_ (Term_Model.exec swap n s (concat rounds)) t = Term_Model.Done.
Proof.
  intros s HQ Hf Hl Htd. apply Term_Live.all_leave; try done.
  - unfold s. apply Term_Live.sound_exec; [apply Term_Live.sound_start|]. destruct Htd as [?|Htd]; [by left|right]. by apply Term_Live.tidy_app in Htd as [? _].
  - destruct Htd as [?|Htd]; [by left|right]. by apply Term_Live.tidy_app in Htd as [_ ?].
Qed.

Section whole.
Context (a : alg) (owner : nat -> nat) (swap : bool) (n : nat) (Hown : forall v, owner v < n).

(** The whole loop, for an algorithm that has only so many steps left. *)
Theorem C61_ends e own sent0 sched : fresh n e sent0 ->
  let s0 := wstart a e own sent0 in let s := wrun a owner swap n s0 sched in
  closed a n s -> finite a owner (eng s) ->
  exists bound, forall rounds, Forall (fair_round a n) rounds -> bound <= length rounds ->
    swap = true \/ Term_Proofs.tidy swap n (trm s0) (lworks a owner swap n s0 (sched ++ concat rounds)) ->
    let s' := wrun a owner swap n s (concat rounds) in
    (forall t, t < n -> left s' t) /\ complete n s' = true /\ idle (eng s') /\
    exists l, eng s' = erun a owner (eng s) l /\ forall t c, (t, c) ∈ l -> c ∈ acts a.
Proof.
  intros Hf s0 s HC (b & HB). destruct Hf as (F1 & F2 & F3).
  assert (HW0 : winv a n s0) by (by apply (winv_start a owner n Hown)).
  destruct (ends a owner swap n Hown e own sent0 sched b HW0 HC HB) as (bound & Hb). exists bound. intros rounds HF Hl Htd s'.
  specialize (Hb rounds HF Hl Htd). fold s0 s s' in Hb.
  assert (Es : s' = wrun a owner swap n s0 (sched ++ concat rounds)) by (unfold s', s; by rewrite wrun_app).
  assert (Hleft : forall t, t < n -> left (wrun a owner swap n s0 (sched ++ concat rounds)) t) by (rewrite <- Es; exact Hb).
  destruct (C60_whole a owner swap n Hown e own sent0 (sched ++ concat rounds) [] ltac:(by split_and!) Hleft) as (_ & HI & HCm & _). fold s0 in HI, HCm. rewrite <- Es in HI, HCm.
  split_and!; try done. exists (eworks a owner swap n s (concat rounds)). split; [unfold s'; by rewrite eng_run|].
  intros t c Hin. apply eworks_in in Hin. apply elem_of_list_In, in_concat in Hin as (r & Hr & Hin). rewrite list.Forall_forall in HF.
  specialize (HF r ltac:(by apply elem_of_list_In)). apply (proj1 HF t (Do c)). by apply elem_of_list_In.
Qed.
Lemma eng_all e own sent0 sched : eng (wrun a owner swap n (wstart a e own sent0) sched) = erun a owner e (eworks a owner swap n (wstart a e own sent0) sched).
Proof. by rewrite eng_run. Qed.
End whole.

(** Connected components. *)
Theorem C61_components owner n N swap es before own sent0 sched raw : (forall v, owner v < n) -> among N (fun _ => True) es ->
  (forall t c, (t, c) ∈ before -> change_among N (fun _ => True) (fun _ => True) c) ->
  (forall t c, (t, Do c) ∈ sched -> change_among (a := cc) N (fun _ => True) (fun _ => True) c) ->
  let e := erun cc owner (cc_start es) before in fresh n e sent0 ->
  let s0 := wstart cc e own sent0 in let s := wrun cc owner swap n s0 sched in
  let init := Min_Model.given owner (cc_start es) (before ++ eworks cc owner swap n s0 sched) in
  (forall v x, (v, x) ∈ init -> x = raw v /\ (raw v < 2 ^ 32)%N) ->
  (forall u v x, (v, x) ∈ edges (eng s) u -> (u, raw u) ∈ init /\ exists x', (u, x') ∈ edges (eng s) v) ->
  closed cc n s ->
  exists bound, forall rounds, Forall (fair_round cc n) rounds -> bound <= length rounds ->
    swap = true \/ Term_Proofs.tidy swap n (trm s0) (lworks cc owner swap n s0 (sched ++ concat rounds)) ->
    let s' := wrun cc owner swap n s (concat rounds) in
    (forall t, t < n -> left s' t) /\ complete n s' = true /\ edges (eng s') = edges (eng s) /\
    forall v, (v, raw v) ∈ init ->
    (exists u, joined (edges (eng s)) u v /\ prop (eng s') v = raw u) /\ forall u, joined (edges (eng s)) u v -> (prop (eng s') v <= raw u)%N.
Proof.
  intros Hown Hes Hb1 Hb2 e Hf s0 s init Hraw Hsym HC.
  set (work := before ++ eworks cc owner swap n s0 sched) in *.
  assert (Ew : eng s = erun cc owner (cc_start es) work) by (unfold s, s0, work, e; rewrite eng_all; unfold erun; by rewrite fold_left_app).
  assert (Hwk : forall t c, (t, c) ∈ work -> change_among N (fun _ => True) (fun _ => True) c).
  { intros t c Hin. apply elem_of_app in Hin as [Hin|Hin]; [by apply (Hb1 t)|]. apply eworks_in in Hin. by apply (Hb2 t). }
  destruct (components_finite owner n N es work Hown Hes Hwk) as [HF _]. cbv zeta in HF. rewrite <- Ew in HF.
  destruct (C61_ends cc owner swap n Hown e own sent0 sched Hf HC HF) as (bound & Hb). exists bound. intros rounds Hr Hl Htd s'.
  destruct (Hb rounds Hr Hl Htd) as (H1 & H2 & H3 & l & El & Hl'). fold s0 in El, H1, H2, H3. fold s in El, H1, H2, H3. fold s' in El, H1, H2, H3.
  assert (Ee : edges (eng s') = edges (eng s)) by (rewrite El; by apply acts_run_edges). split_and!; try done.
  assert (Er : eng s' = erun cc owner (cc_start es) (work ++ l)) by (rewrite El, Ew; unfold erun; by rewrite fold_left_app).
  assert (Eg : Min_Model.given owner (cc_start es) (work ++ l) = init) by (rewrite given_app, (acts_given owner _ l) by done; by rewrite app_nil_r).
  pose proof (C35_components owner n es (work ++ l) raw Hown) as HCC. cbv zeta in HCC. rewrite Eg, <- Er, Ee in HCC.
  apply HCC; try done. intros t v gone Hin. apply elem_of_app in Hin as [Hin|Hin]; [by apply (Hwk _ _ Hin)|].
  apply Hl' in Hin. unfold acts in Hin. rewrite !elem_of_cons, elem_of_nil in Hin. by destruct Hin as [?|[?|[]]].
Qed.

(** Shortest paths. *)
Theorem C61_shortest_paths top q owner n N swap es before own sent0 sched : (forall v, owner v < n) -> on_grid q top ->
  among N (on_grid q) es ->
  let A := sssp (fun x => x) top in let s00 := sssp_start (fun x => x) top es in
  (forall t c, (t, c) ∈ before -> change_among (a := A) N (on_grid q) (on_grid q) c) ->
  (forall t c, (t, Do c) ∈ sched -> change_among (a := A) N (on_grid q) (on_grid q) c) ->
  let e := erun A owner s00 before in fresh n e sent0 ->
  let s0 := wstart A e own sent0 in let s := wrun A owner swap n s0 sched in
  let init := Min_Model.given owner s00 (before ++ eworks A owner swap n s0 sched) in
  closed A n s ->
  exists bound, forall rounds, Forall (fair_round A n) rounds -> bound <= length rounds ->
    swap = true \/ Term_Proofs.tidy swap n (trm s0) (lworks A owner swap n s0 (sched ++ concat rounds)) ->
    let s' := wrun A owner swap n s (concat rounds) in
    (forall t, t < n -> left s' t) /\ complete n s' = true /\ edges (eng s') = edges (eng s) /\
    forall v, (forall u x d, (u, x) ∈ init -> path (edges (eng s)) u v d -> prop (eng s') v <= x + d)%Qc /\
    ((exists u x d, (u, x) ∈ init /\ path (edges (eng s)) u v d /\ prop (eng s') v = (x + d)%Qc) \/ prop (eng s') v = top).
Proof.
  intros Hown Ht Hes A s00 Hb1 Hb2 e Hf s0 s init HC.
  set (work := before ++ eworks A owner swap n s0 sched) in *.
  assert (Ew : eng s = erun A owner s00 work) by (unfold s, s0, work, e; rewrite eng_all; unfold erun; by rewrite fold_left_app).
  assert (Hwk : forall t c, (t, c) ∈ work -> change_among (a := A) N (on_grid q) (on_grid q) c).
  { intros t c Hin. apply elem_of_app in Hin as [Hin|Hin]; [by apply (Hb1 t)|]. apply eworks_in in Hin. by apply (Hb2 t). }
  destruct (shortest_finite (fun x => x) top owner n N (on_grid q) (on_grid q) (grid_rank q) es work Hown Ht) as [HF _]; try done.
  { intros w x Hw Hx. by apply grid_plus. }
  { intros x y. apply grid_lt. }
  fold A in HF. fold s00 in HF. rewrite <- Ew in HF.
  destruct (C61_ends A owner swap n Hown e own sent0 sched Hf HC HF) as (bound & Hb). exists bound. intros rounds Hr Hl Htd s'.
  destruct (Hb rounds Hr Hl Htd) as (H1 & H2 & H3 & l & El & Hl'). fold s0 in El, H1, H2, H3. fold s in El, H1, H2, H3. fold s' in El, H1, H2, H3.
  assert (Ee : edges (eng s') = edges (eng s)) by (rewrite El; by apply acts_run_edges). split_and!; try done.
  assert (Er : eng s' = erun A owner s00 (work ++ l)) by (rewrite El, Ew; unfold erun; by rewrite fold_left_app).
  assert (Eg : Min_Model.given owner s00 (work ++ l) = init) by (rewrite given_app, (acts_given owner _ l) by done; by rewrite app_nil_r).
  assert (Hin : forall t c, (t, c) ∈ work ++ l -> change_among (a := A) N (on_grid q) (on_grid q) c).
  { intros t c Hin. apply elem_of_app in Hin as [Hin|Hin]; [by apply (Hwk _ _ Hin)|].
    apply Hl' in Hin. unfold acts in Hin. rewrite !elem_of_cons, elem_of_nil in Hin. by destruct Hin as [->|[->|[]]]. }
  assert (Hpos : forall w, on_grid q w -> (0 <= w)%Qc).
  { intros w (k & ->). unfold Qcle. cbn [Q2Qc this]. rewrite !Qred_correct. unfold Qle. cbn. lia. }
  pose proof (C36_shortest_paths top owner n es (work ++ l) Hown) as HCC. cbv zeta in HCC. fold A in HCC. fold s00 in HCC.
  rewrite <- Ee, <- Eg, Er. rewrite Er in H3. apply HCC; try done.
  - intros t v gone H. by apply Hin in H.
  - split.
    + intros u v w H. apply Hpos. by apply (Hes u) in H as [_ ?].
    + intros t u k v w H Hk. apply Hpos. apply Hin in H as [_ H]. by apply (H v w).
Qed.

(** PageRank. *)
Theorem C61_ranks owner n N swap es before own sent0 sched exact : (forall v, owner v < n) ->
  let e := rank_run owner es before in fresh n e sent0 ->
  let s0 := wstart ranking e own sent0 in let s := wrun ranking owner swap n s0 sched in
  let work := before ++ eworks ranking owner swap n s0 sched in
  rank_among N es work ->
  exact_ranks DAMP N (fun w => map fst (edges (eng s) w)) (Rank_Model.given owner (rank_start es) work) exact ->
  closed ranking n s ->
  exists bound, forall rounds, Forall (fair_round ranking n) rounds -> bound <= length rounds ->
    swap = true \/ Term_Proofs.tidy swap n (trm s0) (lworks ranking owner swap n s0 (sched ++ concat rounds)) ->
    let s' := wrun ranking owner swap n s (concat rounds) in
    (forall t, t < n -> left s' t) /\ complete n s' = true /\ edges (eng s') = edges (eng s) /\
    ((forall pre post, before ++ eworks ranking owner swap n s0 (sched ++ concat rounds) = pre ++ post -> inexact (rank_run owner es pre)) ->
     (qsum (fun v => qabs (mass (eng s') v - exact v)) N <= inject_nat N * (EPS + EPS))%Qc).
Proof.
  intros Hown e Hf s0 s work Ha HE HC.
  assert (Ew : eng s = rank_run owner es work) by (unfold s, s0, work, e, rank_run; rewrite eng_all; unfold erun; by rewrite fold_left_app).
  destruct (ranks_finite owner n N es work Hown Ha) as [HF _]. cbv zeta in HF. rewrite <- Ew in HF.
  destruct (C61_ends ranking owner swap n Hown e own sent0 sched Hf HC HF) as (bound & Hb). exists bound. intros rounds Hr Hl Htd s'.
  destruct (Hb rounds Hr Hl Htd) as (H1 & H2 & H3 & l & El & Hl'). fold s0 in El, H1, H2, H3. fold s in El, H1, H2, H3. fold s' in El, H1, H2, H3.
  assert (Ee : edges (eng s') = edges (eng s)) by (rewrite El; by apply acts_run_edges). split_and!; try done. intros Hx.
  set (l' := eworks ranking owner swap n s (concat rounds)).
  assert (El' : eng s' = erun ranking owner (eng s) l') by (unfold s'; by rewrite eng_run).
  assert (Hl2 : forall t c, (t, c) ∈ l' -> c ∈ acts ranking).
  { intros t c Hin. apply eworks_in in Hin. apply elem_of_list_In, in_concat in Hin as (r & Hr' & Hin). rewrite list.Forall_forall in Hr.
    specialize (Hr r ltac:(by apply elem_of_list_In)). apply (proj1 Hr t (Do c)). by apply elem_of_list_In. }
  rewrite eworks_app, app_assoc in Hx. fold work s l' in Hx.
  assert (Er : eng s' = rank_run owner es (work ++ l')) by (rewrite El', Ew; unfold rank_run, erun; by rewrite fold_left_app).
  pose proof (C55_close owner n N es (work ++ l') exact Hown) as HCC. cbv zeta in HCC. rewrite <- Er in HCC. apply HCC; try done.
  - intros w Hw. by apply (proj1 Ha w).
  - intros t c Hin. apply elem_of_app in Hin as [Hin|Hin].
    + pose proof (proj2 Ha t c Hin) as Hc. destruct c; try done. by destruct Hc.
    + apply Hl2 in Hin. unfold acts in Hin. rewrite !elem_of_cons, elem_of_nil in Hin. by destruct Hin as [->|[->|[]]].
  - rewrite Ee. intros v Hv. rewrite rank_given_app, (rank_given_acts owner _ l'), Qcplus_0_r by done. by apply HE.
Qed.

(** The path of C60_case with the two writes exchanged: from the middle of any run of the loops
    the threads end, on every fair schedule, and when each is given each kind of step in turn,
    150 rounds are enough, in the order of the code too. *)
Definition all_turns : list (nat * wchoice SP) := map (pair 0) (turns SP) ++ map (pair 1) (turns SP).
Example C61_case :
  fair_round SP 2 all_turns /\
  (forall swap, let s := wrun SP split_owner swap 2 (wstart SP line0 (fun _ => false) line_sent) (concat (repeat all_turns 150)) in
   map (Term_Model.at_ (trm s)) [0; 1] = [Term_Model.Done; Term_Model.Done] /\
   map (fun v => this (prop (eng s) v)) [0; 1; 2; 3; 4; 5; 6] = map (fun z => this (Z1 z)) [0; 1; 2; 3; 4; 5; 6]%Z /\ complete 2 s = true) /\
  (let s := wrun SP split_owner true 2 (wstart SP line0 (fun _ => false) line_sent) (concat (repeat all_turns 20)) in
   map (fun v => this (prop (eng s) v)) [0; 1; 2; 3; 4; 5; 6] = map (fun z => this (Z1 z)) [0; 1; 2; 1000; 1000; 1000; 1000]%Z).
Proof.
  split_and!.
  - split.
    + intros t x. unfold all_turns. rewrite elem_of_app, !elem_of_list_fmap. intros [(y & [= -> ->] & H)|(y & [= -> ->] & H)];
        unfold turns in H; rewrite !elem_of_cons, elem_of_nil in H; destruct H as [->|[->|[->|[->|[]]]]]; cbn; try done; unfold acts; rewrite !elem_of_cons; auto.
    + intros t x Ht Hx. unfold all_turns. rewrite elem_of_app, !elem_of_list_fmap. destruct t as [|[|t]]; [left|right|lia]; by exists x.
  - intros []; vm_compute; done.
  - vm_compute. done.
Qed.
Lemma shortest_leaves top q owner n N es before own sent0 sched : (forall v, owner v < n) -> on_grid q top -> among N (on_grid q) es ->
  let A := sssp (fun x => x) top in
  (forall t c, (t, c) ∈ before -> change_among (a := A) N (on_grid q) (on_grid q) c) ->
  (forall t c, (t, Do c) ∈ sched -> change_among (a := A) N (on_grid q) (on_grid q) c) ->
  forall e, e = erun A owner (sssp_start (fun x => x) top es) before -> fresh n e sent0 ->
  let s := wrun A owner true n (wstart A e own sent0) sched in closed A n s ->
  exists bound, forall rounds, Forall (fair_round A n) rounds -> bound <= length rounds ->
  forall t, t < n -> left (wrun A owner true n s (concat rounds)) t.
Proof.
  intros Hown Ht Hes A Hb1 Hb2 e -> Hf s HC. destruct (C61_shortest_paths top q owner n N true es before own sent0 sched Hown Ht Hes Hb1 Hb2 Hf HC) as (bound & Hb).
  exists bound. intros rounds Hr Hl. exact (proj1 (Hb rounds Hr Hl (or_introl eq_refl))).
Qed.
Example C61_case_applies sched : (forall t c, (t, Do c) ∈ sched -> c ∈ acts SP) ->
  let s := wrun SP split_owner true 2 (wstart SP line0 (fun _ => false) line_sent) sched in closed SP 2 s ->
  exists bound, forall rounds, Forall (fair_round SP 2) rounds -> bound <= length rounds ->
  forall t, t < 2 -> left (wrun SP split_owner true 2 s (concat rounds)) t.
Proof.
  intros Hs. apply (shortest_leaves far 1 split_owner 2 7 line ((0, SendInit (a := SP) 0 (Z1 0)) :: repeat (0, Run) 19)).
  - intros v. unfold split_owner. destruct (v =? 0); [lia|]. apply Nat.mod_upper_bound. lia.
  - by exists 1000.
  - intros u. unfold line. split.
    + intros Hu. destruct (Nat.ltb_spec u 6); [lia|done].
    + intros d x. destruct (Nat.ltb_spec u 6); [|intros H'; by apply elem_of_nil in H']. intros [= -> ->]%elem_of_list_singleton. split; [lia|by exists 1].
  - intros t c H. apply elem_of_cons in H as [[= -> ->]|H]; [split; [lia|by exists 0]|]. apply elem_of_list_In, repeat_spec in H. by injection H as -> ->.
  - intros t c H. apply Hs in H. unfold acts in H. rewrite !elem_of_cons, elem_of_nil in H. by destruct H as [->|[->|[]]].
  - unfold line0, SP. reflexivity.
  - exact (proj1 C60_case).
Qed.

Print Assumptions C61_check_ends.
Print Assumptions C61_ends.
Print Assumptions C61_components.
Print Assumptions C61_shortest_paths.
Print Assumptions C61_ranks.
