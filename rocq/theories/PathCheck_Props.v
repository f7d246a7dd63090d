(** C64: the checks of temporal paths. *)
From Verif Require Import Base Engine_Spec Engine_Model Engine_Proofs Engine_Shape Window_Spec Window_Model Window_Proofs
  Path_Spec Path_Model Path_Local Path_Proofs Path_Run Engine_Props Path_Final Path_Init PathCheck_Model PathCheck_Proofs.
From Verif Require Path_Props Check_Model.
Open Scope nat_scope.

(** The windows of the vertices. *)
Definition wins_of (s : est tpaths) (v : nat) : list path := match (prop s v : option tprop) with Some p => wins p | None => [] end.

Lemma touch_ses l l' : ses l = ses l' -> touch l -> touch l'.
Proof.
  unfold touch. revert l'. induction l as [|p l IH]; intros [|p' l'] E H; try done.
  injection E as E1 E2 E. apply StronglySorted_inv in H. destruct H as [H1 H2]. constructor; [by apply IH|].
  rewrite <- E1, <- E2. clear -E H2. revert l' E. induction l as [|q l IH]; intros [|q' l'] E; try done.
  injection E as E1 E2 E. apply list.Forall_cons in H2. destruct H2. constructor; [by rewrite <- E1, <- E2|auto].
Qed.
Lemma touch_two l i j p q : touch l -> l !! i = Some p -> l !! j = Some q -> i < j ->
  (p_end p < p_start q \/ (p_end p = p_start q /\ p_start p < p_end p /\ p_start q < p_end q))%N.
Proof.
  unfold touch. intros H. revert i j. induction H as [|x l H IH Hx]; intros i j Hp Hq Hij; [done|].
  destruct i as [|i], j as [|j]; try lia.
  - injection Hp as <-. rewrite list.Forall_forall in Hx. apply Hx. by eapply elem_of_list_lookup_2.
  - apply (IH i j); [done|done|lia].
Qed.
Lemma no_pair_spec bad ws : no_pair bad ws = true <-> forall i j a b, ws !! i = Some a -> ws !! j = Some b -> i <> j -> bad a b = false.
Proof.
  unfold no_pair. rewrite forallb_forall. split.
  - intros H i j a b Ha Hb Hij. specialize (H i). rewrite forallb_forall in H.
    specialize (H ltac:(apply in_seq; apply lookup_lt_Some in Ha; lia) j ltac:(apply in_seq; apply lookup_lt_Some in Hb; lia)).
    rewrite Ha, Hb in H. apply orb_true_iff in H. destruct H as [H|H]; [by apply Nat.eqb_eq in H|]. by destruct (bad a b).
  - intros H i _. apply forallb_forall. intros j _. destruct (Nat.eqb_spec i j); [done|]. cbn.
    destruct (ws !! i) as [a|] eqn:Ea; [|done]. destruct (ws !! j) as [b|] eqn:Eb; [|done]. by rewrite (H i j a b).
Qed.
Lemma touch_fine ws : touch ws -> Forall wf ws -> no_pair inside ws = true /\ no_pair joins ws = true.
Proof.
  intros T W. rewrite list.Forall_forall in W. unfold wf in W.
  split; apply no_pair_spec; intros i j a b Ha Hb Hij; unfold inside, joins; apply andb_false_iff; rewrite ?N.leb_gt, ?N.ltb_ge;
    pose proof (W a (elem_of_list_lookup_2 _ _ _ Ha)) as Wa; pose proof (W b (elem_of_list_lookup_2 _ _ _ Hb)) as Wb; cbn in Wa, Wb;
    (destruct (decide (i < j)) as [H|H]; [pose proof (touch_two _ _ _ _ _ T Ha Hb H)|pose proof (touch_two _ _ _ _ _ T Hb Ha ltac:(lia))]); lia.
Qed.

(** Two windows of which one lies inside the times of an edge that are covered anyway. *)
Lemma touch_covered ws t (a b : N) : touch ws -> Forall wf ws -> t ∈ ws -> (a < p_start t)%N -> (p_end t <= b)%N ->
  (forall x, passes x (a, b) -> exists w, w ∈ ws /\ passes x (se w)) -> (forall x, covers x (a, b) -> exists w, w ∈ ws /\ covers x (se w)) -> False.
Proof.
  intros T W Ht Ha Hb Hp Hc. rewrite list.Forall_forall in W. pose proof (W t Ht) as Wt. unfold wf in *. cbn in Wt.
  apply elem_of_list_lookup in Ht. destruct Ht as [j Ht].
  destruct (decide (p_start t < b)%N) as [H|H].
  - destruct (Hp (p_start t)) as (w & Hw & [P1 P2]); [split; cbn; lia|]. cbn in P1, P2. apply elem_of_list_lookup in Hw. destruct Hw as [i Hw].
    destruct (decide (i = j)) as [->|Hij]; [rewrite Ht in Hw; injection Hw as <-; lia|].
    destruct (decide (i < j)); [pose proof (touch_two _ _ _ _ _ T Hw Ht ltac:(lia))|pose proof (touch_two _ _ _ _ _ T Ht Hw ltac:(lia))]; lia.
  - destruct (Hc (p_start t - 1)%N) as (w & Hw & [P1 P2]); [split; cbn; lia|]. cbn in P1, P2. apply elem_of_list_lookup in Hw. destruct Hw as [i Hw].
    destruct (decide (i = j)) as [->|Hij]; [rewrite Ht in Hw; injection Hw as <-; lia|].
    destruct (decide (i < j)); [pose proof (touch_two _ _ _ _ _ T Hw Ht ltac:(lia))|pose proof (touch_two _ _ _ _ _ T Ht Hw ltac:(lia))]; lia.
Qed.
Lemma provides_some w eS eE e : provides w eS eE = Some e ->
  (p_start w < eS /\ eS < e /\ e <= eE /\ e <= p_end w /\ (e = eE \/ e = p_end w))%N.
Proof.
  unfold provides. destruct (N.leb_spec eS (p_start w)); [done|]. destruct (N.ltb_spec eE eS); [done|].
  destruct (N.ltb_spec eE (p_end w)); [destruct (N.leb_spec eE eS)|destruct (N.leb_spec (p_end w) eS)]; try done; intros [= <-]; lia.
Qed.

(** When nothing is left to do, after the source got its initial mail, the check accepts, for every graph (edges that ended at once included), number of
    threads and schedule. *)
Theorem C64_accepted owner n src b es sched M : (forall v, owner v < n) -> sound es sched ->
  let s := tpath_run owner src (tpath_start b es) sched in
  idle s -> mailed owner src b es sched -> tp_check M (edges s) (wins_of s) = true.
Proof.
  intros Hown Hs s Hidle Hm. pose proof (pinv_sound owner n Hown src b es sched Hs) as Hp. fold s in Hp.
  pose proof (mailed_started owner n Hown src b es sched Hs Hm) as Hst. fold s in Hst. destruct Hst as [(v0 & m0 & H)|Hw].
  { rewrite (proj1 (Hidle _)) in H. by apply elem_of_nil in H. }
  destruct Hs as (HU & HS & HT & HI & _).
  assert (Hwf : forall v, touch (wins_of s v) /\ Forall wf (wins_of s v)).
  { intros v. change (wins_of s v) with (winof s v). destruct (decide (v = src)) as [->|Hv].
    - pose proof (src_windows owner n src _ s Hp Hidle Hw) as E. split; [eapply (touch_ses [whole]); [by rewrite E|by repeat constructor]|].
      destruct (winof s src) as [|x [|y l]]; try done. injection E as E1 E2. constructor; [|constructor]. unfold wf. rewrite E1. lia.
    - destruct (p_head _ _ _ _ _ Hp v) as (h & slots & Eb & [->|[? _]]); [|done].
      destruct (other_windows owner n src _ s HT Hp Hidle v Hv) as (_ & _ & _ & W & _). split; [|done].
      destruct (slots_live (fun p ts => exists u en, (v, (ts, en, p)) ∈ (edges s u : list (nat * tedge))) slots) as [L1 L2].
      { intros p1 p2 ts ts' Hpp (u & en & H) (u' & en' & H'). eapply HT; [by eapply edge_past|by eapply edge_past|done]. }
      { intros q x Hx. apply (p_slot _ _ _ _ _ Hp v). by rewrite Eb. }
      destruct (retrieve_ok no_path slots (TProp [] [] false)) as (next & ch & E & _); [done..|].
      pose proof (retrieve_touch no_path slots _ _ ltac:(done) L1 L2 E) as Ht. cbn [nexts] in Ht. eapply touch_ses; [|exact Ht].
      pose proof (idle_fresh owner n src _ s Hp Hidle v) as Hf. rewrite Eb in Hf. cbn [box_times] in Hf. unfold times_of in Hf.
      change ((p_start no_path =? 0) && (p_end no_path =? INFINITY))%N with false in Hf. rewrite E in Hf. by rewrite Hf. }
  unfold tp_check, Check_Model.all. apply forallb_forall. intros v _. destruct (Hwf v) as [T W]. destruct (touch_fine _ T W) as [-> ->]. rewrite !andb_true_r.
  unfold nbrs_fine. apply forallb_forall. intros w Hwv. apply elem_of_list_In in Hwv. apply forallb_forall. intros [d [[eS en] p]] He. apply elem_of_list_In in He.
  destruct (provides w eS (extent en)) as [e|] eqn:Epr; [|done]. apply provides_some in Epr. destruct Epr as (Q1 & Q2 & Q3 & Q4 & _).
  apply forallb_forall. intros t Ht. apply elem_of_list_In in Ht. apply negb_true_iff. unfold worse.
  destruct (N.ltb_spec eS (p_start t)) as [H1|]; [|by rewrite andb_false_r]. destruct (N.leb_spec (p_end t) e) as [H2|]; [|by rewrite andb_false_r].
  exfalso. change (wins_of s v) with (winof s v) in Hwv. change (wins_of s d) with (winof s d) in Ht.
  destruct (Hwf d) as [Td Wd]. change (wins_of s d) with (winof s d) in Td, Wd.
  assert (Ho : open_at eS (winof s v) = true).
  { apply open_exists, List.Exists_exists. exists w. split; [by apply elem_of_list_In|]. unfold passes, se. cbn. lia. }
  destruct (decide (d = src)) as [->|Hd].
  { pose proof (src_windows owner n src _ s Hp Hidle Hw) as E. destruct (winof s src) as [|x [|y l]]; try done. injection E as E1 E2.
    apply elem_of_list_singleton in Ht. subst x. lia. }
  destruct (other_windows owner n src _ s HT Hp Hidle d Hd) as (slots & Eb & _ & _ & L).
  destruct (edge_slot owner n src _ s HI Hp Hidle _ _ _ _ _ He Ho) as (x & Hx & E1 & E2). rewrite Eb in Hx.
  assert (Hlive : x ∈ live slots).
  { apply live_lookup. split; [by exists p|]. apply (edge_past _ _ _ _ _ _ _ _ _ _ Hp) in He. apply HI in He. lia. }
  eapply (touch_covered (winof s d) t eS (extent en)); try done; [lia| |].
  - intros y Hy. apply list.Exists_exists, (proj2 (L y)), List.Exists_exists. exists x. split; [by apply elem_of_list_In|]. unfold se. by rewrite E1, E2.
  - intros y Hy. apply list.Exists_exists, (proj1 (L y)), List.Exists_exists. exists x. split; [by apply elem_of_list_In|]. unfold se. by rewrite E1, E2.
Qed.

(** What acceptance means: no time lies in two windows of a vertex, no window of a vertex lies in another; and no window of the target of an
    edge that can be taken lies in what the edge provides, other than at its start. *)
Theorem C64_means M es win : tp_check M es win = true ->
  (forall v i j a b, v < M -> win v !! i = Some a -> win v !! j = Some b -> i <> j ->
    (forall t, ~ (covers t (p_start a, p_end a) /\ covers t (p_start b, p_end b))) /\ ~ (p_start b <= p_start a /\ p_end a <= p_end b)%N) /\
  (forall v d eS en p w t, v < M -> (d, (eS, en, p)) ∈ es v -> w ∈ win v -> passes eS (p_start w, p_end w) -> t ∈ win d ->
    let eE := if (en =? 0)%N then INFINITY else en in
    (eS < p_start t)%N -> (p_end t <= p_end w)%N -> (p_end t <= eE)%N -> (p_start t < p_end w)%N -> (eE <= eS)%N).
Proof.
  unfold tp_check, Check_Model.all. rewrite forallb_forall. intros H. split.
  - intros v i j a b Hv Ha Hb Hij. specialize (H v ltac:(apply in_seq; lia)). rewrite !andb_true_iff, !no_pair_spec in H. destruct H as [[_ H1] H2]. split.
    + intros t [C1 C2]. unfold covers in *. cbn in C1, C2. pose proof (H2 _ _ _ _ Ha Hb Hij) as Hab. pose proof (H2 _ _ _ _ Hb Ha ltac:(done)) as Hba.
      unfold joins in *. apply andb_false_iff in Hab, Hba. rewrite !N.leb_gt, !N.ltb_ge in Hab, Hba. lia.
    + specialize (H1 _ _ _ _ Ha Hb Hij). unfold inside in H1. apply andb_false_iff in H1. rewrite !N.leb_gt in H1. lia.
  - intros v d eS en p w t Hv He Hw [P1 P2] Ht. set (eE := if (en =? 0)%N then INFINITY else en). intros H1 H2 H3 H4. cbn in P1, P2. specialize (H v ltac:(apply in_seq; lia)). rewrite !andb_true_iff in H. destruct H as [[H _] _].
    unfold nbrs_fine in H. rewrite forallb_forall in H. specialize (H w (proj1 (elem_of_list_In _ _) Hw)). rewrite forallb_forall in H.
    specialize (H (d, (eS, en, p)) (proj1 (elem_of_list_In _ _) He)). cbn -[provides] in H. change (extent en) with eE in H.
    destruct (N.le_gt_cases eE eS) as [Hle|Hgt]; [done|]. exfalso. unfold provides in H.
    rewrite (proj2 (N.leb_gt eS (p_start w))), (proj2 (N.ltb_ge eE eS)) in H by lia.
    set (e := if (eE <? p_end w)%N then eE else p_end w) in H. assert (He' : (eS < e /\ p_end t <= e)%N). { unfold e. destruct (N.ltb_spec eE (p_end w)); lia. }
    rewrite (proj2 (N.leb_gt e eS)) in H by lia. rewrite forallb_forall in H. specialize (H t (proj1 (elem_of_list_In _ _) Ht)). unfold worse in H.
    rewrite (proj2 (N.leb_gt (p_end w) (p_start t))), (proj2 (N.ltb_ge (p_end w) (p_end t))), (proj2 (N.ltb_lt eS (p_start t))), (proj2 (N.leb_le (p_end t) e)) in H by lia. done.
Qed.

(** Windows that are missing altogether are not noticed: on every graph, the check accepts that only the source is ever reached, and
    that nothing is. *)
Theorem C64_weak M src es : tp_check M es (fun v => if v =? src then [whole] else []) = true /\ tp_check M es (fun _ => []) = true.
Proof.
  split; unfold tp_check, Check_Model.all; apply forallb_forall; intros v _; [|done].
  destruct (Nat.eqb_spec v src) as [->|Hv]; [|done]. rewrite !andb_true_iff. split; [split; [|done]|done].
  unfold nbrs_fine. apply forallb_forall. intros w Hw. destruct Hw as [<-|[]]. apply forallb_forall. intros [d [[eS en] p]] _.
  destruct (provides whole eS (extent en)) as [e|] eqn:E; [|done]. destruct (Nat.eqb_spec d src); [|done]. cbn [forallb]. rewrite andb_true_r.
  unfold worse. cbn [p_start whole]. rewrite (proj2 (N.ltb_ge eS 0)) by lia. by rewrite andb_false_r.
Qed.

(** The comparison with an oracle accepts exactly the same windows; so it accepts any two runs that came to rest with the same edges. *)
Theorem C64_compare M oracle given : tp_compare M oracle given = true <->
  forall v, v < M -> map (fun p => (p_start p, p_end p)) (oracle v) = map (fun p => (p_start p, p_end p)) (given v).
Proof.
  unfold tp_compare, Check_Model.all. rewrite forallb_forall.
  assert (Hone : forall a b : list path, ((length a =? length b) && forallb (fun '(x, y) => (p_start x =? p_start y)%N && (p_end x =? p_end y)%N) (List.combine a b) = true)
    <-> map (fun p => (p_start p, p_end p)) a = map (fun p => (p_start p, p_end p)) b).
  { induction a as [|x a IH]; intros [|y b]; cbn; try done. specialize (IH b). rewrite !andb_true_iff, !N.eqb_eq in *. split.
    - intros [H1 [[-> ->] H2]]. f_equal. by apply IH.
    - intros [= -> -> H]. apply IH in H. tauto. }
  split.
  - intros H v Hv. apply Hone, H, in_seq. lia.
  - intros H v Hv%in_seq. apply Hone, H. lia.
Qed.
Theorem C64_compare_runs src owner n b es sched owner' n' b' es' sched' M :
  (forall v, owner v < n) -> sound es sched -> (forall v, owner' v < n') -> sound es' sched' ->
  let s := tpath_run owner src (tpath_start b es) sched in
  let s' := tpath_run owner' src (tpath_start b' es') sched' in
  idle s -> mailed owner src b es sched -> idle s' -> mailed owner' src b' es' sched' ->
  (forall u e, e ∈ edges s u <-> e ∈ edges s' u) -> tp_compare M (wins_of s) (wins_of s') = true.
Proof.
  intros Hown Hs Hown' Hs' s s' Hidle Hm Hidle' Hm' He. apply C64_compare. intros v _.
  pose proof (Path_Props.C45_agree src owner n b es sched owner' n' b' es' sched' v Hown Hs Hown' Hs' Hidle Hm Hidle' Hm' He) as H.
  fold s s' in H. unfold Path_Props.windows in H. unfold wins_of. destruct (prop s v) as [p|], (prop s' v) as [p'|]; try done. cbn in H. by injection H.
Qed.

(** Source 0.  0→1 appears at 10 and ends at 20, another 0→1 appears at 20 and ends at once, a third appears at 20 and stays (so that the windows of 1 touch).
    1→2 appears at 15.  The result is accepted; a window of 2 that starts too late is not, nor windows that overlap. *)
Definition case_es (u : nat) : list (nat * tedge) :=
  match u with 0 => [(1, (10%N, 20%N, 0)); (1, (20%N, 20%N, 1)); (1, (20%N, 0%N, 2))] | 1 => [(2, (15%N, 0%N, 0))] | _ => [] end.
Definition case_sched : list (nat * tchoice) := (0, TInit) :: Path_Props.steps 20.
Definition case_run := tpath_run Path_Props.case_owner 0 (tpath_start (fun v => if v =? 1 then 3 else 1) case_es) case_sched.
Lemma case_ever u : tever case_es case_sched u =
  match u with 0 => [(1, (10%N, 0)); (1, (20%N, 1)); (1, (20%N, 2))] | 1 => [(2, (15%N, 0))] | _ => [] end.
Proof. destruct u as [|[|u]]; vm_compute; done. Qed.
Lemma case_in u d a p : (d, (a, p)) ∈ tever case_es case_sched u ->
  (u = 0 /\ d = 1 /\ a = 10%N /\ p = 0) \/ (u = 0 /\ d = 1 /\ a = 20%N /\ p = 1) \/ (u = 0 /\ d = 1 /\ a = 20%N /\ p = 2) \/
  (u = 1 /\ d = 2 /\ a = 15%N /\ p = 0).
Proof.
  rewrite case_ever. destruct u as [|[|u]]; intros H; repeat (apply elem_of_cons in H; destruct H as [H|H]; [injection H as -> -> ->; tauto|]);
    by apply elem_of_nil in H.
Qed.
Example C64_case :
  sound case_es case_sched /\ idle case_run /\ mailed Path_Props.case_owner 0 (fun v => if v =? 1 then 3 else 1) case_es case_sched /\
  map (Path_Props.windows case_run) [0; 1; 2; 3] =
    [Some [(0%N, INFINITY)]; Some [(10%N, 20%N); (20%N, INFINITY)]; Some [(15%N, INFINITY)]; Some []] /\
  tp_check 4 (edges case_run) (wins_of case_run) = true /\
  tp_check 4 (edges case_run) (fun v => if v =? 2 then [Path 16 18 2] else wins_of case_run v) = false /\
  tp_check 4 (edges case_run) (fun v => if v =? 1 then [Path 10 21 1; Path 20 INFINITY 1] else wins_of case_run v) = false /\
  tp_compare 4 (wins_of case_run) (fun v => if v =? 2 then [Path 15 18 2] else wins_of case_run v) = false.
Proof.
  split_and!; [split_and!| | |vm_compute; reflexivity..].
  - intros u1 u2 i1 i2 d a1 a2 p. rewrite !case_ever. intros H1 H2.
    destruct u1 as [|[|u1]], i1 as [|[|[|[|i1]]]]; try discriminate; injection H1 as <- <- <-;
      destruct u2 as [|[|u2]], i2 as [|[|[|[|i2]]]]; try discriminate; injection H2; intros; done || discriminate.
  - intros u. rewrite case_ever. destruct u as [|[|u]]; repeat constructor; cbn; lia.
  - intros u1 u2 d a1 a2 p1 p2 H1%case_in H2%case_in Hp. lia.
  - intros u d a p H%case_in. unfold INFINITY, w64. lia.
  - intros u d ts en p H. destruct u as [|[|u]]; cbn in H; [| |by apply elem_of_nil in H];
      repeat (apply elem_of_cons in H; destruct H as [H|H]; [injection H as -> -> -> ->; vm_compute; discriminate|]); by apply elem_of_nil in H.
  - apply list.Forall_forall. intros [t c] H.
    assert (Ht : forallb (fun '(_, c) => match c with TRun | TPop | TInit => true | _ => false end) case_sched = true) by (vm_compute; reflexivity).
    rewrite forallb_forall in Ht. apply elem_of_list_In, Ht in H. by destruct c.
  - intros [|[|t]]; vm_compute; done.
  - exists [], (tail case_sched). split; [reflexivity|vm_compute; reflexivity].
Qed.

Print Assumptions C64_accepted.
Print Assumptions C64_means.
Print Assumptions C64_weak.
Print Assumptions C64_compare.
Print Assumptions C64_compare_runs.
