(** C68: temporal paths come to rest, and the program ends. *)
From Verif Require Import Base Engine_Spec Engine_Model Engine_Proofs Engine_Shape Engine_Props Rest_Spec Rest_Proofs.
From Verif Require Import Window_Spec Window_Model Window_Proofs Path_Spec Path_Model Path_Local Path_Proofs Path_Run Path_Final Path_Init Path_Props Rest_Path.
From Verif Require Import Whole_Model Whole_Proofs Whole_Props Live_Proofs Live_Props.
From Verif Require Term_Model Term_Proofs.
Open Scope nat_scope.

(** A finite graph: finitely many vertices and positions. *)
Definition path_graph (top K : nat) (b : nat -> nat) (ev : nat -> list (nat * (N * nat))) : Prop :=
  (forall v, b v <= K) /\ (forall u d ts p, (d, (ts, p)) ∈ ev u -> d < top /\ p < K) /\ (forall u, top <= u -> ev u = []).

Section run.
Context (owner : nat -> nat) (n : nat) (Hown : forall v, owner v < n) (src : nat) (b : nat -> nat) (es : nat -> list (nat * tedge)).
Notation run := (tpath_run owner src (tpath_start b es)).
Lemma run_app sched l : run (sched ++ l) = tpath_run owner src (run sched) l.
Proof. unfold tpath_run. by rewrite fold_left_app. Qed.
Lemma known sched u d ts en p : sound es sched -> (d, (ts, en, p)) ∈ (edges (run sched) u : list (nat * tedge)) -> (d, (ts, p)) ∈ tever es sched u.
Proof.
  intros Hs H. pose proof (pinv_sound owner n Hown src b es sched Hs) as Hp. eapply elem_of_submseteq; [|apply sublist_submseteq, (p_past _ _ _ _ _ Hp u)].
  apply elem_of_list_fmap. by exists (d, (ts, en, p)).
Qed.
Lemma graph_prefix sched x top K : path_graph top K b (tever es (sched ++ [x])) -> path_graph top K b (tever es sched).
Proof.
  intros (H1 & H2 & H3). split_and!; [done| |].
  - intros u d ts p H. apply (H2 u d ts p). rewrite tever_app. apply elem_of_app. by left.
  - intros u Hu. specialize (H3 u Hu). rewrite tever_app in H3. by destruct (app_eq_nil _ _ H3).
Qed.
Lemma box_same s t c v : c <> TRun -> bx (tstep owner src s t c) v = bx s v.
Proof.
  intros Hc. destruct c as [| | |w es'|w l]; cbn [tstep]; unfold estep; [done| | | |]; (destruct (todo s t); [|done]).
  - by destruct (queue s t).
  - by destruct (owner src =? t).
  - by destruct (owner w =? t).
  - by destruct (owner w =? t).
Qed.
Lemma len_run sched top K : sound es sched -> path_graph top K b (tever es sched) -> forall v, length (bx (run sched) v) <= S K.
Proof.
  induction sched as [|[t c] sched IH] using rev_ind; intros Hs HG v.
  - cbn. rewrite replicate_length. destruct HG as (H & _). specialize (H v). lia.
  - pose proof (sound_prefix _ _ _ Hs) as Hs1. pose proof (graph_prefix _ _ _ _ HG) as HG1. specialize (IH Hs1 HG1). rewrite run_snoc.
    assert (c = TRun \/ c <> TRun) as [->|Hc] by (destruct c; solve [by left|by right]); [|by rewrite box_same]. cbn [tstep].
    pose proof (pinv_sound owner n Hown src b es sched Hs1) as Hp. pose proof Hs1 as (HU & HS & HT & HI & _).
    apply (len_step owner n Hown src (tever es sched) HU HS HT HI); try done; [by unfold acts; rewrite elem_of_cons; left|].
    intros u d ts en p H. apply known in H; [|done]. by destruct HG1 as (_ & H2 & _); destruct (H2 _ _ _ _ H).
Qed.
Lemma bounded (f : nat -> nat) k : exists M, forall u, u < k -> f u <= M.
Proof. induction k as [|k [M IH]]; [exists 0; lia|]. exists (M + f k). intros u Hu. destruct (decide (u = k)) as [->|]; [lia|]. specialize (IH u ltac:(lia)). lia. Qed.
Lemma path_finite sched top K : sound es sched -> path_graph top K b (tever es sched) ->
  let s := run sched in finite tpaths owner s /\ settles (erun tpaths owner) (acts tpaths) n idle s.
Proof.
  intros Hs HG s. pose proof (len_run sched top K Hs HG) as Hl. pose proof (pinv_sound owner n Hown src b es sched Hs) as Hp. fold s in Hl, Hp.
  destruct (bounded (fun u => length (edges s u)) top) as [M HM]. destruct HG as (HG1 & HG2 & HG3).
  assert (Hlow : forall u, top <= u -> edges s u = []).
  { intros u Hu. pose proof (p_past _ _ _ _ _ Hp u) as H. rewrite (HG3 u Hu) in H. apply sublist_nil_r, map_eq_nil in H. done. }
  pose proof Hs as (HU & HS & HT & HI & _).
  apply (path_settles owner n Hown src (tever es sched) HU HS HT HI (edges s) top K M); try done.
  - intros u. destruct (decide (u < top)) as [Hu|Hu]; [by apply HM|]. rewrite Hlow by lia. cbn. lia.
  - intros u d ts en p H. apply known in H; [|done]. by eapply HG2.
Qed.

(** Steps of the engine as steps of the model of temporal paths. *)
Definition stands (k : tchoice) (c : choice tpaths) : Prop :=
  match k with
  | TRun => c = Run | TPop => c = Pop | TInit => c = SendInit (a := tpaths) src MInit
  | TAdd v l => c = AddEdges (a := tpaths) v (map new_edge l) | TEnd _ _ => False
  end.
Definition stand (l : list (nat * tchoice)) (l' : list (nat * choice tpaths)) : Prop := Forall2 (fun x y => x.1 = y.1 /\ stands x.2 y.2) l l'.
Lemma stand_run s l l' : stand l l' -> erun tpaths owner s l' = tpath_run owner src s l.
Proof.
  intros H. revert s. induction H as [|[t k] [t' c] l l' [H1 H2] _ IH]; intros s; [done|]. cbn in H1, H2. subst t'. unfold erun, tpath_run in *. cbn [fold_left]. rewrite IH. f_equal.
  destruct k; cbn in H2; subst; done.
Qed.
Lemma acts_stand l' : (forall t c, (t, c) ∈ l' -> c ∈ acts tpaths) -> exists l, stand l l' /\ forall t k, (t, k) ∈ l -> k = TRun \/ k = TPop.
Proof.
  induction l' as [|[t c] l' IH]; intros H; [exists []; split; [constructor|intros t k Hk; by apply elem_of_nil in Hk]|].
  destruct IH as (l & H1 & H2); [intros t' c' Hc; by apply (H t' c'), elem_of_list_further|].
  specialize (H t c ltac:(apply elem_of_list_here)). unfold acts in H. rewrite !elem_of_cons, elem_of_nil in H. destruct H as [->|[->|[]]].
  - exists ((t, TRun) :: l). split; [by constructor|]. intros t' k. rewrite elem_of_cons. intros [[= -> ->]|Hk]; [by left|by eapply H2].
  - exists ((t, TPop) :: l). split; [by constructor|]. intros t' k. rewrite elem_of_cons. intros [[= -> ->]|Hk]; [by right|by eapply H2].
Qed.
Lemma tever_quiet sched l u : (forall t k, (t, k) ∈ l -> k = TRun \/ k = TPop) -> tever es (sched ++ l) u = tever es sched u.
Proof.
  intros Hl. unfold tever. f_equal. unfold tadded. rewrite map_app, concat_app, <- (app_nil_r (concat (map _ sched))) at 1. rewrite app_nil_r. rewrite <- (app_nil_r (concat (map _ sched))) at 2. f_equal.
  induction l as [|[t k] l IH]; [done|]. cbn [map concat]. rewrite IH by (intros t' k' H; by apply (Hl t' k'), elem_of_list_further).
  by destruct (Hl t k ltac:(apply elem_of_list_here)) as [->| ->].
Qed.
Lemma sound_quiet sched l : (forall t k, (t, k) ∈ l -> k = TRun \/ k = TPop) -> sound es sched -> sound es (sched ++ l).
Proof.
  intros Hl (HU & HS & HT & HI & H0 & HE). pose proof (fun u => tever_quiet sched l u Hl) as E. split_and!.
  - intros u1 u2 i1 i2 d a1 a2 p. rewrite !E. apply HU.
  - intros u. rewrite E. apply HS.
  - intros u1 u2 d a1 a2 p1 p2. rewrite !E. apply HT.
  - intros u d a p. rewrite E. apply HI.
  - done.
  - apply list.Forall_app. split.
    + eapply List.Forall_impl; [|exact HE]. intros [t' [| | |v es'|v l']]; try done. cbn. intros H d p en ts H1 H2. rewrite E in H2. by eapply H.
    + apply list.Forall_forall. intros [t k] H. by destruct (Hl t k H) as [->| ->].
Qed.
Lemma mailed_more sched l : mailed owner src b es sched -> mailed owner src b es (sched ++ l).
Proof. intros (s1 & s2 & -> & H). exists s1, (s2 ++ l). split; [|done]. by rewrite <- app_assoc. Qed.
End run.

(** The windows of [v] in [s'] are right for the edges of [s]: C45. *)
Definition right_windows (src : nat) (s s' : est tpaths) : Prop := forall v,
  exists ws, windows s' v = Some ws /\ apart ws /\ (v = src -> ws = [(0%N, INFINITY)]) /\
    (v <> src -> forall t, (exists w, w ∈ ws /\ covers t w) <-> (exists u a b, carries src (edge_in s) u v a b /\ covers t (a, b))).
Lemma right_rest owner n src b es sched l : (forall v, owner v < n) -> sound es sched -> mailed owner src b es sched ->
  let s := tpath_run owner src (tpath_start b es) sched in
  (forall t c, (t, c) ∈ l -> c ∈ acts tpaths) -> idle (erun tpaths owner s l) -> right_windows src s (erun tpaths owner s l).
Proof.
  intros Hown Hs Hm s Hl Hi v. destruct (acts_stand src l Hl) as (l' & H1 & H2). pose proof (stand_run owner src s l' l H1) as E.
  assert (Ee : edges (erun tpaths owner s l) = edges s) by (by apply acts_run_edges).
  pose proof (C45_exact owner n src b es (sched ++ l') v Hown (sound_quiet es sched l' H2 Hs)) as HC. cbv zeta in HC. rewrite run_app in HC. fold s in HC. rewrite <- E in HC.
  destruct (HC Hi (mailed_more owner src b es sched l' Hm)) as (ws & W1 & W2 & W3 & W4). exists ws. split_and!; try done.
  intros Hv t. destruct (W4 Hv t) as [W _]. rewrite W. split; intros (u & x & y & Hc & Ht); exists u, x, y; (split; [|done]); eapply carries_mono; try exact Hc;
    intros u' v' a' b' (en & p & G1 & G2); exists en, p; (split; [|done]); by rewrite Ee in *.
Qed.

(** Whatever edges were added and ended in whatever interleaving: from then on a bounded number of rounds is enough. *)
Theorem C68_rest owner n src b es sched top K : (forall v, owner v < n) -> sound es sched -> path_graph top K b (tever es sched) ->
  settles (erun tpaths owner) (acts tpaths) n idle (tpath_run owner src (tpath_start b es) sched).
Proof. intros Hown Hs HG. by destruct (path_finite owner n Hown src b es sched top K Hs HG). Qed.

(** With C45: then the windows of every vertex are the times at which something from the source can be there. *)
Theorem C68_windows owner n src b es sched top K : (forall v, owner v < n) -> sound es sched -> path_graph top K b (tever es sched) ->
  mailed owner src b es sched ->
  let s := tpath_run owner src (tpath_start b es) sched in
  settles (erun tpaths owner) (acts tpaths) n (right_windows src s) s.
Proof.
  intros Hown Hs HG Hm s. destruct (C68_rest owner n src b es sched top K Hown Hs HG) as (bound & Hb). exists bound. intros rounds HF Hlen. specialize (Hb rounds HF Hlen). fold s in Hb.
  apply (right_rest owner n); try done. intros t c. by apply rounds_acts with n.
Qed.

(** With C61: and the program ends with it.  [before] may contain anything; the threads of the whole program, whose steps are
    those of the engine, do not end edges. *)
Theorem C68_ends owner n src b es before own sent0 sched later swap top K : (forall v, owner v < n) ->
  let e := tpath_run owner src (tpath_start b es) before in fresh n e sent0 ->
  let s0 := wstart tpaths e own sent0 in let s := wrun tpaths owner swap n s0 sched in
  stand src later (eworks tpaths owner swap n s0 sched) -> closed tpaths n s ->
  sound es (before ++ later) -> path_graph top K b (tever es (before ++ later)) -> mailed owner src b es (before ++ later) ->
  exists bound, forall rounds, Forall (fair_round tpaths n) rounds -> bound <= length rounds ->
    swap = true \/ Term_Proofs.tidy swap n (trm s0) (lworks tpaths owner swap n s0 (sched ++ concat rounds)) ->
    let s' := wrun tpaths owner swap n s (concat rounds) in
    (forall t, t < n -> left s' t) /\ complete n s' = true /\ right_windows src (eng s) (eng s').
Proof.
  intros Hown e Hf s0 s Hst HC Hs HG Hm.
  assert (Ew : eng s = tpath_run owner src (tpath_start b es) (before ++ later)).
  { unfold s, s0. rewrite eng_all, run_app. by apply stand_run. }
  destruct (path_finite owner n Hown src b es (before ++ later) top K Hs HG) as [HF _]. cbv zeta in HF. rewrite <- Ew in HF.
  destruct (C61_ends tpaths owner swap n Hown e own sent0 sched Hf HC HF) as (bound & Hb). exists bound. intros rounds Hr Hl Htd s'.
  destruct (Hb rounds Hr Hl Htd) as (H1 & H2 & H3 & l & El & Hl'). fold s0 in El, H1, H2, H3. fold s in El, H1, H2, H3. fold s' in El, H1, H2, H3.
  split_and!; try done. rewrite El, Ew in *. by apply (right_rest owner n).
Qed.

(** The case of C45, stopped where the last edge has been added but not yet acted upon: it meets the conditions and is busy. *)
Definition half_sched : list (nat * tchoice) := firstn (length case_sched - 120) case_sched.
Lemma half_all : case_sched = half_sched ++ steps 20.
Proof. vm_compute. reflexivity. Qed.
Lemma sound_more es sched l : sound es (sched ++ l) -> sound es sched.
Proof. induction l as [|x l IH] using rev_ind; [by rewrite app_nil_r|]. rewrite app_assoc. intros H. by apply sound_prefix, IH in H. Qed.
Lemma half_ever u : tever case_es half_sched u = tever case_es case_sched u.
Proof. rewrite half_all. symmetry. apply tever_quiet. intros t k H.
  assert (Hb : forallb (fun '(_, k) => match k with TRun | TPop => true | _ => false end) (steps 20) = true) by (vm_compute; reflexivity).
  rewrite forallb_forall in Hb. apply elem_of_list_In, Hb in H. destruct k; auto; done.
Qed.
Lemma right_more owner n src b es sched l all s s' : (forall v, owner v < n) -> sound es sched -> mailed owner src b es sched ->
  all = sched ++ l -> s = tpath_run owner src (tpath_start b es) sched -> s' = tpath_run owner src (tpath_start b es) all ->
  forallb (fun '(_, k) => match k with TRun | TPop => true | _ => false end) l = true -> idle s' -> right_windows src s s'.
Proof.
  intros Hown Hs Hm -> Es ->. rewrite run_app, <- Es. intros Hb Hi.
  pose (conv := fun '(t, k) => (t, match k with TRun => Run | _ => Pop end) : nat * choice tpaths).
  assert (Hst : stand src l (map conv l)).
  { clear -Hb. induction l as [|[t0 k0] l IH]; [constructor|]. cbn in Hb. apply andb_true_iff in Hb. destruct Hb as [H0 H1]. constructor; [by destruct k0|by apply IH]. }
  rewrite <- (stand_run owner src s l (map conv l) Hst) in *. rewrite Es in *. apply (right_rest owner n); try done.
  intros t c H. apply elem_of_list_fmap in H. destruct H as ([t0 k0] & [= -> ->] & _). unfold acts. rewrite !elem_of_cons. destruct k0; auto.
Qed.
Example C68_case :
  sound case_es half_sched /\ path_graph 3 2 (fun _ => 1) (tever case_es half_sched) /\ mailed case_owner 0 (fun _ => 1) case_es half_sched /\
  ~ idle (case_run half_sched) /\ windows (case_run half_sched) 1 = Some [(10%N, 15%N)] /\
  right_windows 0 (case_run half_sched) (case_run case_sched) /\ windows (case_run case_sched) 1 = Some [(10%N, 15%N); (35%N, INFINITY)].
Proof.
  destruct C45_case as (HS & HI & _).
  assert (Hs : sound case_es half_sched) by (apply (sound_more _ _ (steps 20)); by rewrite <- half_all).
  assert (Hm : mailed case_owner 0 (fun _ => 1) case_es half_sched).
  { exists [], (tail half_sched). split; [vm_compute; reflexivity|vm_compute; reflexivity]. }
  split; [exact Hs|]. split; [|split; [exact Hm|]; split; [|split; [|split]]].
  - split_and!; [lia| |].
    + intros u d ts p. rewrite half_ever. intros H%case_in. lia.
    + intros u Hu. rewrite half_ever, case_ever. destruct u as [|[|[|u]]]; try lia. done.
  - intros H. destruct (H 0) as [H0 _]. apply (f_equal length) in H0. vm_compute in H0. discriminate.
  - vm_compute. reflexivity.
  - apply (right_more case_owner 2 0 (fun _ => 1) case_es half_sched (steps 20) case_sched).
    { intros w. apply Nat.mod_upper_bound. lia. } { exact Hs. } { exact Hm. } { exact half_all. }
    { unfold case_run. reflexivity. } { unfold case_run. reflexivity. } { vm_compute. reflexivity. } { exact HI. }
  - vm_compute. reflexivity.
Qed.

Print Assumptions C68_rest.
Print Assumptions C68_windows.
Print Assumptions C68_ends.
