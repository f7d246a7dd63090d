(** C41: the finishing pass of PageRank. *)
From Verif Require Import Base RBO_Spec QcUtil Engine_Spec Engine_Model Engine_Proofs Engine_Shape Engine_Props Rank_Spec Rank_Model Rank_Proofs Rank_Run Rank_Wake Rank_Props Rank_Error Rank_Close Finish_Spec Finish_Model Finish_Proofs Finish_Exact.
From Coq Require Import QArith Qcanon.
Open Scope nat_scope.

(** Whatever the masses: if nothing is divided by zero, the scores add up to the masses of the
    vertices with edges, plus those of the sinks undamped, over the number of vertices. *)
Theorem C41_total l out : finish l = Some out -> (nV l * lsum (map snd out) = nonSinkSum l + sinkSum l / (1 - DAMP))%Qc.
Proof. apply mass_total. Qed.
Print Assumptions C41_total.

(** From exact masses, with every vertex given 1, something is divided by zero just when there is
    at most one vertex, when no vertex has edges, or when there are sinks but no edge leads to
    one. *)
Theorem C41_defined N out m : (forall w x, w < N -> In x (out w) -> x < N) -> exact_ranks DAMP N out (fun _ => 1%Qc) m ->
  (exists r, finish (states N out (fun _ => 0%Qc) m) = Some r) <->
  2 <= N /\ (exists v, v < N /\ out v <> []) /\ ((exists v, v < N /\ out v = []) -> exists v w, v < N /\ w < N /\ out v = [] /\ In v (out w)).
Proof.
  intros Hin Hm. split.
  - intros (r & H). by apply (smooth_ex N out m Hin Hm), (finish_some _ r).
  - intros (H1 & H2 & H3). eexists. apply finish_smooth. by apply (ex_smooth N out m Hin Hm).
Qed.
Print Assumptions C41_defined.

(** And otherwise the scores are, exactly, those of the graph in which every sink has an edge to
    every other vertex, divided by the number of vertices. *)
Theorem C41_exact N out m r : (forall w x, w < N -> In x (out w) -> x < N) -> exact_ranks DAMP N out (fun _ => 1%Qc) m ->
  finish (states N out (fun _ => 0%Qc) m) = Some r ->
  length r = N /\ exact_ranks DAMP N (joined N out) (fun _ => 1%Qc) (fun v => inject_nat N * snd (nth v r (0, 0)))%Qc /\ lsum (map snd r) = 1%Qc.
Proof.
  intros Hin Hm H. pose proof (finish_some _ _ H) as Hs. pose proof (smooth_ex N out m Hin Hm Hs) as (HN & _ & _).
  pose proof (finish_eq _ _ H) as Hr. assert (HN0 : inject_nat N <> 0%Qc) by (apply QcUtil.inj_nz; lia).
  assert (Hl : length r = N). { rewrite Hr. unfold states. by rewrite !map_length, seq_length. }
  split; [done|]. split.
  - intros v Hv. assert (E : forall w, w < N -> (inject_nat N * snd (nth w r (0, 0)) = score N out m w)%Qc).
    { intros w Hw. subst r. rewrite nth_indep with (d' := scaled (states N out (fun _ => 0%Qc) m) (Fin 0%Qc (m 0) (length (out 0)) false)) by (rewrite Hl; done).
      rewrite map_nth. unfold states at 2. rewrite (map_nth (fun v => Fin 0%Qc (m v) (length (out v)) false) (seq 0 N) 0 w), seq_nth by done. cbn [plus].
      unfold scaled. cbn [snd]. rewrite st_nV, (st_mass1 out (fun _ => 0%Qc)), m1_m. unfold score, sink. cbn [f_deg]. field. done. }
    rewrite E by done. rewrite (handed_ext _ _ _ (score N out m)) by done. by apply (ex_exact N out m Hin Hm Hs).
  - pose proof (mass_total _ _ H) as Ht. rewrite (kept N out m Hin Hm), st_nV in Ht. transitivity (inject_nat N * lsum (map snd r) / inject_nat N)%Qc; [field; done|]. rewrite Ht. field. done.
Qed.
Print Assumptions C41_exact.

(** After any run whose threads are at rest, with every vertex given 1, the total checked is one
    but for what is still in inboxes, and the flow left in sinks, which is counted twice. *)
Theorem C41_checked owner n N es sched r : (forall v, owner v < n) -> (forall w, N <= w -> es w = []) ->
  (forall t c, (t, c) ∈ sched -> low N c) ->
  let s := rank_run owner es sched in let out := fun w => map fst (edges s w) in
  (forall t, todo s t = []) -> (forall w x, w < N -> In x (out w) -> x < N) -> (forall v, v < N -> given owner (rank_start es) sched v = 1%Qc) ->
  finish (states N out (fun v => inflow s v) (fun v => mass s v)) = Some r ->
  (score_total r = 1 - qsum (fun v => total (box s v)) N / inject_nat N + DAMP * qsum (fun v => if length (edges s v) =? 0 then inflow s v else 0) N / inject_nat N)%Qc.
Proof.
  intros Hown He Hlow s out Hq Hin Hg H. set (l := states N out (fun v => inflow s v) (fun v => mass s v)) in *.
  pose proof (finish_some _ _ H) as (_ & _ & _ & _ & HV & _). assert (EV : nV l = inject_nat N) by apply st_nV. rewrite EV in HV.
  assert (Hlen : length r = N). { rewrite (finish_eq _ _ H). unfold l, states. by rewrite !map_length, seq_length. }
  assert (Hfl : lsum (map fst r) = (DAMP * qsum (fun v => inflow s v) N)%Qc).
  { rewrite (finish_eq _ _ H), map_map. cbn [scaled fst]. unfold l at 1, states. rewrite map_map. cbn [flow1 f_in].
    assert (Hf : forall (g : nat -> Qc) k, lsum (map g (seq 0 k)) = qsum g k).
    { intros g k. pose proof (lsum_qsum (fun _ : nat => true) g (fun v => v) k) as E. rewrite map_id in E. transitivity (lsum (map g (List.filter (fun _ => true) (seq 0 k)))); [|exact E]. f_equal. f_equal. clear. induction (seq 0 k) as [|x y IH]; [done|]. cbn [List.filter]. by rewrite <- IH. }
    rewrite Hf, <- qsum_scale. apply qsum_ext. intros v _. unfold flow1. done. }
  pose proof (mass_total _ _ H) as Ht. rewrite EV in Ht. unfold score_total. rewrite Hlen, Hfl.
  transitivity ((inject_nat N * lsum (map snd r) + DAMP * qsum (fun v => inflow s v) N) / inject_nat N)%Qc; [field; done|]. rewrite Ht.
  transitivity ((inject_nat N - qsum (fun v => total (box s v)) N + DAMP * qsum (fun v => if length (edges s v) =? 0 then inflow s v else 0) N) / inject_nat N)%Qc; [|field; done]. f_equal.
  assert (HB : (qsum (fun v => total (box s v) + inflow s v + mass s v * idx) N = inject_nat N + qsum (fun w => if length (out w) =? 0 then 0 else DAMP * idx * mass s w) N)%Qc).
  { rewrite <- (handed_total N out (fun w => mass s w) Hin), <- (Qcmult_1_r (inject_nat N)), <- qsum_const, <- qsum_add. apply qsum_ext. intros v Hv.
    pose proof (C40_quiet owner n N es sched Hown He Hlow Hq v) as E. rewrite Hg in E by done. exact E. }
  assert (EN : inject_nat N = qsum (fun v => (total (box s v) + inflow s v + mass s v * idx) + - (1) * (if length (out v) =? 0 then 0 else DAMP * idx * mass s v))%Qc N).
  { rewrite qsum_add, qsum_scale, HB. ring. }
  rewrite EN. unfold l. rewrite st_sinks, st_others. unfold Qcdiv. fold idx. rewrite (Qcmult_comm _ idx).
  transitivity (qsum (fun v => (if length (out v) =? 0 then 0 else mass s v + (1 - DAMP) * inflow s v) + idx * (if length (out v) =? 0 then mass s v + (1 - DAMP) * inflow s v else 0) + DAMP * inflow s v)%Qc N).
  { rewrite qsum_add, (qsum_add (fun v => if length (out v) =? 0 then 0 else mass s v + (1 - DAMP) * inflow s v)%Qc), !qsum_scale. done. }
  transitivity (qsum (fun v => (total (box s v) + inflow s v + mass s v * idx) + - (1) * (if length (out v) =? 0 then 0 else DAMP * idx * mass s v) + - (1) * total (box s v) + DAMP * (if length (edges s v) =? 0 then inflow s v else 0))%Qc N).
  - apply qsum_ext. intros v _. unfold out. rewrite map_length. set (x := inflow s v). set (y := mass s v). set (b := total (box s v)).
    assert (E1 : forall z, (z = (1 - DAMP) * idx * z)%Qc) by (intros z; rewrite idx_ok; ring).
    destruct (length (edges s v) =? 0).
    + transitivity (idx * y + (1 - DAMP) * idx * x + DAMP * x)%Qc; [ring|]. rewrite <- E1. ring.
    + rewrite (E1 y) at 1. ring.
  - rewrite qsum_add, (qsum_add _ (fun v => - (1) * total (box s v))%Qc), !qsum_scale. ring.
Qed.
Print Assumptions C41_checked.

(** Once all is quiet, and no inbox was ever exactly at the threshold, that total is within
    1.85 EPSILON of one, and within EPSILON if there are no sinks.  (The checker asks for less
    than EPSILON.) *)
Lemma share_small f N b : (forall v, v < N -> (qabs (f v) <= b)%Qc) -> inject_nat N <> 0%Qc -> (qabs (qsum f N / inject_nat N) <= b)%Qc.
Proof.
  intros H HN. assert (Hp : (0 <= / inject_nat N)%Qc) by apply inv_nonneg, inj_nonneg. unfold Qcdiv. rewrite Qcmult_comm.
  eapply Qcle_trans; [by apply qabs_scale|]. replace b with (/ inject_nat N * (inject_nat N * b))%Qc by (field; done). rewrite !(Qcmult_comm (/ inject_nat N)). apply Qcmult_le_compat_r; [|done].
  eapply Qcle_trans; [apply qsum_abs|]. rewrite <- qsum_const. apply qsum_le. done.
Qed.
Theorem C41_close owner n N es sched r : (forall v, owner v < n) -> (forall w, N <= w -> es w = []) ->
  (forall t c, (t, c) ∈ sched -> low N c) -> (forall pre post, sched = pre ++ post -> inexact (rank_run owner es pre)) ->
  let s := rank_run owner es sched in let out := fun w => map fst (edges s w) in
  idle s -> (forall w x, w < N -> In x (out w) -> x < N) -> (forall v, v < N -> given owner (rank_start es) sched v = 1%Qc) ->
  finish (states N out (fun v => inflow s v) (fun v => mass s v)) = Some r ->
  (qabs (score_total r - 1) <= EPS + DAMP * EPS)%Qc /\ ((forall v, v < N -> edges s v <> []) -> (qabs (score_total r - 1) <= EPS)%Qc).
Proof.
  intros Hown He Hlow Hex s out Hidle Hin Hg H.
  pose proof (C41_checked owner n N es sched r Hown He Hlow (fun t => proj1 (Hidle t)) Hin Hg H) as Hc. fold s in Hc.
  pose proof (finish_some _ _ H) as (_ & _ & _ & _ & HV & _). rewrite st_nV in HV.
  pose proof (fun v => proj1 (C42_quiet owner n N es sched Hown He Hlow Hex Hidle v)) as HB. pose proof (fun v => proj2 (C42_quiet owner n N es sched Hown He Hlow Hex Hidle v)) as HF. fold s in HB, HF.
  assert (H1 : (qabs (- (qsum (fun v => total (box s v)) N / inject_nat N)) <= EPS)%Qc) by (rewrite qabs_opp; apply share_small; done).
  assert (E : (score_total r - 1 = - (qsum (fun v => total (box s v)) N / inject_nat N) + DAMP * (qsum (fun v => if length (edges s v) =? 0 then inflow s v else 0) N / inject_nat N))%Qc) by (rewrite Hc; unfold Qcdiv; ring).
  rewrite E. split.
  - eapply Qcle_trans; [apply qabs_add|]. apply Qcplus_le_compat; [done|]. eapply Qcle_trans; [by apply qabs_scale|]. rewrite !(Qcmult_comm DAMP). apply Qcmult_le_compat_r; [|done].
    apply share_small; [|done]. intros v _. cbv beta. destruct (length (edges s v) =? 0); [done|by rewrite qabs_0].
  - intros Hn. rewrite (qsum_zero N (fun v => if length (edges s v) =? 0 then inflow s v else 0%Qc)); [unfold Qcdiv at 2; rewrite Qcmult_0_l, Qcmult_0_r, Qcplus_0_r; done|].
    intros v Hv. destruct (Nat.eqb_spec (length (edges s v)) 0) as [E0|]; [|done]. exfalso. by apply (Hn v Hv), nil_length_inv.
Qed.
Print Assumptions C41_close.

(** Three vertices on a ring and a sink hanging off it. *)
Definition lasso (v : nat) : list nat := match v with 0 => [1] | 1 => [2] | 2 => [0; 3] | _ => [] end.
Definition lasso_ranks : nat -> Qc :=
  let d := DAMP in let x2 := ((1 - d) * (1 + d + d * d) / (1 - d * d * d / Q2Qc (2 # 1)))%Qc in
  fun v => match v with 0 | 3 => ((1 - d) + d * x2 / Q2Qc (2 # 1))%Qc | 1 => ((1 - d) + d * ((1 - d) + d * x2 / Q2Qc (2 # 1)))%Qc | 2 => x2 | _ => 0%Qc end.
Example C41_case : let r := finish (states 4 lasso (fun _ => 0%Qc) lasso_ranks) in
  map (fun v => this (lasso_ranks v / (1 - DAMP))%Qc) [0; 1; 2; 3] = map (fun v => this (1 + handed DAMP 4 lasso lasso_ranks v)%Qc) [0; 1; 2; 3] /\
  match r with Some r => map (fun x => this (fst x)) r = [0; 0; 0; 0]%Q /\ this (lsum (map snd r)) = 1%Q /\
    map (fun v => this (Q2Qc (4 # 1) * snd (nth v r (0, 0)) / (1 - DAMP))%Qc) [0; 1; 2; 3]
    = map (fun v => this (1 + handed DAMP 4 (joined 4 lasso) (fun w => Q2Qc (4 # 1) * snd (nth w r (0, 0)))%Qc v)%Qc) [0; 1; 2; 3] | None => False end /\
  joined 4 lasso 3 = [0; 1; 2] /\
  finish (states 1 (fun _ => []) (fun _ => 0%Qc) (fun _ => 1 - DAMP)%Qc) = None /\
  finish (states 3 (fun v => if v <? 2 then [1 - v] else []) (fun _ => 0%Qc) (fun v => if v <? 2 then 1 else 1 - DAMP)%Qc) = None.
Proof. vm_compute. repeat split; reflexivity. Qed.
