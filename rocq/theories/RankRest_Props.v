(** C59: PageRank comes to rest under every fair schedule. *)
From Verif Require Import Base RBO_Spec QcUtil Engine_Spec Engine_Model Engine_Proofs Engine_Shape Engine_Props Rank_Spec Rank_Model Rank_Proofs Rank_Run Rank_Wake Rank_Props Rank_Error Rank_Close Rest_Spec Rest_Proofs Rest_Work Rest_Rank.
From Coq Require Import QArith Qcanon.
Open Scope nat_scope.

(** Everything happens among the vertices below [N]. *)
Definition rank_among (N : nat) (es : nat -> list (nat * unit)) (sched : list (nat * choice ranking)) : Prop :=
  (forall u, (N <= u -> es u = []) /\ forall d e, (d, e) ∈ es u -> d < N) /\
  forall t c, (t, c) ∈ sched -> match c with
    | Run | Pop => True
    | AddEdges v l => v < N /\ forall d e, (d, e) ∈ (l : list (nat * unit)) -> d < N
    | DelEdges v _ | SendInit v _ => v < N
    end.
Lemma pinv_reached owner n N es sched : (forall v, owner v < n) -> rank_among N es sched -> pinv n N (rank_run owner es sched).
Proof.
  intros Hown [Hes Hs]. unfold rank_run. assert (H0 : pinv n N (rank_start es)).
  { split; try done.
    - intros v. by exists 0%Qc.
    - intros t. constructor.
    - intros t. constructor.
    - intros u. apply list.Forall_forall. intros [d e] H. by apply (proj2 (Hes u) d e).
    - intros u Hu. by apply (Hes u). }
  revert H0. generalize (rank_start es) as s. induction sched as [|[t c] l IH]; intros s H0; [done|].
  unfold erun. cbn [fold_left]. apply IH; [intros t' c' Hin; apply (Hs t' c'); by apply elem_of_list_further|].
  apply pinv_estep; try done. pose proof (Hs t c ltac:(apply elem_of_list_here)) as H. destruct c; try done. cbn in *. destruct H as [H1 H2]. split; [done|].
  apply list.Forall_forall. intros [d e] Hin. by apply (H2 d e).
Qed.
Lemma max_degree {A} (f : nat -> list A) (N : nat) : (forall u, N <= u -> f u = []) -> exists M, forall u, length (f u) <= M.
Proof.
  intros H. assert (G : forall k, exists M, forall u, u < k -> length (f u) <= M).
  { induction k as [|k (M & HM)]; [by exists 0; lia|]. exists (M + length (f k)). intros u Hu. destruct (decide (u = k)) as [->|]; [lia|]. pose proof (HM u ltac:(lia)). lia. }
  destruct (G N) as (M & HM). exists M. intros u. destruct (decide (u < N)); [auto|]. rewrite H by lia. simpl. lia.
Qed.

(** Whatever has happened so far, pending changes of the graph included: after a number of rounds all is quiet. *)
Lemma ranks_finite owner n N es sched : (forall v, owner v < n) -> rank_among N es sched ->
  let s := rank_run owner es sched in finite ranking owner s /\ settles (erun ranking owner) (acts ranking) n idle s.
Proof.
  intros Hown H. pose proof (pinv_reached owner n N es sched Hown H) as Hi.
  destruct (max_degree (edges (rank_run owner es sched)) N (p_low _ _ _ Hi)) as (M & HM).
  by apply (rank_settles_M owner n Hown N M).
Qed.
Theorem C59_rest owner n N es sched : (forall v, owner v < n) -> rank_among N es sched ->
  settles (erun ranking owner) (acts ranking) n idle (rank_run owner es sched).
Proof. intros Hown H. by destruct (ranks_finite owner n N es sched Hown H). Qed.

Lemma rank_given_app owner s l l' v : (given owner s (l ++ l') v = given owner s l v + given owner (erun ranking owner s l) l' v)%Qc.
Proof. revert s. induction l as [|[t c] l IH]; intros s; cbn [app given]; [change (erun ranking owner s []) with s; ring|]. rewrite IH. change (erun ranking owner s ((t, c) :: l)) with (erun ranking owner (estep ranking owner s t c) l). ring. Qed.
Lemma rank_given_acts owner s l v : (forall t c, (t, c) ∈ l -> c ∈ acts ranking) -> given owner s l v = 0%Qc.
Proof.
  revert s. induction l as [|[t c] l IH]; intros s Hl; [done|]. cbn [given]. rewrite IH by (intros; by apply (Hl t0 c0), elem_of_list_further).
  pose proof (Hl t c ltac:(apply elem_of_list_here)) as Hc. unfold acts in Hc. rewrite !elem_of_cons, elem_of_nil in Hc. destruct Hc as [->|[->|[]]]; destruct (todo s t); ring.
Qed.

(** And then the masses are, in total, within 2 N EPSILON of the PageRank of the graph, provided that no
    inbox was ever at exactly the threshold (see C42). *)
Theorem C59_result owner n N es sched exact : (forall v, owner v < n) -> rank_among N es sched ->
  let s := rank_run owner es sched in
  exact_ranks DAMP N (fun w => map fst (edges s w)) (given owner (rank_start es) sched) exact ->
  exists bound, forall rounds, Forall (round (acts ranking) n) rounds -> bound <= length rounds ->
    (forall pre post, sched ++ concat rounds = pre ++ post -> inexact (rank_run owner es pre)) ->
    let s' := erun ranking owner s (concat rounds) in
    idle s' /\ edges s' = edges s /\ (qsum (fun v => qabs (mass s' v - exact v)) N <= inject_nat N * (EPS + EPS))%Qc.
Proof.
  intros Hown H s HE. destruct (C59_rest owner n N es sched Hown H) as (bound & Hb). exists bound. intros rounds HF Hlen Hex s'.
  specialize (Hb rounds HF Hlen). fold s in Hb. fold s' in Hb.
  assert (Hacts : forall t c, (t, c) ∈ concat rounds -> c ∈ acts ranking) by (intros t c; by apply rounds_acts with n).
  assert (Ee : edges s' = edges s) by (by apply acts_run_edges).
  assert (Er : s' = rank_run owner es (sched ++ concat rounds)) by (unfold s', s, rank_run, erun; by rewrite fold_left_app).
  split_and!; [done|done|]. rewrite Er in *. apply (C55_close owner n N es (sched ++ concat rounds)); try done.
  - intros w Hw. by apply (proj1 H w).
  - intros t c Hin. apply elem_of_app in Hin as [Hin|Hin].
    + pose proof (proj2 H t c Hin) as Hc. destruct c; try done. by destruct Hc.
    + apply Hacts in Hin. unfold acts in Hin. rewrite !elem_of_cons, elem_of_nil in Hin. by destruct Hin as [->|[->|[]]].
  - rewrite Ee. intros v Hv. rewrite rank_given_app, (rank_given_acts owner _ (concat rounds)), Qcplus_0_r by done. by apply HE.
Qed.

(** The run of C40 stops with notifications pending; round robin brings it to rest. *)
Example C59_case :
  let s := rank_run toy_owner rk_es rk_sched in
  let rr : list (nat * choice ranking) := [(0, Run); (1, Pop); (1, Run); (0, Pop)] in
  let s' := erun ranking toy_owner s (concat (repeat rr 400)) in
  existsb (fun t => negb (length (queue s t) =? 0)) [0; 1] = true /\
  map (fun t => (length (todo s' t), length (queue s' t))) [0; 1] = [(0, 0); (0, 0)] /\
  forallb (fun v => Qle_bool (this (qabs (total (box s' v)))) (this EPS) && Qle_bool (this (qabs (inflow s' v))) (this EPS)) [0; 1; 2] = true.
Proof. vm_compute. done. Qed.
Print Assumptions C59_rest.
Print Assumptions C59_result.
