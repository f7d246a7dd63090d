(** C40: PageRank loses nothing.  C42: when a full mailbox is noticed. *)
From Verif Require Import Base RBO_Spec QcUtil Engine_Spec Engine_Model Engine_Proofs Engine_Shape Engine_Props Rank_Spec Rank_Model Rank_Proofs Rank_Run Rank_Wake.
From Coq Require Import QArith Qcanon.
Open Scope nat_scope.

Definition rank_run owner es sched : est ranking := erun ranking owner (rank_start es) sched.
Notation inflow s v := (fst (prop s v)).
Notation mass s v := (snd (prop s v)).

(** At every point of every run, whatever the threads, the schedule and the changes of the graph:
    what is in the inbox of [v], what threads are carrying to it, its unabsorbed flow and what it
    absorbed (scaled back) make up its initial mail and the parts handed to it.  A vertex hands
    its mass to the edges it had when it last reacted ([out]). *)
Theorem C40_balance owner n N es sched : (forall v, owner v < n) -> (forall w, N <= w -> es w = []) ->
  (forall t c, (t, c) ∈ sched -> low N c) ->
  let s := rank_run owner es sched in
  forall v, (total (box s v) + qsum (fun t => transit v (todo s t)) n + inflow s v + mass s v / (1 - DAMP)
    = given owner (rank_start es) sched v + handed DAMP N (out owner s) (fun w => mass s w) v)%Qc.
Proof.
  intros Hown He Hlow s v. destruct (rinv_start owner n N es He) as [H1 H2].
  destruct (balance_run owner n Hown N sched (rank_start es) H1 Hlow) as [_ H3]. specialize (H3 v). rewrite H2 in H3.
  fold (rank_run owner es sched) in H3. fold s in H3. unfold held in H3. change (passed owner N s v) with (handed DAMP N (out owner s) (fun w => mass s w) v) in H3.
  unfold Qcdiv. fold idx. rewrite <- (Qcplus_0_l (given owner (rank_start es) sched v)). rewrite <- H3. ring.
Qed.
Print Assumptions C40_balance.

(** So when no thread is at work, inbox, flow and mass of every vertex balance over the graph as
    it is, however it came about. *)
Theorem C40_quiet owner n N es sched : (forall v, owner v < n) -> (forall w, N <= w -> es w = []) ->
  (forall t c, (t, c) ∈ sched -> low N c) ->
  let s := rank_run owner es sched in (forall t, todo s t = []) ->
  forall v, (total (box s v) + inflow s v + mass s v / (1 - DAMP)
    = given owner (rank_start es) sched v + handed DAMP N (fun w => map fst (edges s w)) (fun w => mass s w) v)%Qc.
Proof.
  intros Hown He Hlow s Hq v. pose proof (C40_balance owner n N es sched Hown He Hlow v) as H. cbv zeta in H. fold s in H.
  rewrite (qsum_zero n (fun t => transit v (todo s t))) in H by (intros k _; by rewrite Hq).
  replace (handed DAMP N (fun w => map fst (edges s w)) (fun w => mass s w) v) with (handed DAMP N (out owner s) (fun w => mass s w) v).
  - rewrite <- H. ring.
  - unfold handed. apply qsum_ext. intros w _. unfold out. by rewrite Hq.
Qed.
Print Assumptions C40_quiet.

(** Three vertices on two threads.  0 -> 1, 1 -> 2, 2 -> 0 run for a while; then 0 gets edges to
    2 and 2, and 1 loses its edge and becomes a sink. *)
Definition rk_es (v : nat) : list (nat * unit) := match v with 0 => [(1, tt)] | 1 => [(2, tt)] | 2 => [(0, tt)] | _ => [] end.
Definition rk_sched : list (nat * choice ranking) :=
  let run t k : list (nat * choice ranking) := repeat (t, Run) k in
  let init v : choice ranking := SendInit (a := ranking) v 1%Qc in
  [(0, init 0); (1, init 1)] ++ concat (repeat [(0, Run); (1, Run)] 12) ++ [(0, init 2)] ++ run 0 20 ++
  concat (repeat ((0, Pop) :: run 0 12 ++ (1, Pop) :: run 1 12) 2) ++
  [(0, AddEdges (a := ranking) 0 [(2, tt); (2, tt)]); (1, DelEdges (a := ranking) 1 [true])] ++ concat (repeat [(0, Run); (1, Run)] 20) ++
  (0, Pop) :: run 0 12 ++ (1, Pop) :: run 1 12.
Example C40_case : let s := rank_run toy_owner rk_es rk_sched in
  map (fun t => length (todo s t)) [0; 1] = [0; 0] /\ map (fun v => length (edges s v)) [0; 1; 2] = [3; 0; 1] /\
  map (fun v => this (given toy_owner (rank_start rk_es) rk_sched v)) [0; 1; 2] = [1; 1; 1]%Q /\
  map (fun v => this (mass s v)) [0; 1; 2] = [3087 # 8000; 41493 # 160000; 29493 # 80000]%Q /\
  map (fun v => this (total (box s v) + inflow s v + mass s v / (1 - DAMP))%Qc) [0; 1; 2] = [247127 # 80000; 13831 # 8000; 9831 # 4000]%Q /\
  map (fun v => this (1 + handed DAMP 3 (fun w => map fst (edges s w)) (fun w => mass s w) v)%Qc) [0; 1; 2] = [247127 # 80000; 13831 # 8000; 9831 # 4000]%Q.
Proof. vm_compute. repeat split; reflexivity. Qed.

(** C42: at every point, unless some mailbox at some point held exactly the threshold, a vertex
    whose mailbox is over it is waiting to be updated or about to read the mailbox. *)
Theorem C42_heard owner n N es sched : (forall v, owner v < n) -> (forall w, N <= w -> es w = []) ->
  (forall t c, (t, c) ∈ sched -> low N c) -> (forall pre post, sched = pre ++ post -> inexact (rank_run owner es pre)) ->
  let s := rank_run owner es sched in
  forall v y, y ∈ box s v -> (EPS < qabs y)%Qc -> unanswered (elog s) v \/ exists k got, Scan v k 0 got ∈ todo s (owner v).
Proof.
  intros Hown He Hlow Hex s v y Hy Hl.
  destruct (wake_run owner n Hown N sched (rank_start es)) as [H _]; try done; try by apply (rinv_start owner n N es He).
  - intros w (z & Hz & Hz'). cbn in Hz. apply elem_of_list_singleton in Hz. subst z. rewrite qabs_0 in Hz'. exfalso. revert Hz'. by vm_compute.
  - apply H. by exists y.
Qed.
Print Assumptions C42_heard.

(** So once everything is quiet, inboxes and flows are within the threshold. *)
Theorem C42_quiet owner n N es sched : (forall v, owner v < n) -> (forall w, N <= w -> es w = []) ->
  (forall t c, (t, c) ∈ sched -> low N c) -> (forall pre post, sched = pre ++ post -> inexact (rank_run owner es pre)) ->
  let s := rank_run owner es sched in idle s ->
  forall v, (qabs (total (box s v)) <= EPS)%Qc /\ (qabs (inflow s v) <= EPS)%Qc.
Proof.
  intros Hown He Hlow Hex s Hidle v. destruct (rinv_start owner n N es He) as [HR _]. split.
  - pose proof (r_box _ _ _ _ (proj1 (balance_run owner n Hown N sched _ HR Hlow)) v) as Hb. fold (rank_run owner es sched) in Hb. fold s in Hb.
    destruct (box s v) as [|y [|? ?]] eqn:Eb; try done. cbn. rewrite Qcplus_0_r.
    destruct (Qclt_le_dec EPS (qabs y)) as [Hl|]; [|done]. exfalso.
    destruct (C42_heard owner n N es sched Hown He Hlow Hex v y) as [(l1 & l2 & E & Hn)|(k & got & H)].
    + fold s. rewrite Eb. apply elem_of_list_here.
    + done.
    + apply Hn. eapply (C31_no_lost_wakeup ranking owner n (fun _ => [0%Qc]) (fun _ => (0, 0)%Qc) es sched Hown Hidle). exact E.
    + fold s in H. rewrite (proj1 (Hidle _)) in H. by apply elem_of_nil in H.
  - apply (wake_run owner n Hown N sched (rank_start es)); try done.
    + intros w (z & Hz & Hz'). cbn in Hz. apply elem_of_list_singleton in Hz. subst z. rewrite qabs_0 in Hz'. exfalso. revert Hz'. by vm_compute.
Qed.
Print Assumptions C42_quiet.

(** Without that condition it fails.  Vertex 0 has 255 edges to vertex 1.  Vertex 1 absorbs its
    initial mail; then 0 absorbs its own and sends 0.85 / 255 along every edge.  The second
    message fills the inbox of 1 to exactly the threshold, 1/150, which is not over it; at the
    third the inbox is no longer below it.  All is quiet with 0.85 in the inbox. *)
Definition lost_es (v : nat) : list (nat * unit) := if v =? 0 then repeat (1, tt) 255 else [].
Definition lost_sched : list (nat * choice ranking) :=
  let init v : choice ranking := SendInit (a := ranking) v 1%Qc in
  (1, init 1) :: repeat (1, Run) 10 ++ (0, init 0) :: repeat (0, Run) 270.
Notation lost_run := (rank_run toy_owner lost_es lost_sched).
Lemma lost_lengths : map (fun t => length (todo lost_run t)) [0; 1] = [0; 0] /\ map (fun t => length (queue lost_run t)) [0; 1] = [0; 0].
Proof. vm_compute. split; reflexivity. Qed.
Lemma lost_box : this (total (box lost_run 1)) = (17 # 20)%Q.
Proof. vm_compute. reflexivity. Qed.
Lemma lost_choices t (c : choice ranking) : (t, c) ∈ lost_sched -> c = Run \/ exists v, c = SendInit (a := ranking) v 1%Qc.
Proof.
  intros H. unfold lost_sched in H. apply elem_of_cons in H. destruct H as [H|H]; [right; exists 1; by injection H|].
  apply elem_of_app in H. destruct H as [H|H]; [left; apply elem_of_list_In, repeat_spec in H; by injection H|].
  apply elem_of_cons in H. destruct H as [H|H]; [right; exists 0; by injection H|]. left. apply elem_of_list_In, repeat_spec in H. by injection H.
Qed.
Lemma lost_wake : wake ranking toy_owner 2 lost_run.
Proof.
  unfold rank_run. generalize lost_sched. intros sched. apply wake_erun; [|apply wake_start].
  intros v. unfold toy_owner. apply Nat.mod_upper_bound. lia.
Qed.
Lemma lost_idle : idle lost_run.
Proof.
  pose proof lost_wake as HW. destruct lost_lengths as [H1 H2]. revert HW H1 H2. generalize lost_run. intros s HW H1 H2 t.
  cbn [map] in H1, H2. injection H1 as H3 H4. injection H2 as H5 H6. destruct (decide (t < 2)) as [Ht|Ht].
  - assert (E : t = 0 \/ t = 1) by lia. destruct E as [->| ->]; split; by apply nil_length_inv.
  - split.
    + destruct (todo s t) as [|o r] eqn:E; [done|]. exfalso. apply Ht. apply (w_mine _ _ _ _ HW t o). rewrite E. apply elem_of_list_here.
    + destruct (queue s t) as [|v r] eqn:E; [done|]. exfalso. apply Ht. rewrite <- (w_queue _ _ _ _ HW t v); [|rewrite E; apply elem_of_list_here].
      unfold toy_owner. apply Nat.mod_upper_bound. lia.
Qed.
Lemma lost_over : (EPS * Q2Qc (100 # 1) < total (box lost_run 1))%Qc.
Proof. unfold Qclt. rewrite lost_box. by vm_compute. Qed.
Theorem C42_refuted : exists es sched, let s := rank_run toy_owner es sched in
  (forall t (c : choice ranking), (t, c) ∈ sched -> c = Run \/ exists v, c = SendInit (a := ranking) v 1%Qc) /\ idle s /\ exists v, (EPS * Q2Qc (100 # 1) < total (box s v))%Qc.
Proof. exact (ex_intro _ lost_es (ex_intro _ lost_sched (conj lost_choices (conj lost_idle (ex_intro _ 1 lost_over))))). Qed.
Print Assumptions C42_refuted.
