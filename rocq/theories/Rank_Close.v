(** C55: how close PageRank gets. *)
From Verif Require Import Base RBO_Spec QcUtil Engine_Spec Engine_Model Engine_Proofs Engine_Shape Engine_Props Rank_Spec Rank_Model Rank_Proofs Rank_Run Rank_Wake Rank_Props Rank_Error.
From Coq Require Import QArith Qcanon.
Open Scope nat_scope.

(** The exact masses are determined by the graph and the initial mail. *)
Theorem C55_unique N out init m m' : exact_ranks DAMP N out init m -> exact_ranks DAMP N out init m' -> forall v, v < N -> m v = m' v.
Proof.
  intros H H' v Hv. assert (Hb : (qsum (fun v => qabs (m v - m' v)) N <= qsum (fun v => qabs 0) N)%Qc).
  { apply (error_bound N out init m m' (fun _ => 0%Qc)).
    - intros w Hw. rewrite Qcplus_0_l. by apply H.
    - intros w Hw. by apply H'. }
  rewrite (qsum_zero N (fun _ => qabs 0)) in Hb by (intros; apply qabs_0).
  assert (Hk : (qabs (m v - m' v) <= 0)%Qc).
  { eapply Qcle_trans; [|exact Hb]. clear -Hv. induction N as [|N IH]; [lia|]. cbn [qsum]. destruct (decide (v = N)) as [->|Hne].
    - assert (Hp : (0 <= qsum (fun v => qabs (m v - m' v)) N)%Qc).
      { clear. induction N as [|N IH]; cbn [qsum]; [done|]. pose proof (qabs_nonneg (m N - m' N)%Qc) as Hq. set (x := qabs _) in *. set (y := qsum _ _) in *. clearbody x y. qclra. }
      set (x := qabs _) in *. set (y := qsum _ _) in *. clearbody x y. qclra.
    - assert (Hl : v < N) by lia. specialize (IH Hl). pose proof (qabs_nonneg (m N - m' N)%Qc) as Hq. set (x := qabs (m N - m' N)%Qc) in *. set (y := qsum _ _) in *. set (z := qabs (m v - m' v)%Qc) in *. clearbody x y z. qclra. }
  pose proof (qabs_ge (m v - m' v)%Qc) as [H1 H2]. set (z := qabs (m v - m' v)%Qc) in *. set (a := m v) in *. set (b := m' v) in *. clearbody z a b. qclra.
Qed.
Print Assumptions C55_unique.

(** Once everything is quiet and no inbox was ever at exactly the threshold, the masses are in
    total within 2 N epsilon of the exact ones of the graph as it is: the average error of a
    vertex, whose initial mail is 1, is at most twice the threshold. *)
Theorem C55_close owner n N es sched exact : (forall v, owner v < n) -> (forall w, N <= w -> es w = []) ->
  (forall t c, (t, c) ∈ sched -> low N c) -> (forall pre post, sched = pre ++ post -> inexact (rank_run owner es pre)) ->
  let s := rank_run owner es sched in idle s ->
  exact_ranks DAMP N (fun w => map fst (edges s w)) (given owner (rank_start es) sched) exact ->
  (qsum (fun v => qabs (mass s v - exact v)) N <= inject_nat N * (EPS + EPS))%Qc.
Proof.
  intros Hown He Hlow Hex s Hidle HM. rewrite <- qsum_const.
  eapply Qcle_trans.
  - apply (error_bound N (fun w => map fst (edges s w)) (given owner (rank_start es) sched) (fun v => mass s v) exact (fun v => total (box s v) + inflow s v)%Qc).
    + intros v _. apply (C40_quiet owner n N es sched Hown He Hlow (fun t => proj1 (Hidle t)) v).
    + intros v Hv. by apply HM.
  - apply qsum_le. intros v _. destruct (C42_quiet owner n N es sched Hown He Hlow Hex Hidle v) as [H1 H2].
    eapply Qcle_trans; [apply qabs_add|]. apply Qcplus_le_compat; [exact H1|exact H2].
Qed.
Print Assumptions C55_close.

(** A ring of three.  The exact masses are 1.  The run ends off by some 0.0063 in
    total; no inbox was ever exactly at the threshold. *)
Definition ring_sched : list (nat * choice ranking) :=
  let init v : choice ranking := SendInit (a := ranking) v 1%Qc in
  [(0, init 0); (1, init 1)] ++ concat (repeat [(0, Run); (1, Run)] 12) ++ [(0, init 2)] ++ repeat (0, Run) 20 ++
  concat (repeat ((0, Pop) :: repeat (0, Run) 12 ++ (1, Pop) :: repeat (1, Run) 12) 60).
Fixpoint prefixes_ok (s : est ranking) (sched : list (nat * choice ranking)) : bool :=
  forallb (fun v => forallb (fun y => negb (Qc_eq_bool (qabs y) EPS)) (box s v)) [0; 1; 2] &&
  match sched with [] => true | (t, c) :: l => prefixes_ok (estep ranking toy_owner s t c) l end.
Example C55_case : let s := rank_run toy_owner rk_es ring_sched in
  prefixes_ok (rank_start rk_es) ring_sched = true /\
  map (fun t => length (todo s t)) [0; 1] = [0; 0] /\ map (fun t => length (queue s t)) [0; 1] = [0; 0] /\
  map (fun v => this (1 + handed DAMP 3 (fun w => map fst (edges s w)) (fun _ => 1%Qc) v)%Qc) [0; 1; 2] = repeat (this (1 / (1 - DAMP))%Qc) 3 /\
  map (fun v => Qle_bool (this (total (box s v))) 0) [0; 1; 2] = [true; false; true] /\
  let e := qsum (fun v => qabs (mass s v - 1)) 3 in
  Qle_bool (6 # 1000) (this e) && Qle_bool (this e) (63 # 10000) = true /\
  this (inject_nat 3 * (EPS + EPS))%Qc = (1 # 25)%Q.
Proof. vm_compute. repeat split; reflexivity. Qed.
Example C42_case : let s := rank_run toy_owner rk_es ring_sched in
  map (fun v => Qle_bool (this (qabs (total (box s v)))) (this EPS)) [0; 1; 2] = [true; true; true] /\
  map (fun v => Qle_bool (this (qabs (inflow s v))) (this EPS)) [0; 1; 2] = [true; true; true].
Proof. vm_compute. done. Qed.
