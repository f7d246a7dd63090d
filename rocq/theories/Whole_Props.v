(** C60: when the loops have ended, the result is there.  For the code as it is, on every
    schedule: when every thread has left its loop (which is what the program waits for), nothing
    is left anywhere, EnsureCompleteness does not panic, and the claims about quiet states (C35,
    C36, C55) hold of what the run leaves behind.  (The early yes of C30 is no contradiction: it
    keeps the other threads from ever leaving.) *)
From Verif Require Import Base RBO_Spec QcUtil Engine_Spec Engine_Model Engine_Proofs Engine_Shape Engine_Props Min_Spec Min_Model Min_Proofs Min_Props.
From Verif Require Import Rank_Spec Rank_Model Rank_Proofs Rank_Run Rank_Wake Rank_Props Rank_Error Rank_Close RankRest_Props.
From Verif Require Import Whole_Model Whole_Proofs.
From Verif Require Term_Model Term_Proofs Term_Props Term_All.
From Coq Require Import QArith Qcanon.
Open Scope nat_scope.

(** The termination check alone: nothing is left when all have left. *)
Theorem C60_all_left swap n own q c sched later :
  (forall t, t < n -> Term_Model.at_ (Term_Model.exec swap n (Term_Model.start own q c) sched) t = Term_Model.Done) ->
  Term_Props.nothing_left n (Term_Model.exec swap n (Term_Model.start own q c) (sched ++ later)).
Proof.
  intros H. unfold Term_Model.exec. rewrite fold_left_app. apply Term_Props.quiet_nothing_left, (Term_Props.quiet_exec swap n later).
  by apply Term_All.all_left_quiet.
Qed.

(** One that has left while another is busy, or has a message waiting, never sees all leave. *)
Theorem C60_early_never_ends swap n own q c sched later t u :
  let s := Term_Model.exec swap n (Term_Model.start own q c) sched in
  t < n -> Term_Model.at_ s t = Term_Model.Done -> u < n ->
  (exists got sent own, Term_Model.at_ s u = Term_Model.Work got sent own) \/ Term_Model.queue s u <> 0%N ->
  exists w, w < n /\ Term_Model.at_ (Term_Model.exec swap n (Term_Model.start own q c) (sched ++ later)) w <> Term_Model.Done.
Proof.
  intros s Ht Hd Hu Hl. unfold Term_Model.exec. rewrite fold_left_app. fold (Term_Model.exec swap n (Term_Model.start own q c) sched). fold s.
  assert (Hl' : Term_Proofs.idle (Term_Model.at_ s u) = false \/ Term_Model.queue s u <> 0%N).
  { destruct Hl as [(g & x & o & E)|?]; [left; by rewrite E|by right]. }
  pose proof (Term_All.early_hangs swap n own q c sched later t u Ht Hd Hu Hl') as H. fold s in H.
  assert (D : forall k, (forall w, w < k -> Term_Model.at_ (Term_Model.exec swap n s later) w = Term_Model.Done) \/
    exists w, w < k /\ Term_Model.at_ (Term_Model.exec swap n s later) w <> Term_Model.Done).
  { induction k as [|k [IH|(w & Hw & E)]]; [left; lia| |right; exists w; split; [lia|done]].
    destruct (Term_Model.at_ (Term_Model.exec swap n s later) k) eqn:E; try (right; exists k; split; [lia|by rewrite E]).
    left. intros w Hw. destruct (decide (w = k)) as [->|]; [done|apply IH; lia]. }
  destruct (D n) as [D'|(w & Hw & E)]; [by destruct H|by exists w].
Qed.

Section whole.
Context (a : alg) (owner : nat -> nat) (swap : bool) (n : nat) (Hown : forall v, owner v < n).

(** Where the loops start: no thread is in the middle of anything, and the initial notifications,
    all for threads that exist, have been counted as sent. *)
Definition fresh (e : est a) (sent0 : nat -> N) : Prop :=
  (forall t, todo e t = []) /\ (forall t, n <= t -> queue e t = []) /\ sumN sent0 n = sumN (fun t => N.of_nat (length (queue e t))) n.
Definition left (s : wst a) (t : nat) : Prop := Term_Model.at_ (trm s) t = Term_Model.Done.

(** All threads have left: the algorithm is at rest and the check at the end passes; the state
    of the algorithm is that of a run of the engine. *)
Theorem C60_whole e own sent0 sched later : fresh e sent0 ->
  let s0 := wstart a e own sent0 in let s := wrun a owner swap n s0 sched in
  (forall t, t < n -> left s t) ->
  eng s = erun a owner e (eworks a owner swap n s0 sched) /\ idle (eng s) /\ complete n s = true /\
  eng (wrun a owner swap n s later) = eng s.
Proof.
  intros (F1 & F2 & F3) s0 s Hl.
  assert (HW0 : winv a n s0) by (by apply (winv_start a owner n Hown)).
  assert (HW : winv a n s) by (by apply (winv_run a owner swap n Hown)).
  assert (He : eng s = erun a owner e (eworks a owner swap n s0 sched)) by (unfold s; by rewrite eng_run).
  assert (HQ : Term_Proofs.quiet n (trm s)).
  { unfold s. rewrite trm_run. apply Term_All.all_left_quiet. intros t Ht. specialize (Hl t Ht). unfold left, s in Hl. by rewrite trm_run in Hl. }
  assert (HI : idle (eng s)).
  { apply (quiet_idle a owner n Hown); try done. rewrite He. by apply unused_run. }
  split_and!; try done; [by apply (idle_complete a owner n Hown)|by apply (quiet_run a owner swap n Hown)].
Qed.

(** One thread has left, when a changed view is published after the vote is withdrawn, or when no
    vote is read in between: the algorithm is at rest already. *)
Theorem C60_one e own sent0 sched later t : fresh e sent0 ->
  let s0 := wstart a e own sent0 in let s := wrun a owner swap n s0 sched in
  swap = true \/ Term_Proofs.tidy swap n (trm s0) (lworks a owner swap n s0 sched) ->
  t < n -> left s t ->
  eng s = erun a owner e (eworks a owner swap n s0 sched) /\ idle (eng s) /\ eng (wrun a owner swap n s later) = eng s.
Proof.
  intros (F1 & F2 & F3) s0 s Htd Ht Hl.
  assert (HW0 : winv a n s0) by (by apply (winv_start a owner n Hown)).
  assert (HW : winv a n s) by (by apply (winv_run a owner swap n Hown)).
  assert (He : eng s = erun a owner e (eworks a owner swap n s0 sched)) by (unfold s; by rewrite eng_run).
  assert (HQ : Term_Proofs.quiet n (trm s)).
  { unfold s. rewrite trm_run. apply (Term_Proofs.done_quiet swap n _ _ _ _ t); [done|done|]. unfold left, s in Hl. by rewrite trm_run in Hl. }
  assert (HI : idle (eng s)).
  { apply (quiet_idle a owner n Hown); try done. rewrite He. by apply unused_run. }
  split_and!; try done. by apply (quiet_run a owner swap n Hown).
Qed.

(** And if one leaves while another has a notification waiting, they never have all left. *)
Theorem C60_whole_never_ends e own sent0 sched later t u :
  let s := wrun a owner swap n (wstart a e own sent0) sched in
  t < n -> left s t -> u < n -> Term_Model.queue (trm s) u <> 0%N -> exists w, w < n /\ ~ left (wrun a owner swap n s later) w.
Proof.
  intros s Ht Hl Hu Hq. unfold left, s in *. rewrite trm_run in Hl, Hq. cbn [trm wstart] in Hl, Hq.
  destruct (C60_early_never_ends swap n _ _ _ _ (lworks a owner swap n (wrun a owner swap n (wstart a e own sent0) sched) later) t u Ht Hl Hu (or_intror Hq)) as (w & Hw & E).
  exists w. split; [done|]. rewrite !trm_run. cbn [trm wstart]. unfold Term_Model.exec in *. by rewrite fold_left_app in E.
Qed.
Lemma eworks_in s sched t c : (t, c) ∈ eworks a owner swap n s sched -> (t, Do c) ∈ sched.
Proof.
  revert s. induction sched as [|[t' x] l IH]; intros s; [cbn [eworks]; intros H; by apply elem_of_nil in H|]. cbn [eworks]. rewrite elem_of_app. intros [H|H]; [|by apply elem_of_list_further, (IH _ H)].
  assert (x = Do c /\ t = t') as [-> ->]; [|apply elem_of_list_here]. revert H. unfold ework.
  destruct (Term_Model.at_ (trm s) t'); try by rewrite elem_of_nil. destruct x as [|c']; [by rewrite elem_of_nil|].
  destruct c'; destruct (todo (eng s) t'); try case_match; rewrite ?elem_of_nil, ?elem_of_list_singleton; try done; by intros [= -> ->].
Qed.
End whole.
Arguments left {a} _ _. Arguments fresh {a} _ _ _.

(** Connected components.  [before] is what happens before the loops start: the initial mail of
    a static run, or nothing. *)
Theorem C60_components owner n swap es before own sent0 sched raw : (forall v, owner v < n) ->
  let e := erun cc owner (cc_start es) before in fresh n e sent0 ->
  let s0 := wstart cc e own sent0 in let s := wrun cc owner swap n s0 sched in
  let init := Min_Model.given owner (cc_start es) (before ++ eworks cc owner swap n s0 sched) in
  no_deletion before -> (forall t v gone, (t, Do (DelEdges v gone)) ∉ sched) ->
  (forall v x, (v, x) ∈ init -> x = raw v /\ (raw v < 2 ^ 32)%N) ->
  (forall u v x, (v, x) ∈ edges (eng s) u -> (u, raw u) ∈ init /\ exists x', (u, x') ∈ edges (eng s) v) ->
  (forall t, t < n -> left s t) ->
  forall v, (v, raw v) ∈ init ->
  (exists u, joined (edges (eng s)) u v /\ prop (eng s) v = raw u) /\ forall u, joined (edges (eng s)) u v -> (prop (eng s) v <= raw u)%N.
Proof.
  intros Hown e Hf s0 s init Hd1 Hd2 Hraw Hsym Hl v Hv.
  destruct (C60_whole cc owner swap n Hown e own sent0 sched [] Hf Hl) as (He & HI & _). fold s0 in He. fold s in He, HI.
  assert (Er : eng s = erun cc owner (cc_start es) (before ++ eworks cc owner swap n s0 sched)) by (rewrite He; unfold e, erun; by rewrite fold_left_app).
  pose proof (C35_components owner n es (before ++ eworks cc owner swap n s0 sched) raw Hown) as HC. cbv zeta in HC. rewrite <- Er in HC.
  apply HC; try done. intros t w gone Hin. apply elem_of_app in Hin as [Hin|Hin]; [by apply (Hd1 t w gone)|]. by apply eworks_in, Hd2 in Hin.
Qed.

(** Shortest paths. *)
Theorem C60_shortest_paths top owner n swap es before own sent0 sched : (forall v, owner v < n) ->
  let A := sssp (fun x => x) top in let s00 := sssp_start (fun x => x) top es in
  let e := erun A owner s00 before in fresh n e sent0 ->
  let s0 := wstart A e own sent0 in let s := wrun A owner swap n s0 sched in
  let work := before ++ eworks A owner swap n s0 sched in
  let init := Min_Model.given owner s00 work in
  no_deletion work -> weights_ok es work ->
  (forall t, t < n -> left s t) ->
  forall v, (forall u x d, (u, x) ∈ init -> path (edges (eng s)) u v d -> prop (eng s) v <= x + d)%Qc /\
  ((exists u x d, (u, x) ∈ init /\ path (edges (eng s)) u v d /\ prop (eng s) v = (x + d)%Qc) \/ prop (eng s) v = top).
Proof.
  intros Hown A s00 e Hf s0 s work init Hd Hw Hl.
  destruct (C60_whole A owner swap n Hown e own sent0 sched [] Hf Hl) as (He & HI & _). fold s0 in He. fold s in He, HI.
  assert (Er : eng s = erun A owner s00 work) by (rewrite He; unfold work, e, erun; by rewrite fold_left_app).
  pose proof (C36_shortest_paths top owner n es work Hown Hd Hw) as HC. cbv zeta in HC. fold A s00 in HC. rewrite <- Er in HC. by apply HC.
Qed.

(** PageRank. *)
Theorem C60_ranks owner n N swap es before own sent0 sched exact : (forall v, owner v < n) ->
  let e := rank_run owner es before in fresh n e sent0 ->
  let s0 := wstart ranking e own sent0 in let s := wrun ranking owner swap n s0 sched in
  let work := before ++ eworks ranking owner swap n s0 sched in
  rank_among N es work ->
  (forall pre post, work = pre ++ post -> inexact (rank_run owner es pre)) ->
  exact_ranks DAMP N (fun w => map fst (edges (eng s) w)) (Rank_Model.given owner (rank_start es) work) exact ->
  (forall t, t < n -> left s t) ->
  (qsum (fun v => qabs (mass (eng s) v - exact v)) N <= inject_nat N * (EPS + EPS))%Qc.
Proof.
  intros Hown e Hf s0 s work Ha Hx HE Hl.
  destruct (C60_whole ranking owner swap n Hown e own sent0 sched [] Hf Hl) as (He & HI & _). fold s0 in He. fold s in He, HI.
  assert (Er : eng s = rank_run owner es work) by (rewrite He; unfold work, e, rank_run, erun; by rewrite fold_left_app).
  pose proof (C55_close owner n N es work exact Hown) as HC. cbv zeta in HC. rewrite <- Er in HC. apply HC; try done.
  - intros w Hw. by apply (proj1 Ha w).
  - intros t c Hin. pose proof (proj2 Ha t c Hin) as Hc. destruct c; try done. by destruct Hc.
Qed.

(** Two threads, a path of seven vertices, shortest paths from its start, static: the threads
    take turns, and both leave with the result, whichever order the two writes have. *)
Definition Z1 (z : Z) : Qc := Q2Qc (z # 1).
Definition far : Qc := Z1 1000.
Definition line (v : nat) : list (nat * Qc) := if v <? 6 then [(S v, Z1 1)] else [].
Definition split_owner (v : nat) : nat := if v =? 0 then 0 else (v + 1) mod 2.
Definition SP : alg := sssp (fun x => x) far.
Definition line0 : est SP :=
  erun SP split_owner (sssp_start (fun x => x) far line) ((0, SendInit (a := SP) 0 (Z1 0)) :: repeat (0, Run) 19).
Definition line_sent (t : nat) : N := if t =? 0 then 1%N else 0%N.
Definition turn (t : nat) : list (nat * wchoice SP) :=
  repeat (t, Ctl Term_Model.Go) 25 ++ [(t, Do Pop)] ++ repeat (t, Do Run) 19 ++ [(t, Ctl Term_Model.Finish)].
Example C60_case :
  fresh 2 line0 line_sent /\
  forall swap, let s := wrun SP split_owner swap 2 (wstart SP line0 (fun _ => false) line_sent) (concat (repeat (turn 0 ++ turn 1) 12)) in
  map (Term_Model.at_ (trm s)) [0; 1] = [Term_Model.Done; Term_Model.Done] /\
  map (fun v => this (prop (eng s) v)) [0; 1; 2; 3; 4; 5; 6] = map (fun z => this (Z1 z)) [0; 1; 2; 3; 4; 5; 6]%Z /\ complete 2 s = true.
Proof.
  split; [split_and!|].
  - intros t. unfold line0. destruct t as [|t]; [by vm_compute|]. cbn. by destruct t.
  - intros t Ht. destruct t as [|[|t]]; [lia|lia|]. cbn. by destruct t.
  - by vm_compute.
  - intros []; vm_compute; done.
Qed.

(** The same graph on the schedule of C30: thread 1 leaves while thread 0 has the notification
    of vertex 5; whatever happens next, the two never have both left. *)
Definition racing : list (nat * wchoice SP) :=
  let goes t k : list (nat * wchoice SP) := repeat (t, Ctl Term_Model.Go) k in
  let batch t : list (nat * wchoice SP) := (t, Do Pop) :: repeat (t, Do Run) 19 ++ [(t, Ctl Term_Model.Finish)] in
  goes 0 2 ++ goes 1 1 ++ batch 0 ++ goes 0 5 ++ goes 1 4 ++ goes 0 20 ++
  goes 1 2 ++ goes 0 1 ++ batch 1 ++ goes 1 5 ++ goes 0 3 ++ goes 1 21 ++
  goes 0 3 ++ goes 1 1 ++ batch 0 ++ goes 0 5 ++ goes 1 3 ++ goes 0 40 ++
  goes 1 3 ++ goes 0 1 ++ batch 1 ++ goes 1 5 ++ goes 0 3 ++ goes 1 26.
Definition racing_start : wst SP := wstart SP line0 (fun _ => false) line_sent.
Theorem C60_hang :
  let s := wrun SP split_owner false 2 racing_start racing in
  left s 1 /\ queue (eng s) 0 = [5] /\ map (fun v => this (prop (eng s) v)) [4; 5; 6] = map (fun z => this (Z1 z)) [4; 1000; 1000]%Z /\
  forall later, ~ (left (wrun SP split_owner false 2 s later) 0 /\ left (wrun SP split_owner false 2 s later) 1).
Proof.
  cbv zeta. split_and!; [by vm_compute|by vm_compute|by vm_compute|]. intros later [H0 H1].
  destruct (C60_whole_never_ends SP split_owner false 2 line0 (fun _ => false) line_sent racing later 1 0) as (w & Hw & E); [lia|by vm_compute|lia|by vm_compute|].
  destruct w as [|[|w]]; [exact (E H0)|exact (E H1)|lia].
Qed.

Print Assumptions C60_all_left.
Print Assumptions C60_early_never_ends.
Print Assumptions C60_whole.
Print Assumptions C60_one.
Print Assumptions C60_whole_never_ends.
Print Assumptions C60_components.
Print Assumptions C60_shortest_paths.
Print Assumptions C60_ranks.
Print Assumptions C60_hang.
