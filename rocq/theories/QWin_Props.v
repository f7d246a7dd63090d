(** C90: a sliding window in a run with several threads and queries. *)
From Verif Require Import Base RBO_Spec QcUtil Engine_Spec Engine_Model Engine_Proofs Engine_Shape Engine_Props.
From Verif Require Import Rank_Spec Rank_Model Rank_Proofs Rank_Run Rank_Wake Rank_Props Rank_Error Rank_Close RankRest_Props.
From Verif Require Import Whole_Model Whole_Proofs Whole_Props QDel_Spec QDel_Model QDel_Lists QDel_Proofs QDel_Props QWin_Spec QWin_Model QWin_Proofs QWin_Timed.
From Verif Require Term_Model Term_Proofs Term_All.
From Coq Require Import QArith Qcanon Sorting.Sorted.
Open Scope nat_scope.

Section window.
Context (a : alg) (owner : nat -> nat) (swap : bool) (n : nat) (Hown : forall v, owner v < n).
Context (evs : list (nat * (nat * edge_t a))) (ask : nat -> bool) (ts : edge_t a -> N) (W : N) (Hup : rising ts evs).
Notation xrun := (xrun a owner swap n evs ask ts W).

Lemma win_inv e sent0 sched : fresh n e sent0 -> (forall v, edges e v = []) -> xinv a owner swap n evs ask ts W (xrun (xstart a e sent0) sched).
Proof using All. intros HF He. apply (xrun_inv a owner swap n Hown evs ask ts W e sent0 Hup). by apply (xstart_inv a owner swap n Hown evs ask ts W e sent0 Hup). Qed.
Lemma looks_done s : core a swap n (plus a evs) ask s -> looks n s -> forall t, t < n -> Term_Model.at_ (trm (who s)) t = Term_Model.Done.
Proof using All. intros H Hl t Ht. destruct Hl as [Hl|Hl]; [by destruct (core_view_done a swap n evs ask s H Hl t Ht) as (_ & _ & _ & _ & ?)|by apply Hl]. Qed.

(** At a look of a query, and at the end: nothing is left to do, and every vertex has, in order, exactly those of its edges added so far
    that are in the window at the time of the last event of its own thread: however the stream was cut into
    batches, and whatever was scheduled. *)
Theorem C90_view e sent0 sched : fresh n e sent0 -> (forall v, edges e v = []) -> let s := base (xrun (xstart a e sent0) sched) in looks n s ->
  idle (eng (who s)) /\ complete n (who s) = true /\
  (let l := firstn (nxt s) evs in forall v, edges (eng (who s)) v = window ts W (clock ts (of_thread owner (owner v) l)) (outs v l)) /\
  (lg s = LView -> ask (nxt s) = true) /\ (0 < n -> lg s <> LView -> nxt s = length evs).
Proof using All.
  intros HF He s Hl. pose proof (win_inv e sent0 sched HF He) as HX. pose proof (x_core _ _ _ _ _ _ _ _ _ HX) as H. fold s in H.
  assert (HD := looks_done s H Hl). destruct (xall_done a owner swap n Hown evs ask ts W e sent0 Hup _ HX HD) as (HI & HC & HE). fold s in HI, HC, HE. split_and!; try done.
  - intros E. apply (c_nxt _ _ _ _ _ _ H), (c_asking _ _ _ _ _ _ H). by rewrite E.
  - intros Hn E. destruct Hl as [Hl|Hl]; [done|]. rewrite <- (map_length (fun x : nat * (nat * edge_t a) => (fst x, Plus (snd x))) evs). apply (c_nxt _ _ _ _ _ _ H).
    destruct (c_trm _ _ _ _ _ _ H) as (own & q & c & l & Et).
    assert (HQ : Term_Proofs.quiet n (trm (who s))) by (rewrite Et; apply Term_All.all_left_quiet; rewrite <- Et; exact HD).
    destruct (HQ 0 Hn) as (_ & _ & Ho). destruct (c_open _ _ _ _ _ _ H 0 Hn Ho) as [_ [?|[E' _]]]; [done|]. destruct (Hl 0 Hn). congruence.
Qed.

(** No deletion of an edge that is too old panics, and it deletes the oldest edges of the vertex. *)
Theorem C90_no_panic e sent0 sched t v : fresh n e sent0 -> (forall v, edges e v = []) -> let s := base (xrun (xstart a e sent0) sched) in owner v = t ->
  let ds := del_run a (changes (batch s t) v) in
  gone a (edges (eng (who s)) v) ds <> None /\ ds = firstn (length ds) (map fst (edges (eng (who s)) v)).
Proof using All.
  intros HF He s Hv ds. pose proof (win_inv e sent0 sched HF He) as HX. destruct (x_threads _ _ _ _ _ _ _ _ _ HX t ltac:(subst; apply Hown)) as (p & q & _ & _ & _ & H).
  destruct (H v Hv) as (A & X & E1 & E2). fold s in E1, E2. unfold ds. rewrite E1. destruct A as [|x A]; [|done]. cbn [map app]. rewrite del_run_minus. rewrite app_nil_r in E2. rewrite E2. split.
  - by rewrite gone_front.
  - by rewrite map_app, take_app.
Qed.

(** Every query that is due has been looked at, once, in order; while one is due and not looked
    at, the stream waits. *)
Theorem C90_all_seen e sent0 sched : fresh n e sent0 -> (forall v, edges e v = []) -> let s := base (xrun (xstart a e sent0) sched) in
  seen s = List.filter ask (seq 1 (nxt s)) \/
  seen s ++ [nxt s] = List.filter ask (seq 1 (nxt s)) /\ qstep a owner swap n (plus a evs) ask s Remitter = s.
Proof using All.
  intros HF He s. pose proof (win_inv e sent0 sched HF He) as HX. pose proof (x_core _ _ _ _ _ _ _ _ _ HX) as H. fold s in H.
  destruct (c_seen _ _ _ _ _ _ H) as [Q1 Q2]. unfold asked_upto in *. cbn [qstep]. unfold remit. destruct (rem s) eqn:Er; [left; apply Q2; by left| |left; apply Q2; by left].
  destruct (lg s) eqn:El; try (right; split; [apply Q1; split; [done|by intros []]|done]). left. apply Q2. by right.
Qed.

(** The window at the time of the last event of all is there, as the last part of each list; what
    comes before is too old at that time, but not yet at the time of the last event of the thread. *)
Theorem C90_stale e sent0 sched v : fresh n e sent0 -> (forall v, edges e v = []) -> let s := base (xrun (xstart a e sent0) sched) in looks n s ->
  let l := firstn (nxt s) evs in exists old, edges (eng (who s)) v = old ++ window ts W (clock ts l) (outs v l) /\
  forall x, x ∈ old -> (clock ts (of_thread owner (owner v) l) < ts (snd x) + W <= clock ts l)%N.
Proof using All.
  intros HF He s Hl l. destruct (C90_view e sent0 sched HF He Hl) as (_ & _ & HE & _). rewrite HE. fold s l. clear HE.
  assert (Hr : rising ts l). { pose proof Hup as H. rewrite <- (firstn_skipn (nxt s) evs) in H. by apply rising_app in H as [? _]. }
  set (old := clock ts (of_thread owner (owner v) l)). set (now := clock ts l).
  assert (Hle : (old <= now)%N).
  { unfold old, QWin_Spec.clock at 1. destruct (list.last (of_thread owner (owner v) l)) as [x|] eqn:El; [|lia]. apply clock_last; [done|].
    apply last_Some_elem_of in El. unfold of_thread in El. apply elem_of_list_In, List.filter_In in El as [El _]. by apply elem_of_list_In. }
  exists (List.filter (fun x => negb (now <? ts (snd x) + W)%N) (window ts W old (outs v l))). split.
  - clear -Hr Hle. clearbody old now. unfold outs. induction Hr as [|[u y] l Hr IH Hx]; [done|]. cbn. destruct (u =? v); [|done]. cbn [map snd]. unfold window in *. cbn [List.filter].
    destruct (N.ltb_spec old (ts (snd y) + W)), (N.ltb_spec now (ts (snd y) + W)); cbn [List.filter negb app]; try lia.
    + rewrite (proj2 (N.ltb_lt _ _)) by done. cbn [negb].
      assert (Hno : List.filter (fun x => negb (now <? ts (snd x) + W)%N) (List.filter (fun e : nat * edge_t a => (old <? ts (snd e) + W)%N) (map snd (List.filter (fun x => fst x =? v) l))) = []).
      { match goal with |- ?f = [] => destruct f as [|z f'] eqn:Ef; [done|] end. exfalso. assert (Hz : z ∈ z :: f') by (by left). rewrite <- Ef in Hz.
        apply elem_of_list_In, List.filter_In in Hz as [Hz1 Hz2]. apply List.filter_In in Hz1 as [Hz1 _]. apply in_map_iff in Hz1 as ([w z'] & <- & Hz1). apply List.filter_In in Hz1 as [Hz1 _].
        rewrite List.Forall_forall in Hx. specialize (Hx _ Hz1). unfold QWin_Spec.at_time in Hx. cbn in Hx, Hz2. apply negb_true_iff, N.ltb_ge in Hz2. lia. }
      rewrite Hno in IH |- *. cbn [app]. f_equal. exact IH.
    + rewrite (proj2 (N.ltb_ge _ _)) by done. cbn [negb app]. by f_equal.
    + done.
  - intros x Hx. apply elem_of_list_In, List.filter_In in Hx as [H1 H2]. apply List.filter_In in H1 as [_ H1]. apply N.ltb_lt in H1. apply negb_true_iff, N.ltb_ge in H2. by split.
Qed.

(** With one thread, or if the thread of [v] has the last event, the edges of [v] are exactly the window. *)
Theorem C90_exact e sent0 sched v : fresh n e sent0 -> (forall v, edges e v = []) -> let s := base (xrun (xstart a e sent0) sched) in looks n s ->
  let l := firstn (nxt s) evs in n = 1 \/ (exists l' x, l = l' ++ [x] /\ owner (fst x) = owner v) ->
  edges (eng (who s)) v = window ts W (clock ts l) (outs v l).
Proof using All.
  intros HF He s Hl l Hc. destruct (C90_view e sent0 sched HF He Hl) as (_ & _ & HE & _). rewrite HE. fold s l. f_equal.
  destruct Hc as [Hn|(l' & x & E & Hx)].
  - assert (of_thread owner (owner v) l = l) as ->; [|done]. assert (Ho : forall u, owner u = 0) by (intros u; pose proof (Hown u); lia). rewrite Ho. unfold of_thread. clear -Ho.
    induction l as [|x l IH]; [done|]. cbn. rewrite Ho. cbn. by f_equal.
  - rewrite E, thread_app. cbn. rewrite Hx, Nat.eqb_refl, !clock_app by done. done.
Qed.
End window.

(** Times that go back: whether the program panics is a matter of how the events are cut into batches.  It never does
    with batches of one event; no way to cut panics exactly if the times of the thread's events rise. *)
Theorem C90_disorder (a : alg) (ts : edge_t a -> N) l : (forall got, (exists l1 l2, l = l1 ++ got ++ l2) -> disorder a ts got = false) <-> rising ts l.
Proof.
  split.
  - intros H. unfold rising. induction l as [|x l IH]; constructor.
    + apply IH. intros got (l1 & l2 & ->). apply H. by exists (x :: l1), l2.
    + rewrite List.Forall_forall. intros y Hy. apply List.in_split in Hy as (l1 & l2 & ->). specialize (H (x :: l1 ++ [y]) ltac:(exists [], l2; cbn; by rewrite <- app_assoc)).
      unfold disorder, latest in H. change (x :: l1 ++ [y]) with ((x :: l1) ++ [y]) in H. rewrite last_snoc in H. cbn [app existsb] in H. apply orb_false_iff in H as [H _]. by apply N.ltb_ge in H.
  - intros H got (l1 & l2 & ->). apply rising_app in H as (_ & H & _). apply rising_app in H as (H & _ & _). unfold disorder.
    destruct (existsb _ got) eqn:E; [|done]. exfalso. apply existsb_exists in E as (x & Hx & E). apply N.ltb_lt in E. pose proof (clock_last ts got x H ltac:(by apply elem_of_list_In)) as Hc.
    unfold clock in Hc. unfold latest in E. lia.
Qed.
Theorem C90_disorder_one (a : alg) (ts : edge_t a -> N) x : disorder a ts [x] = false.
Proof. unfold disorder. cbn. by rewrite N.ltb_irrefl. Qed.

(** PageRank on timed edges: as near to the ranks of the graph of C90_view as at the end (C55). *)
Notation tranking := (timed ranking BinNums.N).
Theorem C90_ranks owner n N swap (evs : list (nat * (nat * (BinNums.N * unit)))) ask W sched exact : (forall v, owner v < n) -> rising fst evs ->
  let e := estart tranking (box (rank_start none)) (prop (rank_start none)) (fun _ => []) in
  let s0 := xstart tranking e (fun _ => 0%N) in let s := base (xrun tranking owner swap n evs ask fst W s0 sched) in
  let work := unwork ranking _ (xworks tranking owner swap n evs ask fst W s0 sched) in
  looks n s -> (forall u c, (u, c) ∈ evs -> u < N) ->
  (forall pre post, work = pre ++ post -> inexact (rank_run owner none pre)) ->
  (let l := firstn (nxt s) evs in exact_ranks DAMP N (fun w => map fst (window fst W (clock fst (of_thread owner (owner w) l)) (outs w l)))
    (Rank_Model.given owner (rank_start none) work) exact) ->
  (qsum (fun v => qabs (mass (rank_run owner none work) v - exact v)) N <= inject_nat N * (EPS + EPS))%Qc /\
  (forall v, box (eng (who s)) v = box (rank_run owner none work) v /\ prop (eng (who s)) v = prop (rank_run owner none work) v).
Proof.
  intros Hown Hup e s0 s work Hl Hev Hx HX.
  assert (Hfr : fresh n e (fun _ => 0%N)) by (by apply fresh_start).
  destruct (C90_view tranking owner swap n Hown evs ask fst W Hup e (fun _ => 0%N) sched Hfr ltac:(done) Hl) as (HI & _ & HE & _). fold s0 in HI, HE. fold s in HI, HE.
  assert (HA : alike ranking BinNums.N (eng (who s)) (rank_run owner none work)).
  { unfold s. rewrite xwork_run. unfold rank_run, work. apply alike_run. by constructor. }
  split; [|intros v; split; apply HA].
  apply (C55_close owner n N none work exact Hown); try done.
  - intros t c H. unfold work, unwork in H. apply elem_of_list_fmap in H as ([t' c'] & [= -> ->] & H).
    destruct c' as [| |v l|v k|v m]; try done; cbn. destruct (xworks_in tranking owner swap n evs ask fst W sched s0 t' v l) as [Hne Hin]; [by intros ? ? ? [?%elem_of_nil|?%elem_of_nil]|done|].
    destruct l as [|x l]; [done|]. eapply Hev, Hin, elem_of_list_here.
  - by apply (alike_idle ranking BinNums.N _ _ HA).
  - intros w Hw. rewrite (HX w Hw). f_equal. unfold handed. apply qsum_ext. intros u _. rewrite <- (k_edges _ _ _ _ HA u), HE, map_map. done.
Qed.

(** Concrete runs, with an algorithm that does nothing; the steps are chosen by looking at the state; a thread pulls at most [big] events at once. *)
Definition still : alg := {|
  prop_t := unit; cell_t := unit; msg_t := unit; edge_t := BinNums.N;
  merge _ _ _ b := (b, false); take c := (c, c); react _ _ p _ _ := (p, [], []) |}.
Section drive.
Context (n big : nat) (stream : list (nat * (nat * BinNums.N))) (ask : nat -> bool) (W : BinNums.N).
Definition w_owner (v : nat) : nat := v mod n.
Definition w_choose (s : qst still) (t : nat) : tchoice still :=
  if acked s t then Awake else
  match Term_Model.at_ (trm (who s)) t with
  | Term_Model.Recv _ => if nil (cmds s t) then Loop (Ctl Term_Model.Go) else Take
  | Term_Model.Look _ =>
      match tq s t with
      | _ :: _ => Pull (Nat.min big (length (tq s t))) 0
      | [] => if epoch s t || finished still s then Loop (Ctl Term_Model.Close) else Loop (Ctl Term_Model.Go)
      end
  | Term_Model.Work _ _ _ =>
      match todo (eng (who s)) t, batch s t with
      | _ :: _, _ => Loop (Do Run)
      | [], (v, Plus _) :: _ => Loop (Do (AddEdges (a := still) v []))
      | [], (v, Minus _) :: _ => Loop (Do (DelEdges (a := still) v []))
      | [], [] => Loop (Ctl Term_Model.Finish)
      end
  | Term_Model.Done => if epoch s t then Answer else Loop (Ctl Term_Model.Go)
  | _ => Loop (Ctl Term_Model.Go)
  end.
Notation step := (xstep still w_owner false n stream ask (fun x => x) W).
Fixpoint w_work (k t : nat) (s : xst still) : xst still * list (actor still) :=
  match k with
  | O => (s, [])
  | S k => let x := Thread t (w_choose (base s) t) in let '(s', l) := w_work k t (step s x) in (s', x :: l)
  end.
Fixpoint w_works (l : list nat) (s : xst still) : xst still * list (actor still) :=
  match l with [] => (s, []) | t :: l => let '(s, l1) := w_work 40 t s in let '(s, l2) := w_works l s in (s, l1 ++ l2) end.
Fixpoint w_drive (k : nat) (s : xst still) : list (actor still) :=
  match k with
  | O => []
  | S k =>
      let s := fold_left step (repeat Remitter big) s in let '(s, l) := w_works (seq 0 n) s in
      repeat Remitter big ++ l ++ Logger :: w_drive k (step s Logger)
  end.
Definition w_e : est still := estart still (fun _ => []) (fun _ => tt) (fun _ => []).
Definition w_s0 : xst still := xstart still w_e (fun _ => 0%N).
Definition w_all (k : nat) : list (actor still) := w_drive k w_s0.
Definition w_end (k : nat) : qst still := base (fold_left step (w_all k) w_s0).
Definition w_at_view (s : qst still) : bool := match lg s with LView => true | _ => false end.
Fixpoint w_views (s : xst still) (l : list (actor still)) : list (nat * list (list (nat * BinNums.N))) :=
  match l with
  | [] => []
  | x :: l => let s' := step s x in
      (if w_at_view (base s') && negb (w_at_view (base s)) then [(nxt (base s'), map (edges (eng (who (base s')))) [0; 1; 2])] else []) ++ w_views s' l
  end.
End drive.

(** An undirected stream: 0 - 1 at time 0 and 0 - 2 at time 20; edges live for 10.  With one thread 0 - 1 is gone at the end.  With two
    threads the thread of 1 hears nothing of time 20: 1 keeps its edge to 0, 0 does not keep its edge to 1.  So
    neither is the graph the window, nor is it undirected, nor is it the same for all numbers of threads. *)
Definition und : list (nat * (nat * BinNums.N)) := [(0, (1, 0%N)); (1, (0, 0%N)); (0, (2, 20%N)); (2, (0, 20%N))].
Theorem C90_threads_refuted : exists sched sched',
  let run n sched := base (xrun still (w_owner n) false n und (fun _ => false) (fun x => x) 10 (xstart still w_e (fun _ => 0%N)) sched) in
  let s := run 1 sched in let s' := run 2 sched' in
  rising (fun x => x) und /\ looks 1 s /\ looks 2 s' /\ nxt s = 4 /\ nxt s' = 4 /\
  map (fun v => window (fun x => x) 10 (clock (fun x => x) und) (outs v und)) [0; 1; 2] = [[(2, 20%N)]; []; [(0, 20%N)]] /\
  map (edges (eng (who s))) [0; 1; 2] = [[(2, 20%N)]; []; [(0, 20%N)]] /\
  map (edges (eng (who s'))) [0; 1; 2] = [[(2, 20%N)]; [(0, 0%N)]; [(0, 20%N)]].
Proof.
  exists (w_all 1 1 und (fun _ => false) 10 20), (w_all 2 1 und (fun _ => false) 10 20). cbv zeta.
  split; [unfold rising, und; repeat constructor; by vm_compute|].
  split_and!; try (by vm_compute); right; [intros [|t] Ht; try lia; by vm_compute|intros [|[|t]] Ht; try lia; by vm_compute].
Qed.

(** One and two threads, batches of one and of all, a query after every second event. *)
Definition path4 : list (nat * (nat * BinNums.N)) := [(0, (1, 0%N)); (0, (2, 3%N)); (0, (1, 5%N)); (1, (0, 9%N)); (0, (1, 12%N)); (1, (2, 30%N))].
Example C90_case : let looks_of n big := w_views n path4 Nat.even 10 w_s0 (w_all n big path4 Nat.even 10 60) in
  looks_of 1 1 = looks_of 1 6 /\ looks_of 2 1 = looks_of 2 6 /\
  looks_of 1 1 = [(2, [[(1, 0%N); (2, 3%N)]; []; []]); (4, [[(1, 0%N); (2, 3%N); (1, 5%N)]; [(0, 9%N)]; []]); (6, [[]; [(2, 30%N)]; []])] /\
  looks_of 2 1 = [(2, [[(1, 0%N); (2, 3%N)]; []; []]); (4, [[(1, 0%N); (2, 3%N); (1, 5%N)]; [(0, 9%N)]; []]); (6, [[(2, 3%N); (1, 5%N); (1, 12%N)]; [(2, 30%N)]; []])] /\
  disorder still (fun x => x) [(0, (1, 5%N)); (0, (2, 3%N))] = true.
Proof. cbv zeta. split_and!; by vm_compute. Qed.

Print Assumptions C90_view.
Print Assumptions C90_no_panic.
Print Assumptions C90_all_seen.
Print Assumptions C90_stale.
Print Assumptions C90_exact.
Print Assumptions C90_disorder.
Print Assumptions C90_disorder_one.
Print Assumptions C90_ranks.
Print Assumptions C90_threads_refuted.
