(** C62: a query sees the graph of exactly the events before it, converged. *)
From Verif Require Import Base RBO_Spec QcUtil Engine_Spec Engine_Model Engine_Proofs Engine_Shape Engine_Props Min_Spec Min_Model Min_Proofs Min_Props.
From Verif Require Import Rank_Spec Rank_Model Rank_Proofs Rank_Run Rank_Wake Rank_Props Rank_Error Rank_Close RankRest_Props.
From Verif Require Import Whole_Model Whole_Proofs Whole_Props Query_Spec Query_Model Query_Proofs.
From Verif Require Term_Model Term_Proofs.
From Coq Require Import QArith Qcanon.
Open Scope nat_scope.

Section query.
Context (a : alg) (owner : nat -> nat) (swap : bool) (n : nat) (Hown : forall v, owner v < n).
Context (evs : list (nat * (nat * edge_t a))) (ask : nat -> bool).
Notation qrun := (qrun a owner swap n evs ask).

(** A query is looking at the graph, or the program has ended. *)
Definition looks (s : qst a) : Prop := lg s = LView \/ forall t, t < n -> left (who s) t /\ epoch s t = false.

(** What is seen then: nothing is left to do for the algorithm, EnsureCompleteness would not
    panic, and the graph is that of the first [nxt s] events: that is a point where the Remitter has
    asked, or the end. *)
Theorem C62_view e sent0 sched : fresh n e sent0 -> let s := qrun (qstart a e sent0) sched in looks s ->
  idle (eng (who s)) /\ complete n (who s) = true /\
  (forall v, edges (eng (who s)) v = edges e v ++ out (firstn (nxt s) evs) v) /\
  (lg s = LView -> ask (nxt s) = true) /\ (0 < n -> lg s <> LView -> nxt s = length evs).
Proof.
  intros (F1 & F2 & F3) s Hl.
  assert (H : qinv a owner swap n evs ask e s) by (by apply (qrun_inv a owner swap n Hown), (qstart_inv a owner swap n Hown)).
  assert (HD : forall t, t < n -> Term_Model.at_ (trm (who s)) t = Term_Model.Done).
  { intros t Ht. destruct Hl as [Hl|Hl]; [by destruct (view_done _ _ _ _ _ _ _ s H Hl t Ht) as (_ & _ & _ & _ & ?)|by apply Hl]. }
  destruct (all_done_rest a owner swap n Hown evs ask e s H HD) as (HI & HC & HE). split_and!; try done.
  - intros E. apply (q_nxt _ _ _ _ _ _ _ _ H), (q_asking _ _ _ _ _ _ _ _ H). by rewrite E.
  - intros Hn E. destruct Hl as [Hl|Hl]; [done|]. apply (q_nxt _ _ _ _ _ _ _ _ H).
    destruct (q_trm _ _ _ _ _ _ _ _ H) as (own & q & c & l & Et).
    assert (HQ : Term_Proofs.quiet n (trm (who s))) by (rewrite Et; apply Term_All.all_left_quiet; rewrite <- Et; exact HD).
    destruct (HQ 0 Hn) as (_ & _ & Ho). destruct (q_open _ _ _ _ _ _ _ _ H 0 Hn Ho) as [_ [?|[E' _]]]; [done|]. destruct (Hl 0 Hn). congruence.
Qed.

(** While a query looks, nobody else can do anything: what is seen is seen at one moment,
    however long the copying takes. *)
Theorem C62_frozen e sent0 sched x : fresh n e sent0 -> let s := qrun (qstart a e sent0) sched in
  lg s = LView -> x <> Logger -> qstep a owner swap n evs ask s x = s.
Proof.
  intros (F1 & F2 & F3) s Hl Hx.
  assert (H : qinv a owner swap n evs ask e s) by (by apply (qrun_inv a owner swap n Hown), (qstart_inv a owner swap n Hown)).
  destruct x as [| |t x]; [|done|]; cbn [qstep].
  - unfold remit. by rewrite (q_asking _ _ _ _ _ _ _ _ H) by (by rewrite Hl).
  - unfold tstep. destruct (Nat.leb_spec n t) as [|Ht]; [done|]. destruct (view_done _ _ _ _ _ _ _ s H Hl t Ht) as (_ & Ea & Ec & _). rewrite Ea, Ec. by destruct x.
Qed.

(** Every query that is due has been looked at, once, in order; while one is due and not looked
    at, the stream waits. *)
Theorem C62_all_seen e sent0 sched : fresh n e sent0 -> let s := qrun (qstart a e sent0) sched in
  seen s = List.filter ask (seq 1 (nxt s)) \/
  seen s ++ [nxt s] = List.filter ask (seq 1 (nxt s)) /\ qstep a owner swap n evs ask s Remitter = s.
Proof.
  intros (F1 & F2 & F3) s.
  assert (H : qinv a owner swap n evs ask e s) by (by apply (qrun_inv a owner swap n Hown), (qstart_inv a owner swap n Hown)).
  destruct (q_seen _ _ _ _ _ _ _ _ H) as [Q1 Q2]. unfold asked_upto in *. cbn [qstep]. unfold remit. destruct (rem s) eqn:Er; [left; apply Q2; by left| |left; apply Q2; by left].
  destruct (lg s) eqn:El; try (right; split; [apply Q1; split; [done|by intros []]|done]). left. apply Q2. by right.
Qed.

(** A thread that has once found its topology queue empty in an epoch would find it empty again
    until it is resumed. *)
Theorem C62_nothing_new e sent0 sched t : fresh n e sent0 -> let s := qrun (qstart a e sent0) sched in
  t < n -> Term_Model.open_ (trm (who s)) t = false -> tq s t = [] /\ batch s t = [] /\ (rem s = Finished \/ epoch s t = true /\ rem s = Asked).
Proof.
  intros (F1 & F2 & F3) s Ht Ho.
  assert (H : qinv a owner swap n evs ask e s) by (by apply (qrun_inv a owner swap n Hown), (qstart_inv a owner swap n Hown)).
  destruct (q_open _ _ _ _ _ _ _ _ H t Ht Ho). split_and!; try done. by apply (q_batch_open _ _ _ _ _ _ _ _ H).
Qed.
End query.
Arguments looks {a} _ _.

Definition none {E : Type} : nat -> list (nat * E) := fun _ => [].
Lemma fresh_start {a} n (e : est a) : (forall t, todo e t = []) -> (forall t, queue e t = []) -> fresh n e (fun _ => 0%N).
Proof. intros H1 H2. split_and!; [done|intros; apply H2|]. rewrite !sumN_zero; [done|intros i _; by rewrite H2|done]. Qed.
Lemma from_start {a} evs (e : est a) sent0 : from_evs a evs (qstart a e sent0).
Proof. intros t x [H|H]; by apply elem_of_nil in H. Qed.

(** Components, as a query sees them: those of the graph of the first events. *)
Theorem C62_components owner n swap evs ask sched raw : (forall v, owner v < n) ->
  let s0 := qstart cc (cc_start none) (fun _ => 0%N) in let s := qrun cc owner swap n evs ask s0 sched in
  let init := Min_Model.given owner (cc_start none) (qworks cc owner swap n evs ask s0 sched) in
  let graph := out (firstn (nxt s) evs) in
  looks n s ->
  (forall v x, (v, x) ∈ init -> x = raw v /\ (raw v < 2 ^ 32)%N) ->
  (forall u v x, (v, x) ∈ graph u -> (u, raw u) ∈ init /\ exists x', (u, x') ∈ graph v) ->
  forall v, (v, raw v) ∈ init ->
  (exists u, joined graph u v /\ prop (eng (who s)) v = raw u) /\ forall u, joined graph u v -> (prop (eng (who s)) v <= raw u)%N.
Proof.
  intros Hown s0 s init graph Hl Hraw Hsym.
  destruct (C62_view cc owner swap n Hown evs ask (cc_start none) (fun _ => 0%N) sched ltac:(by apply fresh_start) Hl) as (HI & _ & HE & _). fold s0 in HI, HE. fold s in HI, HE.
  assert (HE' : forall v, edges (eng (who s)) v = graph v) by (intros v; by rewrite HE).
  assert (Er : eng (who s) = erun cc owner (cc_start none) (qworks cc owner swap n evs ask s0 sched)) by (unfold s; by rewrite qwork_run).
  pose proof (C35_components owner n none (qworks cc owner swap n evs ask s0 sched) raw Hown) as HC. cbv zeta in HC. rewrite <- Er in HC.
  assert (HJ : forall u v, joined (edges (eng (who s))) u v <-> joined graph u v).
  { intros u v. split; induction 1; try constructor; econstructor; try done; by rewrite ?HE' in *. }
  intros v Hv. destruct HC with (v := v) as [(u & H1 & H2) H3]; try done.
  - intros t w gone Hin. by apply (qworks_in cc owner swap n evs ask sched s0 t _ (from_start _ _ _)) in Hin.
  - intros u w x Hx. rewrite HE' in Hx. apply Hsym in Hx as [? (x' & ?)]. split; [done|]. exists x'. by rewrite HE'.
  - split; [exists u; by rewrite <- HJ|]. intros w Hw. apply H3. by apply HJ.
Qed.

(** Shortest paths. *)
Theorem C62_shortest_paths top owner n swap (evs : list (nat * (nat * Qc))) ask sched : (forall v, owner v < n) ->
  let A := sssp (fun x => x) top in let s00 := sssp_start (fun x => x) top (none (E := Qc)) in
  let s0 := qstart A s00 (fun _ => 0%N) in let s := qrun A owner swap n evs ask s0 sched in
  let init := Min_Model.given owner s00 (qworks A owner swap n evs ask s0 sched) in
  let graph := out (firstn (nxt s) evs) in
  looks n s -> (forall u v w, (u, (v, w)) ∈ evs -> 0 <= w)%Qc ->
  forall v, (forall u x d, (u, x) ∈ init -> path graph u v d -> prop (eng (who s)) v <= x + d)%Qc /\
  ((exists u x d, (u, x) ∈ init /\ path graph u v d /\ prop (eng (who s)) v = (x + d)%Qc) \/ prop (eng (who s)) v = top).
Proof.
  intros Hown A s00 s0 s init graph Hl Hw v.
  destruct (C62_view A owner swap n Hown evs ask s00 (fun _ => 0%N) sched ltac:(by apply fresh_start) Hl) as (HI & _ & HE & _). fold s0 in HI, HE. fold s in HI, HE.
  assert (HE' : forall v, edges (eng (who s)) v = graph v) by (intros w; by rewrite HE).
  assert (Er : eng (who s) = erun A owner s00 (qworks A owner swap n evs ask s0 sched)) by (unfold s; by rewrite qwork_run).
  pose proof (fun t c => qworks_in A owner swap n evs ask sched s0 t c (from_start _ _ _)) as Hin.
  assert (HP : forall u v d, path (edges (eng (who s))) u v d <-> path graph u v d).
  { intros u w d. split; induction 1; try constructor; econstructor; try done; by rewrite ?HE' in *. }
  pose proof (C36_shortest_paths top owner n (none (E := Qc)) (qworks A owner swap n evs ask s0 sched) Hown) as HC. cbv zeta in HC. fold A s00 in HC. rewrite <- Er in HC.
  destruct (HC) with (v := v) as [H1 H2]; try done.
  - intros t w gone H. by apply Hin in H.
  - split; [intros u w x H; by apply elem_of_nil in H|]. intros t u l w x H Hx. apply Hin in H. eapply Hw. by apply H.
  - split; [intros u x d Hx Hp; apply (H1 u x d); [done|by apply HP]|]. destruct H2 as [(u & x & d & ? & ? & ?)|]; [left|by right]. exists u, x, d. by rewrite <- HP.
Qed.

(** PageRank: as near to the ranks of the graph of the first events as at the end (C55). *)
Theorem C62_ranks owner n N swap (evs : list (nat * (nat * unit))) ask sched exact : (forall v, owner v < n) ->
  let s0 := qstart ranking (rank_start none) (fun _ => 0%N) in let s := qrun ranking owner swap n evs ask s0 sched in
  let work := qworks ranking owner swap n evs ask s0 sched in
  looks n s -> (forall u v x, (u, (v, x)) ∈ evs -> u < N) ->
  (forall pre post, work = pre ++ post -> inexact (rank_run owner none pre)) ->
  exact_ranks DAMP N (fun w => map fst (out (firstn (nxt s) evs) w)) (Rank_Model.given owner (rank_start none) work) exact ->
  (qsum (fun v => qabs (mass (eng (who s)) v - exact v)) N <= inject_nat N * (EPS + EPS))%Qc.
Proof.
  intros Hown s0 s work Hl Hev Hx HX.
  destruct (C62_view ranking owner swap n Hown evs ask (rank_start none) (fun _ => 0%N) sched ltac:(by apply fresh_start) Hl) as (HI & _ & HE & _). fold s0 in HI, HE. fold s in HI, HE.
  assert (Er : eng (who s) = rank_run owner none work) by (unfold s; by rewrite qwork_run).
  pose proof (C55_close owner n N none work exact Hown) as HC. cbv zeta in HC. rewrite <- Er in HC. apply HC; try done.
  - intros t c H. pose proof (qworks_in ranking owner swap n evs ask sched s0 t c (from_start _ _ _) H) as Hc. destruct c as [| |v l|v k|v m]; try done. cbn.
    destruct l as [|[d x] l], Hc as [Hne Hc]; [done|]. apply (Hev v d x), Hc, elem_of_list_here.
  - intros w Hw. rewrite (HX w Hw). f_equal. unfold handed. apply qsum_ext. intros u _. by rewrite HE.
Qed.

(** When the Remitter asks.  By count: after every multiple of the interval. *)
Lemma count_target_at I r : 0 < I -> count_target I r = (r / I + 1) * I.
Proof.
  intros HI. induction r as [|r IH]; cbn [count_target].
  - rewrite Nat.div_0_l by lia. lia.
  - rewrite IH. clear IH. pose proof (Nat.div_mod r I ltac:(lia)) as E. pose proof (Nat.mod_upper_bound r I ltac:(lia)) as Hr.
    set (q := r / I) in *. set (m := r mod I) in *. destruct (Nat.leb_spec ((q + 1) * I) (S r)) as [H|H].
    + replace (S r / I) with (q + 1); [lia|]. apply (Nat.div_unique _ _ _ 0); nia.
    + replace (S r / I) with q; [lia|]. apply (Nat.div_unique _ _ _ (S m)); nia.
Qed.
Theorem C62_by_count I k : 0 < I -> ask_count I k = true <-> 0 < k /\ exists q, k = q * I.
Proof.
  intros HI. destruct k as [|r]; cbn [ask_count]; [split; [done|lia]|]. rewrite count_target_at by done.
  pose proof (Nat.div_mod r I ltac:(lia)) as E. pose proof (Nat.mod_upper_bound r I ltac:(lia)) as Hr. set (q := r / I) in *. set (m := r mod I) in *.
  rewrite Nat.leb_le. split.
  - intros H. split; [lia|]. exists (q + 1). nia.
  - intros [_ (p & Hp)]. assert (q < p) by nia. nia.
Qed.

(** By timestamps: at the first event that lies the interval after the zero of time, and then
    at the first that lies the interval after the last that was asked at.  If the timestamps are seconds since 1970, the
    first event is asked at. *)
Lemma rev_firstn_S {A} (l : list A) k x : nth_error l k = Some x -> rev (firstn (S k) l) = x :: rev (firstn k l).
Proof.
  intros H. replace (firstn (S k) l) with (firstn k l ++ [x]); [by rewrite rev_app_distr|]. revert l H. induction k as [|k IH]; intros [|y l] H; try done; cbn in *.
  - by injection H as ->.
  - f_equal. by apply IH.
Qed.
Lemma ask_time_at I ts k x : nth_error ts k = Some x -> ask_time I ts (S k) = (time_target I (rev (firstn k ts)) <=? x)%N.
Proof.
  intros H. unfold ask_time. rewrite (rev_firstn_S _ _ _ H). assert (k < length ts) by (apply nth_error_Some; by rewrite H).
  destruct (Nat.leb_spec (S k) (length ts)); [|lia]. by rewrite andb_true_r.
Qed.
Lemma time_target_le I ts k : k <= length ts -> forall x, (time_target I (rev (firstn k ts)) <= x)%N <->
  (I <= x)%N /\ forall j y, j < k -> nth_error ts j = Some y -> ask_time I ts (S j) = true -> (y + I <= x)%N.
Proof.
  induction k as [|k IH]; intros Hk x.
  - cbn. split; [intros; split; [done|lia]|by intros []].
  - destruct (nth_error ts k) as [y|] eqn:Ey; [|apply nth_error_None in Ey; lia]. rewrite (rev_firstn_S _ _ _ Ey). cbn [time_target]. specialize (IH ltac:(lia)).
    pose proof (ask_time_at I ts k y Ey) as Ea. destruct (N.leb_spec (time_target I (rev (firstn k ts))) y) as [Hy|Hy].
    + apply IH in Hy as [Hy1 Hy2]. split.
      * intros Hx. split; [lia|]. intros j z Hj Ej Hask. destruct (decide (j = k)) as [->|]; [rewrite Ey in Ej; by injection Ej as ->|]. specialize (Hy2 j z ltac:(lia) Ej Hask). lia.
      * intros [_ H]. by apply (H k y); [lia| |].
    + rewrite IH. split; intros [H1 H2]; (split; [done|]); intros j z Hj Ej Hask; [|apply (H2 j z); [lia|done|done]].
      destruct (decide (j = k)) as [->|]; [congruence|]. apply (H2 j z); [lia|done|done].
Qed.
Theorem C62_by_time I ts k x : nth_error ts k = Some x ->
  ask_time I ts (S k) = true <-> (I <= x)%N /\ forall j y, j < k -> nth_error ts j = Some y -> ask_time I ts (S j) = true -> (y + I <= x)%N.
Proof.
  intros H. assert (k < length ts) by (apply nth_error_Some; by rewrite H). rewrite (ask_time_at I ts k x H), N.leb_le. apply time_target_le. lia.
Qed.
Example C62_by_time_case : List.filter (ask_time 10 [1000; 1003; 1009; 1010; 1011; 1030]%N) (seq 1 6) = [1; 4; 6] /\ List.filter (ask_count 3) (seq 1 10) = [3; 6; 9].
Proof. by vm_compute. Qed.

(** An undirected edge is two events with the same timestamp (stream.go:207-222, unless logical
    time is asked for); a query by time always comes between the two. *)
Definition both {A} (l : list A) : list A := flat_map (fun x => [x; x]) l.
Lemma both_at {A} (l : list A) : forall k, nth_error (both l) k = nth_error l (k / 2).
Proof.
  induction l as [|x l IH]; intros k; [destruct (k / 2); by destruct k|]. destruct k as [|[|k]]; [done..|]. cbn [both flat_map app nth_error].
  replace (S (S k)) with (k + 1 * 2) by lia. rewrite Nat.div_add by lia. replace (k / 2 + 1) with (S (k / 2)) by lia. apply IH.
Qed.
Theorem C62_always_half I ts k : (1 <= I)%N -> ask_time I (both ts) k = true -> Nat.odd k = true.
Proof.
  intros HI H. destruct k as [|k]; [done|]. destruct (nth_error (both ts) k) as [x|] eqn:Ex.
  2:{ unfold ask_time in H. apply nth_error_None in Ex. destruct (rev _); [done|]. apply andb_true_iff in H as [_ H]. apply Nat.leb_le in H. lia. }
  destruct (Nat.odd (S k)) eqn:Eo; [done|]. rewrite Nat.odd_succ, <- Nat.negb_odd in Eo. apply negb_false_iff, Nat.odd_spec in Eo as (q & ->).
  pose proof Ex as Ex0. rewrite both_at in Ex. replace ((2 * q + 1) / 2) with q in Ex by (rewrite Nat.mul_comm, Nat.div_add_l by lia; cbn; lia).
  assert (Ex' : nth_error (both ts) (2 * q) = Some x) by (rewrite both_at, Nat.mul_comm, Nat.div_mul by lia; done).
  destruct (proj1 (C62_by_time I _ _ x Ex0) H) as [H1 H2]. exfalso.
  destruct (ask_time I (both ts) (S (2 * q))) eqn:Ea; [specialize (H2 (2 * q) x ltac:(lia) Ex' Ea); lia|].
  rewrite <- not_true_iff_false in Ea. apply Ea, (C62_by_time I _ _ x Ex'). split; [done|]. intros j y Hj. apply H2. lia.
Qed.

(** Concrete runs with components: two threads; vertices 0, 1, 2, 3 with the raw ids 5, 3, 9, 2; the
    undirected edges 0-1, 2-1, 3-2, each two events.  The steps are chosen by looking at the state. *)
Definition r_owner (v : nat) : nat := v mod 2.
Definition r_raw (v : nat) : N := nth v [5; 3; 9; 2]%N 0%N.
Definition r_stream : list (nat * (nat * unit)) := [(0, (1, tt)); (1, (0, tt)); (2, (1, tt)); (1, (2, tt)); (3, (2, tt)); (2, (3, tt))].
Definition r_stamps : list N := both [100; 103; 111]%N.
Definition fresh_of (s : qst cc) (t : nat) (old : list nat) : option nat :=
  find (fun v => (r_owner v =? t) && negb (existsb (Nat.eqb v) old)) (flat_map (fun x => [fst x; fst (snd x)]) (firstn (nxt s) r_stream)).
Definition choose (s : qst cc) (t : nat) (old : list nat) : tchoice cc :=
  if acked s t then Awake else
  match Term_Model.at_ (trm (who s)) t with
  | Term_Model.Recv _ => if nil (cmds s t) then Loop (Ctl Term_Model.Go) else Take
  | Term_Model.Look _ =>
      match tq s t, fresh_of s t old with
      | _ :: _, _ => Pull 1 0
      | [], Some _ => Pull 0 1
      | [], None => if epoch s t || finished cc s then Loop (Ctl Term_Model.Close) else Loop (Ctl Term_Model.Go)
      end
  | Term_Model.Work got _ own =>
      match todo (eng (who s)) t, fresh_of s t old, batch s t with
      | _ :: _, _, _ => Loop (Do Run)
      | [], Some v, b => if (own =? 0)%N then Loop (Do Pop) else Loop (Do (SendInit (a := cc) v (r_raw v)))
      | [], None, x :: _ => Loop (Do (AddEdges (a := cc) (fst x) []))
      | [], None, [] => if (did (who s) t <? got)%N then Loop (Do Pop) else Loop (Ctl Term_Model.Finish)
      end
  | Term_Model.Done => if epoch s t then Answer else Loop (Ctl Term_Model.Go)
  | _ => Loop (Ctl Term_Model.Go)
  end.
Definition news (x : tchoice cc) : list nat := match x with Loop (Do (SendInit v _)) => [v] | _ => [] end.
Section drive.
Context (ask : nat -> bool).
Notation step := (qstep cc r_owner false 2 r_stream ask).
Fixpoint work (k t : nat) (s : qst cc) (old : list nat) : qst cc * list nat * list (actor cc) :=
  match k with
  | O => (s, old, [])
  | S k => let x := choose s t old in let '(s', old', l) := work k t (step s (Thread t x)) (news x ++ old) in (s', old', Thread t x :: l)
  end.
Fixpoint drive (k : nat) (s : qst cc) (old : list nat) : list (actor cc) :=
  match k with
  | O => []
  | S k =>
      let s := step s Remitter in
      let '(s, old, l0) := work 30 0 s old in let '(s, old, l1) := work 30 1 s old in
      let s := fold_left step (repeat Logger 1) s in
      Remitter :: l0 ++ l1 ++ Logger :: drive k s old
  end.
End drive.
Definition r_s0 : qst cc := qstart cc (cc_start none) (fun _ => 0%N).
Definition at_view (s : qst cc) : bool := match lg s with LView => true | _ => false end.
(** What the queries see. *)
Fixpoint views (ask : nat -> bool) (s : qst cc) (l : list (actor cc)) : list (nat * list N * list nat) :=
  match l with
  | [] => []
  | x :: l => let s' := qstep cc r_owner false 2 r_stream ask s x in
      (if at_view s' && negb (at_view s) then [(nxt s', map (prop (eng (who s'))) [0; 1; 2; 3], map (fun v => length (edges (eng (who s')) v)) [0; 1; 2; 3])] else []) ++ views ask s' l
  end.
Definition every (ask : nat -> bool) : list (actor cc) := drive ask 60 r_s0 [].
Definition the_end (ask : nat -> bool) : qst cc := qrun cc r_owner false 2 r_stream ask r_s0 (every ask).

(** Asked after every two events, each query sees the components so far, and all threads end. *)
Example C62_case :
  views (ask_count 2) r_s0 (every (ask_count 2)) =
    [(2, [3; 3; 2 ^ 32 - 1; 2 ^ 32 - 1]%N, [1; 1; 0; 0]); (4, [3; 3; 3; 2 ^ 32 - 1]%N, [1; 2; 1; 0]); (6, [2; 2; 2; 2]%N, [1; 2; 2; 1])] /\
  let s := the_end (ask_count 2) in looks 2 s /\ lg s = LWait /\ seen s = [2; 4; 6] /\ map (prop (eng (who s))) [0; 1; 2; 3] = [2; 2; 2; 2]%N.
Proof.
  split; [by vm_compute|]. cbv zeta. split_and!; [right|by vm_compute..]. intros t Ht. destruct t as [|[|t]]; [by vm_compute..|lia].
Qed.

(** Asked by timestamps, the first query sees the edge 0-1 in one direction only, and 5 and 3
    as labels of the two: not the components of the undirected graph, which are right at the end. *)
Theorem C62_symmetric_refuted :
  let ask := ask_time 10 r_stamps in
  (exists sched, let s := qrun cc r_owner false 2 r_stream ask r_s0 sched in
    lg s = LView /\ nxt s = 1 /\ edges (eng (who s)) 0 = [(1, tt)] /\ edges (eng (who s)) 1 = [] /\ map (prop (eng (who s))) [0; 1] = [5; 3]%N) /\
  (exists sched, let s := qrun cc r_owner false 2 r_stream ask r_s0 sched in
    looks 2 s /\ lg s = LWait /\ seen s = [1; 5] /\ map (prop (eng (who s))) [0; 1; 2; 3] = [2; 2; 2; 2]%N).
Proof.
  cbv zeta. split.
  - set (l := every (ask_time 10 r_stamps)).
    exists (firstn (length (fst (fold_left (fun '(done, s) x => if at_view s then (done, s) else (x :: done, qstep cc r_owner false 2 r_stream (ask_time 10 r_stamps) s x)) l ([], r_s0)))) l).
    split_and!; by vm_compute.
  - exists (every (ask_time 10 r_stamps)). split_and!; [right|by vm_compute..]. intros t Ht. destruct t as [|[|t]]; [by vm_compute..|lia].
Qed.

Print Assumptions C62_view.
Print Assumptions C62_frozen.
Print Assumptions C62_all_seen.
Print Assumptions C62_nothing_new.
Print Assumptions C62_components.
Print Assumptions C62_shortest_paths.
Print Assumptions C62_ranks.
Print Assumptions C62_by_count.
Print Assumptions C62_by_time.
Print Assumptions C62_always_half.
Print Assumptions C62_symmetric_refuted.
