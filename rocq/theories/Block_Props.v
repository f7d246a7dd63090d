(** C73: queries that do not wait for the algorithm. *)
From Verif Require Import Base RBO_Spec QcUtil Engine_Spec Engine_Model Engine_Proofs Engine_Shape Engine_Props Min_Spec Min_Model Min_Proofs Min_Props.
From Verif Require Import Rank_Spec Rank_Model Whole_Model Whole_Proofs Whole_Props Query_Spec Query_Proofs Query_Props Block_Spec Block_Model Block_Proofs.
From Verif Require Term_Model Term_Proofs.
From Coq Require Import QArith Qcanon.
Open Scope nat_scope.

Section block.
Context (a : alg) (owner : nat -> nat) (swap : bool) (n : nat) (Hown : forall v, owner v < n).
Context (evs : list (nat * (nat * edge_t a))) (ask : nat -> bool) (async : bool) (verts : list nat).
Notation brun := (brun a owner swap n evs ask async verts).
Notation bstep := (bstep a owner swap n evs ask async verts).

Lemma start_inv e sent0 sched : fresh n e sent0 -> binv a owner swap n evs ask async e (brun (bstart a e sent0) sched).
Proof. intros (F1 & F2 & F3). by apply (brun_inv a owner swap n Hown), (bstart_inv a owner swap n Hown). Qed.

(** What a query looks at: the state of a run of the engine, with a graph in which the part of
    every thread is that of the first so many events of the stream, at most those that the Remitter has
    passed on when it asked; nothing is half added. *)
Theorem C73_view e sent0 sched : fresh n e sent0 -> let s := brun (bstart a e sent0) sched in blg s = LView ->
  eng (bwho s) = erun a owner e (bworks a owner swap n evs ask async verts (bstart a e sent0) sched) /\
  in_parts owner evs (bnxt s) (edges e) (edges (eng (bwho s))) /\ ask (bnxt s) = true.
Proof.
  intros F s Hl. pose proof (start_inv e sent0 sched F) as H. fold s in H.
  split_and!; [unfold s; by rewrite bwork_run| |].
  - apply (in_parts_at a owner swap n Hown evs ask async e sent0 s H). intros t. destruct (decide (t < n)) as [Ht|Ht].
    + destruct (bview _ _ _ _ _ _ _ _ s H Hl t Ht) as [Hb _]. exact (proj1 (blocked_nothing _ _ _ _ _ _ _ _ s t H Ht Hb)).
    + destruct (b_batch _ _ _ _ _ _ _ _ _ H t) as [?|(g & x & o & E)]; [done|]. rewrite (w_out _ _ _ (b_w _ _ _ _ _ _ _ _ _ H) t) in E by lia. done.
  - apply (b_nxt _ _ _ _ _ _ _ _ _ H), (b_asking _ _ _ _ _ _ _ _ _ H). by rewrite Hl.
Qed.

(** With BLOCK_ALL nothing moves while the query looks. *)
Theorem C73_frozen e sent0 sched x : fresh n e sent0 -> async = false -> let s := brun (bstart a e sent0) sched in
  blg s = LView -> x <> BLogger -> (forall v, x <> BFinisher v) -> bstep s x = s.
Proof.
  intros F Ea s Hl Hx Hf. pose proof (start_inv e sent0 sched F) as H. fold s in H.
  destruct x as [| |t x|v]; [| done | |by destruct (Hf v)]; cbn [Block_Model.bstep].
  - unfold bremit. by rewrite (b_asking _ _ _ _ _ _ _ _ _ H) by (by rewrite Hl).
  - unfold btstep. destruct (Nat.leb_spec n t) as [|Ht]; [done|]. destruct (bview _ _ _ _ _ _ _ _ s H Hl t Ht) as [Hb Hc].
    unfold blocked in Hb. rewrite Ea in Hb. destruct Hb as (_ & -> & _). rewrite Hc. by destruct x.
Qed.

(** With BLOCK_TOP the algorithm goes on, but the graph stays as it is, whatever happens, until
    the query is done. *)
Theorem C73_graph_stands e sent0 sched more : fresh n e sent0 -> let s := brun (bstart a e sent0) sched in
  blg s = LView -> BLogger ∉ more -> let s' := brun s more in
  edges (eng (bwho s')) = edges (eng (bwho s)) /\ bnxt s' = bnxt s /\ blg s' = LView.
Proof.
  intros F s Hl. pose proof (start_inv e sent0 sched F) as H. fold s in H. clearbody s.
  assert (Hr : brem s = Asked) by (apply (b_asking _ _ _ _ _ _ _ _ _ H); by rewrite Hl).
  pose proof (bview _ _ _ _ _ _ _ _ s H Hl) as HB. clear F. revert s H Hl Hr HB.
  induction more as [|x l IH]; intros s H Hl Hr HB Hin; [done|].
  apply not_elem_of_cons in Hin as [Hx Hin]. cbn zeta.
  destruct (blocked_edges a owner swap n evs ask async verts e s x H HB Hr ltac:(congruence)) as (E1 & E2 & E3 & E4 & E5 & E6 & E7).
  change (brun s (x :: l)) with (brun (bstep s x) l).
  destruct (IH (bstep s x)) as (K1 & K2 & K3); try done; [by apply (bstep_inv a owner swap n Hown)|congruence|congruence|].
  by rewrite K1, K2, K3, E1, E3.
Qed.

(** ResetTerminationState finds nothing to clear, and nobody in the check, when a query is done;
    so it does not matter that the threads go on meanwhile. *)
Theorem C73_reset e sent0 sched : fresh n e sent0 -> let s := brun (bstart a e sent0) sched in blg s = LView ->
  reset a (bwho s) = bwho s /\ forall t, early_pc (Term_Model.at_ (trm (bwho s)) t).
Proof.
  intros F s Hl. pose proof (start_inv e sent0 sched F) as H. fold s in H.
  assert (HE : early (trm (bwho s))).
  { apply (b_early _ _ _ _ _ _ _ _ _ H). rewrite (b_asking _ _ _ _ _ _ _ _ _ H); [done|by rewrite Hl]. }
  split; [by apply reset_same|]. intros t. by apply HE.
Qed.

(** A thread that waits for RESUME gets nothing else (the panic of line 104). *)
Theorem C73_no_panic e sent0 sched t : fresh n e sent0 -> let s := brun (bstart a e sent0) sched in
  t < n -> held s t = true -> bcmds s t = [] \/ bcmds s t = [BResume].
Proof. intros F s Ht Hh. pose proof (start_inv e sent0 sched F) as H. by apply (held_mode _ _ _ _ _ _ _ _ _ _ H Ht) in Hh as (_ & ? & _). Qed.

(** A thread that has left its loop is not asked to stop for a query any more (the panic of lines
    281-284: completed while topology is blocked). *)
Theorem C73_no_block_at_end e sent0 sched t : fresh n e sent0 -> let s := brun (bstart a e sent0) sched in
  t < n -> left (bwho s) t -> brem s = Finished /\ blg s = LWait.
Proof.
  intros F s Ht Hl. pose proof (start_inv e sent0 sched F) as H. fold s in H.
  assert (Er : brem s = Finished).
  { destruct (brem s) eqn:Er; [| |done]; (destruct (b_early _ _ _ _ _ _ _ _ _ H ltac:(congruence)) as (_ & _ & _ & K); destruct (K t) as [_ K']; unfold left in Hl; by rewrite Hl in K'). }
  split; [done|]. destruct (blg s) eqn:El; [done|..]; (assert (Ea : brem s = Asked) by (apply (b_asking _ _ _ _ _ _ _ _ _ H); by rewrite El)); congruence.
Qed.

(** Every query that is due is looked at, once, in order. *)
Theorem C73_all_seen e sent0 sched : fresh n e sent0 -> let s := brun (bstart a e sent0) sched in
  bseen s = List.filter ask (seq 1 (bnxt s)) \/
  bseen s ++ [bnxt s] = List.filter ask (seq 1 (bnxt s)) /\ bstep s BRemitter = s.
Proof.
  intros F s. pose proof (start_inv e sent0 sched F) as H. fold s in H.
  destruct (b_seen _ _ _ _ _ _ _ _ _ H) as [Q1 Q2]. unfold asked_upto in *. cbn [Block_Model.bstep]. unfold bremit. destruct (brem s) eqn:Er; [left; apply Q2; by left| |left; apply Q2; by left].
  destruct (blg s) eqn:El; try (right; split; [apply Q1; split; [done|by intros []]|done]). left. apply Q2. by right.
Qed.

(** The queries do no harm: when all threads have left, nothing is left to do, the check at the end passes, and
    all events are in the graph. *)
Theorem C73_end e sent0 sched : fresh n e sent0 -> let s := brun (bstart a e sent0) sched in
  0 < n -> (forall t, t < n -> left (bwho s) t) ->
  idle (eng (bwho s)) /\ complete n (bwho s) = true /\ (forall v, edges (eng (bwho s)) v = edges e v ++ out evs v) /\
  bseen s = List.filter ask (seq 1 (length evs)).
Proof.
  intros F s Hn Hl. pose proof (start_inv e sent0 sched F) as H. fold s in H.
  destruct (C73_no_block_at_end e sent0 sched 0 F Hn (Hl 0 Hn)) as [Er _]. fold s in Er.
  pose proof (b_nxt _ _ _ _ _ _ _ _ _ H) as (_ & _ & Hx). specialize (Hx Er).
  destruct (ball_done a owner swap n Hown evs ask async e s H Hl) as (HI & HC & HE). split_and!; try done.
  - intros v. rewrite HE, Hx. by rewrite firstn_all.
  - rewrite <- Hx. apply (proj2 (b_seen _ _ _ _ _ _ _ _ _ H)). left. congruence.
Qed.
End block.

(** At any time. *)
Lemma paths_anytime top owner n es sched : (forall v, owner v < n) -> no_deletion sched -> weights_ok es sched ->
  let s := erun (sssp (fun x => x) top) owner (sssp_start (fun x => x) top es) sched in
  forall v, ok qle top (fun w x => (x + w)%Qc) (Min_Model.given owner (sssp_start (fun x => x) top es) sched) (edges s) v (prop s v).
Proof.
  intros Hown Hdel [Hw1 Hw2] s v. unfold s, sssp_start, no_deletion in *. rewrite sssp_is_min in *.
  assert (HT : forall x y, le qle x y \/ le qle y x).
  { intros x y. unfold le. rewrite !qle_iff. destruct (Qclt_le_dec x y) as [H|H]; [left; by apply Qclt_le_weak|by right]. }
  eapply (m_pok qle top (fun w x => (x + w)%Qc) true owner) with (good := fun w => (0 <= w)%Qc).
  apply (minv_erun qle top (fun w x => (x + w)%Qc) true) with (n := n) (gv := []); try done.
  - intros x y z. unfold le. rewrite !qle_iff. apply Qcle_trans.
  - intros e x He. unfold le. rewrite !qle_iff. intros H. qclra.
  - intros e x He. unfold le. rewrite !qle_iff. intros H. qclra.
  - apply wake_start.
  - apply shaped_start.
  - exact (minv_start qle top (fun w x => (x + w)%Qc) true owner HT (fun w => (0 <= w)%Qc) es Hw1).
Qed.

(** Shortest paths: a value that an unconverged query sees (or that OnFinish reads later) is the length of a path in the
    graph of that moment, or none at all. *)
Theorem C73_paths top owner n swap (evs : list (nat * (nat * Qc))) ask async verts sched : (forall v, owner v < n) ->
  let A := sssp (fun x => x) top in let s00 := sssp_start (fun x => x) top (none (E := Qc)) in
  let s0 := bstart A s00 (fun _ => 0%N) in let s := brun A owner swap n evs ask async verts s0 sched in
  let init := Min_Model.given owner s00 (bworks A owner swap n evs ask async verts s0 sched) in
  (forall u v w, (u, (v, w)) ∈ evs -> 0 <= w)%Qc ->
  forall v, (exists u x d, (u, x) ∈ init /\ path (edges (eng (bwho s))) u v d /\ prop (eng (bwho s)) v = (x + d)%Qc) \/ (top <= prop (eng (bwho s)) v)%Qc.
Proof.
  intros Hown A s00 s0 s init Hw v.
  assert (Er : eng (bwho s) = erun A owner s00 (bworks A owner swap n evs ask async verts s0 sched)) by (unfold s; by rewrite bwork_run).
  assert (Hfrom : bfrom_evs A evs s0) by (intros t x [H|H]; by apply elem_of_nil in H).
  pose proof (fun t c => bworks_in A owner swap n evs ask async verts sched s0 t c Hfrom) as Hin.
  assert (HM : ok qle top (fun w x => (x + w)%Qc) init (edges (eng (bwho s))) v (prop (eng (bwho s)) v)).
  { rewrite Er. apply (paths_anytime top owner n); [done| |].
    - intros t w gone H. by apply Hin in H.
    - split; [intros u w x H; by apply elem_of_nil in H|]. intros t u l w x H Hx. apply Hin in H. eapply Hw. by apply H. }
  destruct HM as [HM|HM]; [left|right; by apply qle_iff].
  revert HM. generalize (prop (eng (bwho s)) v). intros p Hp. induction Hp as [w x Hg|u w e x Hp IH He].
  + exists w, x, 0%Qc. split_and!; [done|constructor|]. by rewrite Qcplus_0_r.
  + destruct IH as (u' & x' & d & Hi & Hp' & ->). exists u', x', (d + e)%Qc. split_and!; [done|by eapply path_snoc|]. by rewrite Qcplus_assoc.
Qed.

(** Concrete runs with components, as in C62: two threads, vertices 0, 1, 2, 3 with the raw ids 5, 3, 9, 2. *)
Definition bfresh_of (s : bst cc) (t : nat) (old : list nat) : option nat :=
  find (fun v => (r_owner v =? t) && negb (existsb (Nat.eqb v) old)) (flat_map (fun x => [fst x; fst (snd x)]) (firstn (bnxt s) r_stream)).
Definition bchoose (s : bst cc) (t : nat) (old : list nat) : tchoice cc :=
  if held s t then Awake else
  match Term_Model.at_ (trm (bwho s)) t with
  | Term_Model.Recv _ => if nil (bcmds s t) then Loop (Ctl Term_Model.Go) else Take
  | Term_Model.Look _ =>
      if top s t then Loop (Ctl Term_Model.Go) else
      match btq s t, bfresh_of s t old with
      | _ :: _, _ => Pull 1 0
      | [], Some _ => Pull 0 1
      | [], None => if bfinished cc s then Loop (Ctl Term_Model.Close) else Loop (Ctl Term_Model.Go)
      end
  | Term_Model.Work got _ own =>
      match todo (eng (bwho s)) t, bfresh_of s t old, bbatch s t with
      | _ :: _, _, _ => Loop (Do Run)
      | [], Some v, b => if negb (own =? 0)%N then Loop (Do (SendInit (a := cc) v (r_raw v))) else if (did (bwho s) t <? got)%N then Loop (Do Pop) else Loop (Ctl Term_Model.Finish)
      | [], None, x :: _ => Loop (Do (AddEdges (a := cc) (fst x) []))
      | [], None, [] => if (did (bwho s) t <? got)%N then Loop (Do Pop) else Loop (Ctl Term_Model.Finish)
      end
  | _ => Loop (Ctl Term_Model.Go)
  end.
Section bdrive.
Context (ask : nat -> bool) (async : bool).
Notation step := (bstep cc r_owner false 2 r_stream ask async []).
Fixpoint bdo (k t : nat) (s : bst cc) (old : list nat) : bst cc * list nat * list (bactor cc) :=
  match k with
  | O => (s, old, [])
  | S k => let x := bchoose s t old in let '(s', old', l) := bdo k t (step s (BThread t x)) (news x ++ old) in (s', old', BThread t x :: l)
  end.
Fixpoint bdrive (k : nat) (s : bst cc) (old : list nat) : list (bactor cc) :=
  match k with
  | O => []
  | S k =>
      let s := step s BRemitter in
      let '(s, old, l0) := bdo 7 0 s old in let '(s, old, l1) := bdo 30 1 s old in
      let s := step (step s BLogger) BLogger in
      BRemitter :: l0 ++ l1 ++ BLogger :: BLogger :: bdrive k s old
  end.
End bdrive.
Definition b_s0 : bst cc := bstart cc (cc_start none) (fun _ => 0%N).
Definition bat_view (s : bst cc) : bool := match blg s with LView => true | _ => false end.
Fixpoint bviews (ask : nat -> bool) (async : bool) (s : bst cc) (l : list (bactor cc)) : list (nat * list N * list nat) :=
  match l with
  | [] => []
  | x :: l => let s' := bstep cc r_owner false 2 r_stream ask async [] s x in
      (if bat_view s' && negb (bat_view s) then [(bnxt s', map (prop (eng (bwho s'))) [0; 1; 2; 3], map (fun v => length (edges (eng (bwho s')) v)) [0; 1; 2; 3])] else []) ++ bviews ask async s' l
  end.
Definition bevery (async : bool) : list (bactor cc) := bdrive (ask_count 2) async 120 b_s0 [].
Definition bend (async : bool) : bst cc := brun cc r_owner false 2 r_stream (ask_count 2) async [] b_s0 (bevery async).
(** Asked after every two events, the queries see labels that are not settled yet; all threads end and
    the labels are right. *)
Example C73_case :
  bviews (ask_count 2) false b_s0 (bevery false) =
    [(2, [5; 3; 2 ^ 32 - 1; 2 ^ 32 - 1]%N, [1; 1; 0; 0]); (4, [3; 3; 3; 2 ^ 32 - 1]%N, [1; 2; 1; 0]); (6, [3; 2; 2; 2]%N, [1; 2; 2; 1])] /\
  (forall async, let s := bend async in (forall t, t < 2 -> left (bwho s) t) /\ blg s = LWait /\ bseen s = [2; 4; 6] /\ map (prop (eng (bwho s))) [0; 1; 2; 3] = [2; 2; 2; 2]%N).
Proof.
  split; [by vm_compute|]. intros []; cbv zeta; split_and!; try (by vm_compute); intros t Ht; destruct t as [|[|t]]; try (by vm_compute); lia.
Qed.

(** The graph that a query sees need not be that of any number of first events: here the second
    event (at the second thread) is in it and the first (which still waits at the first thread) is not. *)
Definition p_sched : list (bactor cc) :=
  [BRemitter; BRemitter; BThread 1 (Loop (Ctl Term_Model.Go)); BThread 1 (Pull 1 0); BThread 1 (Loop (Do (AddEdges (a := cc) 1 [])))] ++
  repeat (BThread 1 (Loop (Do Run))) 20 ++ [BThread 1 (Loop (Ctl Term_Model.Finish))] ++
  repeat BLogger 4 ++ [BThread 0 Take; BThread 1 Take] ++ repeat BLogger 3.
Theorem C73_prefix_refuted : exists sched, forall async,
  let s := brun cc r_owner false 2 r_stream (ask_count 2) async [] b_s0 sched in
  blg s = LView /\ bnxt s = 2 /\ ~ exists k, forall v, edges (eng (bwho s)) v = out (firstn k r_stream) v.
Proof.
  exists p_sched. intros async. cbv zeta. set (s := brun _ _ _ _ _ _ _ _ _ _).
  assert (E : blg s = LView /\ bnxt s = 2 /\ edges (eng (bwho s)) 0 = [] /\ edges (eng (bwho s)) 1 = [(0, tt)]) by (subst s; destruct async; by vm_compute).
  destruct E as (E1 & E2 & E3 & E4). clearbody s. split_and!; try done. intros (k & H). pose proof (H 0) as H0. pose proof (H 1) as H1. rewrite E3 in H0. rewrite E4 in H1.
  destruct k as [|k]; cbn in H1, H0; [done|]. done.
Qed.

(** OnFinish reads the graph after the threads have been let go, also with BLOCK_ALL: what it reads
    is then not the state of any moment.  PageRank with one thread: vertex 0 is read, then the thread
    goes on and takes in the second event, then vertex 1 is read. *)
Definition k_stream : list (nat * (nat * unit)) := [(0, (1, tt)); (1, (0, tt))].
Definition k_ask (k : nat) : bool := k =? 1.
Definition k_s0 : bst ranking := bstart ranking (rank_start none) (fun _ => 0%N).
Definition k_run (k : nat) : list (bactor ranking) := repeat (BThread 0 (Loop (Do Run))) k.
Definition k_upto : list (bactor ranking) :=
  [BRemitter; BThread 0 (Loop (Ctl Term_Model.Go)); BThread 0 (Pull 1 2); BThread 0 (Loop (Do (SendInit (a := ranking) 0 1%Qc)))] ++ k_run 9 ++
  [BThread 0 (Loop (Do (SendInit (a := ranking) 1 1%Qc)))] ++ k_run 9 ++ [BThread 0 (Loop (Do (AddEdges (a := ranking) 0 [])))] ++ k_run 12 ++
  [BThread 0 (Loop (Ctl Term_Model.Finish))] ++ repeat BLogger 3 ++ [BThread 0 Take] ++ repeat BLogger 2.
Definition k_round : list (bactor ranking) := repeat (BThread 0 (Loop (Ctl Term_Model.Go))) 4 ++ concat (repeat (BThread 0 (Loop (Do Pop)) :: k_run 15) 3) ++ [BThread 0 (Loop (Ctl Term_Model.Finish))].
Definition k_after : list (bactor ranking) :=
  [BLogger; BFinisher 0; BLogger; BLogger; BThread 0 Awake] ++ k_round ++
  [BRemitter; BThread 0 (Loop (Ctl Term_Model.Go)); BThread 0 (Pull 1 0); BThread 0 (Loop (Do (AddEdges (a := ranking) 1 [])))] ++ k_run 15 ++ [BThread 0 (Loop (Ctl Term_Model.Finish))] ++
  k_round ++ k_round ++ [BFinisher 1].
Definition k_from (s : bst ranking) (l : list (bactor ranking)) : bst ranking := brun ranking (fun _ => 0) false 1 k_stream k_ask false [0; 1] s l.
Fixpoint k_states (s : bst ranking) (l : list (bactor ranking)) : list (bst ranking) :=
  s :: match l with [] => [] | x :: l => k_states (bstep ranking (fun _ => 0) false 1 k_stream k_ask false [0; 1] s x) l end.
Lemma k_states_in l : forall s pre post, l = pre ++ post -> k_from s pre ∈ k_states s l.
Proof.
  induction l as [|x l IH]; intros s pre post E.
  - symmetry in E. apply app_eq_nil in E as [-> _]. apply elem_of_list_here.
  - destruct pre as [|y pre]; [apply elem_of_list_here|]. injection E as -> ->. cbn [k_states]. apply elem_of_list_further. by apply (IH (bstep ranking (fun _ => 0) false 1 k_stream k_ask false [0; 1] s y) pre post).
Qed.
Definition k_mass (s : bst ranking) (v : nat) : Qc := snd (prop (eng (bwho s)) v).
Definition q_same (x y : Qc) : bool := if Qc_eq_dec x y then true else false.
Definition k_check (s : bst ranking) (more : list (bactor ranking)) : bool :=
  match blg s, fin (k_from s more), copy (k_from s more) 0, copy (k_from s more) 1 with
  | LView, [], Some (p0, _), Some (p1, _) => forallb (fun now => negb (q_same (k_mass now 0) (snd p0) && q_same (k_mass now 1) (snd p1))) (k_states s more)
  | _, _, _, _ => false
  end.
Definition torn (s : bst ranking) (more : list (bactor ranking)) : Prop := let s' := k_from s more in
  blg s = LView /\ fin s' = [] /\ exists p0 p1 k0 k1, copy s' 0 = Some (p0, k0) /\ copy s' 1 = Some (p1, k1) /\
  forall pre post, more = pre ++ post -> let now := k_from s pre in ~ (prop (eng (bwho now)) 0 = p0 /\ prop (eng (bwho now)) 1 = p1).
Lemma k_check_ok s more : k_check s more = true -> torn s more.
Proof.
  unfold k_check, torn. cbv zeta. pose proof (k_states_in more s) as HI. set (s' := k_from s more). clearbody s'.
  destruct (blg s); try discriminate. destruct (fin s'); try discriminate. destruct (copy s' 0) as [[p0 k0]|]; try discriminate. destruct (copy s' 1) as [[p1 k1]|]; try discriminate.
  intros E. split; [reflexivity|]. split; [reflexivity|]. exists p0, p1, k0, k1. split; [reflexivity|]. split; [reflexivity|]. intros pre post Ep [F0 F1].
  specialize (HI pre post Ep). rewrite forallb_forall in E. apply elem_of_list_In, E in HI.
  unfold k_mass in HI. rewrite F0, F1 in HI. unfold q_same in HI. destruct (Qc_eq_dec (snd p0) (snd p0)), (Qc_eq_dec (snd p1) (snd p1)); try discriminate; congruence.
Qed.
Lemma k_checked : k_check (k_from k_s0 k_upto) k_after = true.
Proof. vm_compute. reflexivity. Qed.
Theorem C73_copy_refuted : exists sched more, torn (k_from k_s0 sched) more.
Proof. exists k_upto, k_after. apply k_check_ok. exact k_checked. Qed.

Print Assumptions C73_view.
Print Assumptions C73_frozen.
Print Assumptions C73_graph_stands.
Print Assumptions C73_reset.
Print Assumptions C73_no_panic.
Print Assumptions C73_no_block_at_end.
Print Assumptions C73_all_seen.
Print Assumptions C73_end.
Print Assumptions C73_paths.
Print Assumptions C73_prefix_refuted.
Print Assumptions C73_copy_refuted.
