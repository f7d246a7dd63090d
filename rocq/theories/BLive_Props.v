(** C85: queries that do not wait are all answered, and the program ends. *)
From Verif Require Import Base RBO_Spec QcUtil Engine_Spec Engine_Model Engine_Proofs Engine_Shape Engine_Props Min_Spec Min_Model Min_Proofs Min_Props.
From Verif Require Import Rank_Spec Rank_Model Rank_Proofs Rank_Run Rank_Wake Rank_Props Rank_Error Rank_Close RankRest_Props.
From Verif Require Import Rest_Spec Rest_Proofs Rest_Props Whole_Model Whole_Proofs Whole_Props Query_Spec Query_Proofs Query_Props QLive_Props Block_Spec Block_Model Block_Proofs Block_Props BLive_Model BLive_Proofs.
From Verif Require Term_Model Term_Proofs Term_Live.
From Coq Require Import QArith Qcanon.
Open Scope nat_scope.

Section ends.
Context (a : alg) (owner : nat -> nat) (swap : bool) (n : nat) (Hown : forall v, owner v < n).
Context (evs : list (nat * (nat * edge_t a))) (ask : nat -> bool) (async : bool) (verts : list nat).
Notation brun := (brun a owner swap n evs ask async verts).
Notation after := (after a owner swap n evs ask async verts).
Notation clears := (clears a owner swap n evs ask async verts).

(** The program is over: the stream has been read to its end, every query that was due has
    looked, the finishing goroutine has read what it was to read, all threads have left their loops, none
    is blocked, and nothing is left for the algorithm. *)
Definition bfinale (e : est a) (s : bst a) : Prop :=
  brem s = Finished /\ bnxt s = length evs /\ bseen s = List.filter ask (seq 1 (length evs)) /\ fin s = [] /\
  (forall t, t < n -> left (bwho s) t /\ top s t = false /\ held s t = false) /\
  idle (eng (bwho s)) /\ complete n (bwho s) = true /\ forall v, edges (eng (bwho s)) v = edges e v ++ out evs v.

(** From wherever a schedule [sched] has led, fair rounds bring the program to its end. *)
Theorem C85_ends e sent0 (okay : bactor a -> Prop) sched R : fresh n e sent0 ->
  (forall x, allowed x -> okay x) -> (forall x, x ∈ sched -> okay x) ->
  let s0 := bstart a e sent0 in
  (forall l, (forall x, x ∈ l -> okay x) -> finite a owner (eng (bwho (brun s0 l)))) ->
  let s := brun s0 sched in
  (forall k, fair_turns a owner n evs verts (R k)) ->
  swap = true \/ (clears s0 sched /\ forall k, clears (after R s k) (steps_of (R k))) ->
  exists k, bfinale e (after R s k).
Proof.
  intros Hf Hok Hs s0 Hfin s HR Hcl. pose proof Hf as (F1 & F2 & F3).
  assert (HS : forall l pre, (forall x, x ∈ pre ++ l -> okay x) -> snd_ a swap n (brun s0 pre) -> swap = true \/ clears (brun s0 pre) l -> snd_ a swap n (brun s0 (pre ++ l))).
  { induction l as [|x l IH]; intros pre Hp H1 H2; [by rewrite app_nil_r|].
    assert (E : brun s0 (pre ++ [x]) = bstep a owner swap n evs ask async verts (brun s0 pre) x) by (unfold Block_Model.brun; by rewrite fold_left_app).
    assert (Ea : pre ++ x :: l = (pre ++ [x]) ++ l) by (by rewrite <- app_assoc). rewrite Ea. apply IH.
    - by rewrite <- Ea.
    - rewrite E. apply (sound_step a owner swap n Hown evs ask async verts e sent0 okay F1 F2 F3); [|done|destruct H2 as [?|[? ?]]; [by left|by right]].
      exists pre. split; [|done]. intros y Hy. apply Hp, elem_of_app. by left.
    - rewrite E. destruct H2 as [?|[_ ?]]; [by left|by right]. }
  assert (HI : Inv a owner swap n evs ask async verts e sent0 okay s).
  { split; [by exists sched|]. apply (HS sched []); [done|apply Term_Live.sound_start|]. destruct Hcl as [?|[? _]]; [by left|by right]. }
  assert (Hfin' : forall s, reach a owner swap n evs ask async verts e sent0 okay s -> finite a owner (eng (bwho s))) by (intros s1 (l & Hl & ->); by apply Hfin).
  assert (HFR : fineR a owner swap n evs ask async verts R s) by (intros k; destruct Hcl as [?|[_ H]]; [by left|right; apply H]).
  destruct (ev_over a owner swap n Hown evs ask async verts e sent0 okay F1 F2 F3 Hok Hfin' s HI R HR HFR) as (k & Hr & Hfi & Hd). exists k.
  assert (HQ : binv a owner swap n evs ask async e (after R s k)).
  { clear - Hown Hf. assert (H0 : binv a owner swap n evs ask async e s) by (by apply start_inv). induction k as [|k IH]; [done|]. cbn. by apply (brun_inv a owner swap n Hown). }
  set (s' := after R s k) in *.
  assert (En : bnxt s' = length evs) by (by apply (b_nxt _ _ _ _ _ _ _ _ _ HQ)).
  destruct (ball_done a owner swap n Hown evs ask async e s' HQ) as (V1 & V2 & V3); [intros t Ht; by apply Hd|].
  split_and!; try done.
  - destruct (b_seen _ _ _ _ _ _ _ _ _ HQ) as [_ Q]. rewrite Q by (left; congruence). unfold asked_upto. by rewrite En.
  - intros v. rewrite V3, En. f_equal. by rewrite firstn_all.
Qed.
End ends.
Arguments bfinale {a} _ _ _ _ _.

(** For the algorithms: among [N] vertices. *)
Definition binits_among {a : alg} (N : nat) (good : msg_t a -> Prop) (x : bactor a) : Prop :=
  match x with BThread _ (Loop (Do (SendInit v m))) => v < N /\ good m | _ => True end.
Lemma ballowed_among {a} N good (x : bactor a) : allowed x -> binits_among N good x.
Proof. destruct x as [| |t [| [|[]]| | |]|]; done. Qed.
Lemma bfrom_start {a} evs e sent0 : bfrom_evs a evs (bstart a e sent0).
Proof. intros t x [H|H]; by apply elem_of_nil in H. Qed.
Lemma bworks_among {a} owner swap n N okay good evs ask async verts e sent0 l :
  events_among N okay evs -> (forall x, x ∈ l -> binits_among (a := a) N good x) ->
  forall t c, (t, c) ∈ bworks a owner swap n evs ask async verts (bstart a e sent0) l -> change_among N okay good c.
Proof.
  intros Hev Hl t c Hin. apply (bworks_in a owner swap n evs ask async verts l) in Hin; [|apply bfrom_start]. destruct c as [| |v es|v gone|v m]; try done.
  - destruct Hin as [Hne Hx]. destruct es as [|[d x] es]; [done|]. split; [apply (Hev v d x), Hx, elem_of_list_here|]. intros d' x' Hd. destruct (Hev v d' x' (Hx _ Hd)) as (_ & ? & ?). done.
  - apply (Hl _ Hin).
Qed.
Lemma bfrom_run {a} owner swap n evs ask async verts l : forall s, bfrom_evs a evs s -> bfrom_evs a evs (brun a owner swap n evs ask async verts s l).
Proof. induction l as [|x l IH]; intros s H; [done|]. cbn. by apply IH, bfrom_step. Qed.
Lemma bworks_app {a} owner swap n evs ask async verts l1 l2 : forall s,
  bworks a owner swap n evs ask async verts s (l1 ++ l2) = bworks a owner swap n evs ask async verts s l1 ++ bworks a owner swap n evs ask async verts (brun a owner swap n evs ask async verts s l1) l2.
Proof. induction l1 as [|x l1 IH]; intros s; [done|]. cbn [bworks app]. by rewrite IH, app_assoc. Qed.
Lemma bafter_run a owner swap n evs ask async verts s0 sched R : (forall k, fair_turns a owner n evs verts (R k)) -> forall k,
  let s := brun a owner swap n evs ask async verts s0 sched in
  exists l, (after a owner swap n evs ask async verts R s k : bst a) = brun a owner swap n evs ask async verts s0 (sched ++ l) /\ (bfrom_evs a evs s0 -> quiet_work (bworks a owner swap n evs ask async verts s l)).
Proof.
  intros HR k s. assert (H : exists l, (after a owner swap n evs ask async verts R s k : bst a) = brun a owner swap n evs ask async verts s l /\ forall x, x ∈ l -> allowed x).
  { induction k as [|k (l & El & Hl)]; [exists []; split; [done|]; intros x H; by apply elem_of_nil in H|].
    exists (l ++ steps_of (R k)). cbn [BLive_Model.after]. rewrite El. split; [unfold brun; by rewrite fold_left_app|]. intros x [Hx|Hx]%elem_of_app; [by apply Hl|by apply (HR k)]. }
  destruct H as (l & El & Hl). exists l. split; [rewrite El; unfold s, brun; by rewrite fold_left_app|].
  intros Hf t v m Hin. apply (bworks_in a owner swap n evs ask async verts l) in Hin; [|by apply bfrom_run]. by apply Hl in Hin.
Qed.

(** Components.  The initial messages are those of the schedule so far; at the end every vertex
    that has had one has the smallest raw id of its component in the graph of all events. *)
Theorem C85_components owner n N swap evs ask async verts sched R raw : (forall v, owner v < n) -> events_among N (fun _ => True) evs ->
  let s0 := bstart cc (cc_start none) (fun _ => 0%N) in let s := brun cc owner swap n evs ask async verts s0 sched in
  let init := Min_Model.given owner (cc_start none) (bworks cc owner swap n evs ask async verts s0 sched) in
  (forall x, x ∈ sched -> binits_among N (fun _ => True) x) ->
  (forall v x, (v, x) ∈ init -> x = raw v /\ (raw v < 2 ^ 32)%N) ->
  (forall u v x, (v, x) ∈ out evs u -> (u, raw u) ∈ init /\ exists x', (u, x') ∈ out evs v) ->
  (forall k, fair_turns cc owner n evs verts (R k)) ->
  swap = true \/ (clears cc owner swap n evs ask async verts s0 sched /\ forall k, clears cc owner swap n evs ask async verts (after cc owner swap n evs ask async verts R s k) (steps_of (R k))) ->
  exists k, let s' := after cc owner swap n evs ask async verts R s k in bfinale n evs ask (cc_start none) s' /\
  forall v, (v, raw v) ∈ init ->
  (exists u, joined (out evs) u v /\ prop (eng (bwho s')) v = raw u) /\ forall u, joined (out evs) u v -> (prop (eng (bwho s')) v <= raw u)%N.
Proof.
  intros Hown Hev s0 s init Hin Hraw Hsym HR Hcl.
  assert (Hfr : fresh n (cc_start none) (fun _ => 0%N)) by (by apply fresh_start).
  assert (Hes : among N (fun _ : unit => True) none) by (intros u; split; [done|]; intros d e' H; by apply elem_of_nil in H).
  destruct (C85_ends cc owner swap n Hown evs ask async verts (cc_start none) (fun _ => 0%N) (binits_among N (fun _ => True)) sched R Hfr (ballowed_among N _) Hin) as (k & Hk); try done.
  { intros l Hl. rewrite bwork_run. apply (components_finite owner n N none); try done. by apply bworks_among. }
  exists k. cbv zeta. split; [done|]. fold s0 s in Hk. set (s' := after cc owner swap n evs ask async verts R s k) in *.
  destruct (bafter_run cc owner swap n evs ask async verts s0 sched R HR k) as (l & Es & El). fold s in Es. fold s' in Es. set (all := sched ++ l) in *.
  assert (Ei : Min_Model.given owner (cc_start none) (bworks cc owner swap n evs ask async verts s0 all) = init).
  { unfold all. rewrite bworks_app, given_app. fold s. fold init. rewrite <- (app_nil_r init) at 2. f_equal. apply no_given. apply El. apply bfrom_start. }
  destruct Hk as (_ & _ & _ & _ & _ & HI & _ & HE). clearbody s'.
  assert (HE' : forall v, edges (eng (bwho s')) v = out evs v) by (intros v; by rewrite HE).
  assert (Er : eng (bwho s') = erun cc owner (cc_start none) (bworks cc owner swap n evs ask async verts s0 all)) by (rewrite Es; by rewrite bwork_run).
  pose proof (C35_components owner n none (bworks cc owner swap n evs ask async verts s0 all) raw Hown) as HC. cbv zeta in HC. rewrite <- Er, Ei in HC.
  assert (HJ : forall u v, joined (edges (eng (bwho s'))) u v <-> joined (out evs) u v).
  { intros u v. split; induction 1; try constructor; econstructor; try done; by rewrite ?HE' in *. }
  intros v Hv. destruct HC with (v := v) as [(u & H1 & H2) H3]; try done.
  - intros t w gone Hx. by apply (bworks_in cc owner swap n evs ask async verts all s0 t _ (bfrom_start _ _ _)) in Hx.
  - intros u w x Hx. rewrite HE' in Hx. apply Hsym in Hx as [? (x' & ?)]. split; [done|]. exists x'. by rewrite HE'.
  - split; [exists u; by rewrite <- HJ|]. intros w Hw. apply H3. by apply HJ.
Qed.

(** Shortest paths, with weights and first values on a grid. *)
Theorem C85_shortest_paths top q owner n N swap (evs : list (nat * (nat * Qc))) ask async verts sched R : (forall v, owner v < n) -> on_grid q top -> events_among N (on_grid q) evs ->
  let A := sssp (fun x => x) top in let s00 := sssp_start (fun x => x) top (none (E := Qc)) in
  let s0 := bstart A s00 (fun _ => 0%N) in let s := brun A owner swap n evs ask async verts s0 sched in
  let init := Min_Model.given owner s00 (bworks A owner swap n evs ask async verts s0 sched) in
  (forall x, x ∈ sched -> binits_among (a := A) N (on_grid q) x) ->
  (forall k, fair_turns A owner n evs verts (R k)) ->
  swap = true \/ (clears A owner swap n evs ask async verts s0 sched /\ forall k, clears A owner swap n evs ask async verts (after A owner swap n evs ask async verts R s k) (steps_of (R k))) ->
  exists k, let s' := after A owner swap n evs ask async verts R s k in bfinale (a := A) n evs ask s00 s' /\
  forall v, (forall u x d, (u, x) ∈ init -> path (out evs) u v d -> prop (eng (bwho s')) v <= x + d)%Qc /\
  ((exists u x d, (u, x) ∈ init /\ path (out evs) u v d /\ prop (eng (bwho s')) v = (x + d)%Qc) \/ prop (eng (bwho s')) v = top).
Proof.
  intros Hown Htop Hev A s00 s0 s init Hin HR Hcl.
  assert (Hfr : fresh n s00 (fun _ => 0%N)) by (by apply fresh_start).
  assert (Hes : among N (on_grid q) (none (E := Qc))) by (intros u; split; [done|]; intros d e' H; by apply elem_of_nil in H).
  destruct (C85_ends A owner swap n Hown evs ask async verts s00 (fun _ => 0%N) (binits_among (a := A) N (on_grid q)) sched R Hfr (ballowed_among N _) Hin) as (k & Hk); try done.
  { intros l Hl. rewrite bwork_run. apply (shortest_finite (fun x => x) top owner n N (on_grid q) (on_grid q) (grid_rank q) none); try done; [intros w x Hw Hx; by apply grid_plus|intros x y; apply grid_lt|].
    by apply bworks_among. }
  exists k. cbv zeta. split; [done|]. fold s0 s in Hk. set (s' := after A owner swap n evs ask async verts R s k) in *.
  destruct (bafter_run A owner swap n evs ask async verts s0 sched R HR k) as (l & Es & El). fold s in Es. fold s' in Es. set (all := sched ++ l) in *.
  assert (Ei : Min_Model.given owner s00 (bworks A owner swap n evs ask async verts s0 all) = init).
  { unfold all. rewrite bworks_app, given_app. fold s. fold init. rewrite <- (app_nil_r init) at 2. f_equal. apply no_given. apply El. apply bfrom_start. }
  destruct Hk as (_ & _ & _ & _ & _ & HI & _ & HE). clearbody s'.
  assert (HE' : forall v, edges (eng (bwho s')) v = out evs v) by (intros w; by rewrite HE).
  assert (Er : eng (bwho s') = erun A owner s00 (bworks A owner swap n evs ask async verts s0 all)) by (rewrite Es; by rewrite bwork_run).
  assert (Hpos : forall u v w, (u, (v, w)) ∈ evs -> (0 <= w)%Qc). { intros u v w Hw. destruct (Hev u v w Hw) as (_ & _ & (m & ->)). unfold Qcle. cbn [Q2Qc this]. rewrite !Qred_correct. unfold Qle. cbn. lia. }
  pose proof (fun t c => bworks_in A owner swap n evs ask async verts all s0 t c (bfrom_start _ _ _)) as Hwk.
  assert (HP : forall u v d, path (edges (eng (bwho s'))) u v d <-> path (out evs) u v d).
  { intros u w d. split; induction 1; try constructor; econstructor; try done; by rewrite ?HE' in *. }
  intros v. pose proof (C36_shortest_paths top owner n (none (E := Qc)) (bworks A owner swap n evs ask async verts s0 all) Hown) as HC. cbv zeta in HC. fold A s00 in HC. rewrite <- Er in HC. rewrite <- Ei. clear Ei.
  destruct (HC) with (v := v) as [H1 H2]; try done.
  - intros t w gone H. by apply Hwk in H.
  - split; [intros u w x H; by apply elem_of_nil in H|]. intros t u l' w x H Hx. apply Hwk in H. eapply Hpos. by apply H.
  - split; [intros u x d Hx Hp; apply (H1 u x d); [done|by apply HP]|]. destruct H2 as [(u & x & d & ? & ? & ?)|]; [left|by right]. exists u, x, d. by rewrite <- HP.
Qed.

(** PageRank ends. *)
Theorem C85_ranks owner n N swap (evs : list (nat * (nat * unit))) ask async verts sched R : (forall v, owner v < n) -> events_among N (fun _ => True) evs ->
  let s0 := bstart ranking (rank_start none) (fun _ => 0%N) in let s := brun ranking owner swap n evs ask async verts s0 sched in
  (forall x, x ∈ sched -> binits_among (a := ranking) N (fun _ => True) x) ->
  (forall k, fair_turns ranking owner n evs verts (R k)) ->
  swap = true \/ (clears ranking owner swap n evs ask async verts s0 sched /\ forall k, clears ranking owner swap n evs ask async verts (after ranking owner swap n evs ask async verts R s k) (steps_of (R k))) ->
  exists k, bfinale (a := ranking) n evs ask (rank_start none) (after ranking owner swap n evs ask async verts R s k).
Proof.
  intros Hown Hev s0 s Hin HR Hcl.
  assert (Hfr : fresh n (rank_start none) (fun _ => 0%N)) by (by apply fresh_start).
  apply (C85_ends ranking owner swap n Hown evs ask async verts (rank_start none) (fun _ => 0%N) (binits_among (a := ranking) N (fun _ => True)) sched R Hfr (ballowed_among N _) Hin); try done.
  intros l Hl. rewrite bwork_run. apply (ranks_finite owner n N none); try done. split; [intros u; split; [done|]; intros d e' H; by apply elem_of_nil in H|].
  intros t c H. pose proof (bworks_among (a := ranking) owner swap n N (fun _ => True) (fun _ => True) evs ask async verts (rank_start none) (fun _ => 0%N) l Hev Hl t c H) as Hc. destruct c; try done.
  - destruct Hc as [? Hc]. split; [done|]. intros d e' Hd. by apply (Hc d e').
  - by destruct Hc.
Qed.

(** Concretely: components with two threads, as in C73_case, asked after every two events, all four
    vertices read by the finishing goroutine.  After a while every vertex has had its initial message; then
    the same round over and over brings the program to its end. *)
Definition bl_round : list (turn cc) :=
  TRemit :: TLog :: flat_map (fun t => map (TThread t) duties) [0; 1] ++ map (fun v => TThread (r_owner v) (Loop (Do (AddEdges v [])))) [0; 1; 2; 3] ++ map TRead [0; 1; 2; 3].
Definition bl_sched : list (bactor cc) := firstn 300 (bevery true) ++ map BFinisher [0; 1; 2; 3] ++ skipn 300 (firstn 575 (bevery true)).
Definition bl_s : bst cc := brun cc r_owner false 2 r_stream (ask_count 2) true [0; 1; 2; 3] b_s0 bl_sched.
Definition bgo_on (k : nat) : bst cc := after cc r_owner false 2 r_stream (ask_count 2) true [0; 1; 2; 3] (fun _ => bl_round) bl_s k.
Lemma bl_round_fair : fair_turns cc r_owner 2 r_stream [0; 1; 2; 3] bl_round.
Proof.
  split_and!.
  - assert (H : Forall allowed (steps_of bl_round)) by (repeat constructor). intros x Hx. rewrite list.Forall_forall in H. by apply H.
  - apply elem_of_list_here.
  - apply elem_of_list_further, elem_of_list_here.
  - intros t x Ht Hx. unfold bl_round. do 2 apply elem_of_list_further. apply elem_of_app. left. apply elem_of_list_In, in_flat_map. exists t. split; [cbn; lia|]. by apply in_map, elem_of_list_In.
  - intros v Hv. assert (Hv' : v ∈ [0; 1; 2; 3]) by (cbn in Hv; rewrite !elem_of_cons, elem_of_nil in *; intuition). unfold bl_round. do 2 apply elem_of_list_further. apply elem_of_app. right. apply elem_of_app. left.
    apply elem_of_list_In. by apply (in_map (fun v => TThread (r_owner v) (Loop (Do (AddEdges v [])))) [0; 1; 2; 3] v), elem_of_list_In.
  - intros v Hv. unfold bl_round. do 2 apply elem_of_list_further. apply elem_of_app. right. apply elem_of_app. right. apply elem_of_list_In. by apply (in_map TRead [0; 1; 2; 3] v), elem_of_list_In.
Qed.
Example C85_case :
  fair_turns cc r_owner 2 r_stream [0; 1; 2; 3] bl_round /\
  (bnxt bl_s = 5 /\ bseen bl_s = [2; 4] /\ brem bl_s = Streaming /\ fin bl_s = [0; 1; 2; 3]) /\ (bnxt (bgo_on 1) = 6 /\ bseen (bgo_on 1) = [2; 4] /\ brem (bgo_on 1) = Asked /\ fin (bgo_on 1) = []) /\
  (brem (bgo_on 20) = Finished /\ top (bgo_on 20) 0 = true) /\
  let s := bgo_on 140 in brem s = Finished /\ bseen s = [2; 4; 6] /\ fin s = [] /\ (forall t, t < 2 -> left (bwho s) t) /\ map (prop (eng (bwho s))) [0; 1; 2; 3] = [2; 2; 2; 2]%N.
Proof.
  split; [apply bl_round_fair|]. split; [split_and!; by vm_compute|]. split; [split_and!; by vm_compute|]. split; [split_and!; by vm_compute|]. cbv zeta. split_and!; [by vm_compute..| |by vm_compute].
  intros t Ht. destruct t as [|[|t]]; [by vm_compute..|lia].
Qed.

Print Assumptions C85_ends.
Print Assumptions C85_components.
Print Assumptions C85_shortest_paths.
Print Assumptions C85_ranks.
