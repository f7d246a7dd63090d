(** C75: every query is answered and the program with queries ends. *)
From Verif Require Import Base RBO_Spec QcUtil Engine_Spec Engine_Model Engine_Proofs Engine_Shape Engine_Props Min_Spec Min_Model Min_Proofs Min_Props.
From Verif Require Import Rank_Spec Rank_Model Rank_Proofs Rank_Run Rank_Wake Rank_Props Rank_Error Rank_Close RankRest_Props.
From Verif Require Import Rest_Spec Rest_Proofs Rest_Props Whole_Model Whole_Proofs Whole_Props Query_Spec Query_Model Query_Proofs Query_Props QLive_Model QLive_Proofs.
From Verif Require Term_Model Term_Proofs Term_Live.
From Coq Require Import QArith Qcanon.
Open Scope nat_scope.

Section ends.
Context (a : alg) (owner : nat -> nat) (swap : bool) (n : nat) (Hown : forall v, owner v < n).
Context (evs : list (nat * (nat * edge_t a))) (ask : nat -> bool).
Notation qrun := (qrun a owner swap n evs ask).
Notation after := (after a owner swap n evs ask).
Notation clears := (clears a owner swap n evs ask).

(** The program is over: the stream has been read to its end, every query that was due has
    looked, all threads have left their loops and nothing is left for the algorithm. *)
Definition finale (e : est a) (s : qst a) : Prop :=
  rem s = Finished /\ nxt s = length evs /\ seen s = List.filter ask (seq 1 (length evs)) /\
  (forall t, t < n -> left (who s) t /\ epoch s t = false /\ acked s t = false) /\
  idle (eng (who s)) /\ complete n (who s) = true /\ forall v, edges (eng (who s)) v = edges e v ++ out evs v.

(** From wherever a schedule [sched] has led, with whatever it has sent as initial messages and
    however many queries are open or to come, fair rounds bring the program to its end. *)
Theorem C75_ends e sent0 (okay : actor a -> Prop) sched R : fresh n e sent0 ->
  (forall x, allowed x -> okay x) -> (forall x, x ∈ sched -> okay x) ->
  let s0 := qstart a e sent0 in
  (forall l, (forall x, x ∈ l -> okay x) -> finite a owner (eng (who (qrun s0 l)))) ->
  let s := qrun s0 sched in
  (forall k, fair_turns a owner n evs (R k)) ->
  swap = true \/ (clears s0 sched /\ forall k, clears (after R s k) (steps_of (R k))) ->
  exists k, finale e (after R s k).
Proof.
  intros Hf Hok Hs s0 Hfin s HR Hcl. pose proof Hf as (F1 & F2 & F3).
  assert (HS : forall l s, snd_ a swap n s -> swap = true \/ clears s l -> snd_ a swap n (qrun s l)).
  { induction l as [|x l IH]; intros s1 H1 H2; [done|]. cbn. apply IH; [apply sound_step; [done|]|]; (destruct H2 as [?|[? ?]]; [by left|by right]). }
  assert (HI : Inv a owner swap n evs ask e sent0 okay s).
  { split; [by exists sched|]. apply HS; [apply Term_Live.sound_start|]. destruct Hcl as [?|[? _]]; [by left|by right]. }
  assert (Hfin' : forall s, reach a owner swap n evs ask e sent0 okay s -> finite a owner (eng (who s))) by (intros s1 (l & Hl & ->); by apply Hfin).
  assert (HFR : fineR a owner swap n evs ask R s) by (intros k; destruct Hcl as [?|[_ H]]; [by left|right; apply H]).
  destruct (ev_over a owner swap n Hown evs ask e sent0 okay F1 F2 F3 Hok Hfin' s HI R HR HFR) as (k & Hr & Hd). exists k.
  pose proof (inv_after a owner swap n evs ask e sent0 okay Hok R s k HI HR HFR) as [(l & Hl & El) _]. fold s0 in El. set (s' := after R s k) in *.
  assert (HQ : qinv a owner swap n evs ask e s') by (rewrite El; by apply (qrun_inv a owner swap n Hown), (qstart_inv a owner swap n Hown)).
  assert (En : nxt s' = length evs) by (by apply (q_nxt _ _ _ _ _ _ _ _ HQ)).
  assert (Hlook : looks n (qrun s0 l)). { right. rewrite <- El. intros t Ht. destruct (Hd t Ht) as (? & ? & _). by split. }
  destruct (C62_view a owner swap n Hown evs ask e sent0 l Hf Hlook) as (V1 & V2 & V3 & _). fold s0 in V1, V2, V3. rewrite <- El in V1, V2, V3.
  split_and!; try done.
  - destruct (q_seen _ _ _ _ _ _ _ _ HQ) as [_ Q]. rewrite Q by (left; congruence). unfold asked_upto. by rewrite En.
  - intros v. rewrite V3, En. f_equal. by rewrite firstn_all.
Qed.
End ends.
Arguments finale {a} _ _ _ _ _.

(** For the algorithms: among [N] vertices. *)
Definition inits_among {a : alg} (N : nat) (good : msg_t a -> Prop) (x : actor a) : Prop :=
  match x with Thread _ (Loop (Do (SendInit v m))) => v < N /\ good m | _ => True end.
Definition events_among {E} (N : nat) (okay : E -> Prop) (evs : list (nat * (nat * E))) : Prop :=
  forall u v x, (u, (v, x)) ∈ evs -> u < N /\ v < N /\ okay x.
Lemma allowed_among {a} N good (x : actor a) : allowed x -> inits_among N good x.
Proof. destruct x as [| |t [| [|[]]| | |]]; done. Qed.
Lemma works_among {a} owner swap n N okay good evs ask e sent0 l :
  events_among N okay evs -> (forall x, x ∈ l -> inits_among (a := a) N good x) ->
  forall t c, (t, c) ∈ qworks a owner swap n evs ask (qstart a e sent0) l -> change_among N okay good c.
Proof.
  intros Hev Hl t c Hin. apply (qworks_in a owner swap n evs ask l) in Hin; [|apply from_start]. destruct c as [| |v es|v gone|v m]; try done.
  - destruct Hin as [Hne Hx]. destruct es as [|[d x] es]; [done|]. split; [apply (Hev v d x), Hx, elem_of_list_here|]. intros d' x' Hd. destruct (Hev v d' x' (Hx _ Hd)) as (_ & ? & ?). done.
  - apply (Hl _ Hin).
Qed.

Lemma from_run {a} owner swap n evs ask l : forall s, from_evs a evs s -> from_evs a evs (qrun a owner swap n evs ask s l).
Proof. induction l as [|x l IH]; intros s H; [done|]. cbn. by apply IH, from_step. Qed.
Lemma qworks_app {a} owner swap n evs ask l1 l2 : forall s,
  qworks a owner swap n evs ask s (l1 ++ l2) = qworks a owner swap n evs ask s l1 ++ qworks a owner swap n evs ask (qrun a owner swap n evs ask s l1) l2.
Proof. induction l1 as [|x l1 IH]; intros s; [done|]. cbn [qworks app]. by rewrite IH, app_assoc. Qed.
Definition quiet_work {a : alg} (l : list (nat * choice a)) : Prop := forall t v m, (t, SendInit v m) ∉ l.
Lemma after_run a owner swap n evs ask s0 sched R : (forall k, fair_turns a owner n evs (R k)) -> forall k,
  let s := qrun a owner swap n evs ask s0 sched in
  exists l, (after a owner swap n evs ask R s k : qst a) = qrun a owner swap n evs ask s0 (sched ++ l) /\ (from_evs a evs s0 -> quiet_work (qworks a owner swap n evs ask s l)).
Proof.
  intros HR k s. assert (H : exists l, (after a owner swap n evs ask R s k : qst a) = qrun a owner swap n evs ask s l /\ forall x, x ∈ l -> allowed x).
  { induction k as [|k (l & El & Hl)]; [exists []; split; [done|]; intros x H; by apply elem_of_nil in H|].
    exists (l ++ steps_of (R k)). cbn [QLive_Model.after]. rewrite El. split; [unfold qrun; by rewrite fold_left_app|]. intros x [Hx|Hx]%elem_of_app; [by apply Hl|by apply (HR k)]. }
  destruct H as (l & El & Hl). exists l. split; [rewrite El; unfold s, qrun; by rewrite fold_left_app|].
  intros Hf t v m Hin. apply (qworks_in a owner swap n evs ask l) in Hin; [|by apply from_run]. by apply Hl in Hin.
Qed.
Lemma no_given {a} owner (w : list (nat * choice a)) : quiet_work w -> forall e, Min_Model.given owner e w = [].
Proof.
  induction w as [|[t c] w IH]; intros Hno e; [done|]. cbn [Min_Model.given]. rewrite IH by (intros t' v m H; apply (Hno t' v m); by apply elem_of_list_further).
  unfold given_at. destruct (todo e t); destruct c as [| | | |v m]; try done; destruct (Hno t v m); apply elem_of_list_here.
Qed.

(** Components.  The initial messages are those of the schedule so far; at the end every vertex
    that has had one has the smallest raw id of its component in the graph of all events. *)
Theorem C75_components owner n N swap evs ask sched R raw : (forall v, owner v < n) -> events_among N (fun _ => True) evs ->
  let s0 := qstart cc (cc_start none) (fun _ => 0%N) in let s := qrun cc owner swap n evs ask s0 sched in
  let init := Min_Model.given owner (cc_start none) (qworks cc owner swap n evs ask s0 sched) in
  (forall x, x ∈ sched -> inits_among N (fun _ => True) x) ->
  (forall v x, (v, x) ∈ init -> x = raw v /\ (raw v < 2 ^ 32)%N) ->
  (forall u v x, (v, x) ∈ out evs u -> (u, raw u) ∈ init /\ exists x', (u, x') ∈ out evs v) ->
  (forall k, fair_turns cc owner n evs (R k)) ->
  swap = true \/ (clears cc owner swap n evs ask s0 sched /\ forall k, clears cc owner swap n evs ask (after cc owner swap n evs ask R s k) (steps_of (R k))) ->
  exists k, let s' := after cc owner swap n evs ask R s k in finale n evs ask (cc_start none) s' /\
  forall v, (v, raw v) ∈ init ->
  (exists u, joined (out evs) u v /\ prop (eng (who s')) v = raw u) /\ forall u, joined (out evs) u v -> (prop (eng (who s')) v <= raw u)%N.
Proof.
  intros Hown Hev s0 s init Hin Hraw Hsym HR Hcl.
  assert (Hfr : fresh n (cc_start none) (fun _ => 0%N)) by (by apply fresh_start).
  assert (Hes : among N (fun _ : unit => True) none) by (intros u; split; [done|]; intros d e' H; by apply elem_of_nil in H).
  destruct (C75_ends cc owner swap n Hown evs ask (cc_start none) (fun _ => 0%N) (inits_among N (fun _ => True)) sched R Hfr (allowed_among N _) Hin) as (k & Hk); try done.
  { intros l Hl. rewrite qwork_run. apply (components_finite owner n N none); try done. by apply works_among. }
  exists k. cbv zeta. split; [done|]. fold s0 s in Hk. set (s' := after cc owner swap n evs ask R s k) in *.
  destruct (after_run cc owner swap n evs ask s0 sched R HR k) as (l & Es & El). fold s in Es. fold s' in Es. set (all := sched ++ l) in *.
  assert (Ei : Min_Model.given owner (cc_start none) (qworks cc owner swap n evs ask s0 all) = init).
  { unfold all. rewrite qworks_app, given_app. fold s. fold init. rewrite <- (app_nil_r init) at 2. f_equal. apply no_given. apply El. apply from_start. }
  pose proof (C62_components owner n swap evs ask all raw Hown) as HC. cbv zeta in HC. fold s0 in HC. rewrite Ei, <- Es in HC. destruct Hk as (K1 & K2 & _ & K4 & _). rewrite K2, firstn_all in HC. apply HC; try done.
  right. intros t Ht. destruct (K4 t Ht) as (? & ? & _). by split.
Qed.

(** Shortest paths, with weights and first values on a grid. *)
Theorem C75_shortest_paths top q owner n N swap (evs : list (nat * (nat * Qc))) ask sched R : (forall v, owner v < n) -> on_grid q top -> events_among N (on_grid q) evs ->
  let A := sssp (fun x => x) top in let s00 := sssp_start (fun x => x) top (none (E := Qc)) in
  let s0 := qstart A s00 (fun _ => 0%N) in let s := qrun A owner swap n evs ask s0 sched in
  let init := Min_Model.given owner s00 (qworks A owner swap n evs ask s0 sched) in
  (forall x, x ∈ sched -> inits_among (a := A) N (on_grid q) x) ->
  (forall k, fair_turns A owner n evs (R k)) ->
  swap = true \/ (clears A owner swap n evs ask s0 sched /\ forall k, clears A owner swap n evs ask (after A owner swap n evs ask R s k) (steps_of (R k))) ->
  exists k, let s' := after A owner swap n evs ask R s k in finale (a := A) n evs ask s00 s' /\
  forall v, (forall u x d, (u, x) ∈ init -> path (out evs) u v d -> prop (eng (who s')) v <= x + d)%Qc /\
  ((exists u x d, (u, x) ∈ init /\ path (out evs) u v d /\ prop (eng (who s')) v = (x + d)%Qc) \/ prop (eng (who s')) v = top).
Proof.
  intros Hown Htop Hev A s00 s0 s init Hin HR Hcl.
  assert (Hfr : fresh n s00 (fun _ => 0%N)) by (by apply fresh_start).
  assert (Hes : among N (on_grid q) (none (E := Qc))) by (intros u; split; [done|]; intros d e' H; by apply elem_of_nil in H).
  destruct (C75_ends A owner swap n Hown evs ask s00 (fun _ => 0%N) (inits_among (a := A) N (on_grid q)) sched R Hfr (allowed_among N _) Hin) as (k & Hk); try done.
  { intros l Hl. rewrite qwork_run. apply (shortest_finite (fun x => x) top owner n N (on_grid q) (on_grid q) (grid_rank q) none); try done; [intros w x Hw Hx; by apply grid_plus|intros x y; apply grid_lt|].
    by apply works_among. }
  exists k. cbv zeta. split; [done|]. fold s0 s in Hk. set (s' := after A owner swap n evs ask R s k) in *.
  destruct (after_run A owner swap n evs ask s0 sched R HR k) as (l & Es & El). fold s in Es. fold s' in Es. set (all := sched ++ l) in *.
  assert (Ei : Min_Model.given owner s00 (qworks A owner swap n evs ask s0 all) = init).
  { unfold all. rewrite qworks_app, given_app. fold s. fold init. rewrite <- (app_nil_r init) at 2. f_equal. apply no_given. apply El. apply from_start. }
  change (s' = qrun A owner swap n evs ask s0 all) in Es. destruct Hk as (K1 & K2 & _ & K4 & _).
  assert (Hlook : looks n (qrun A owner swap n evs ask s0 all)). { right. rewrite <- Es. intros t Ht. destruct (K4 t Ht) as (? & ? & _). by split. }
  assert (Hpos : forall u v w, (u, (v, w)) ∈ evs -> (0 <= w)%Qc). { intros u v w Hw. destruct (Hev u v w Hw) as (_ & _ & (m & ->)). unfold Qcle. cbn [Q2Qc this]. rewrite !Qred_correct. unfold Qle. cbn. lia. }
  intros v. destruct (C62_shortest_paths top owner n swap evs ask all Hown Hlook Hpos v) as [H1 H2].
  assert (Hpath : forall u d, path (out evs) u v d <-> path (out (firstn (nxt (qrun A owner swap n evs ask s0 all)) evs)) u v d).
  { intros u d. rewrite <- Es, K2, firstn_all. done. }
  rewrite Es. rewrite <- Ei. split.
  - intros u x d Hx Hp. apply (H1 u x d); [exact Hx|]. apply Hpath. exact Hp.
  - destruct H2 as [(u & x & d & Hx & Hp & E)|E]; [left|right; exact E]. exists u, x, d. split; [exact Hx|]. split; [apply Hpath; exact Hp|exact E].
Qed.

(** PageRank ends; what it ends with is C62_ranks. *)
Theorem C75_ranks owner n N swap (evs : list (nat * (nat * unit))) ask sched R : (forall v, owner v < n) -> events_among N (fun _ => True) evs ->
  let s0 := qstart ranking (rank_start none) (fun _ => 0%N) in let s := qrun ranking owner swap n evs ask s0 sched in
  (forall x, x ∈ sched -> inits_among (a := ranking) N (fun _ => True) x) ->
  (forall k, fair_turns ranking owner n evs (R k)) ->
  swap = true \/ (clears ranking owner swap n evs ask s0 sched /\ forall k, clears ranking owner swap n evs ask (after ranking owner swap n evs ask R s k) (steps_of (R k))) ->
  exists k, finale (a := ranking) n evs ask (rank_start none) (after ranking owner swap n evs ask R s k).
Proof.
  intros Hown Hev s0 s Hin HR Hcl.
  assert (Hfr : fresh n (rank_start none) (fun _ => 0%N)) by (by apply fresh_start).
  apply (C75_ends ranking owner swap n Hown evs ask (rank_start none) (fun _ => 0%N) (inits_among (a := ranking) N (fun _ => True)) sched R Hfr (allowed_among N _) Hin); try done.
  intros l Hl. rewrite qwork_run. apply (ranks_finite owner n N none); try done. split; [intros u; split; [done|]; intros d e' H; by apply elem_of_nil in H|].
  intros t c H. pose proof (works_among (a := ranking) owner swap n N (fun _ => True) (fun _ => True) evs ask (rank_start none) (fun _ => 0%N) l Hev Hl t c H) as Hc. destruct c; try done.
  - destruct Hc as [? Hc]. split; [done|]. intros d e' Hd. by apply (Hc d e').
  - by destruct Hc.
Qed.

(** Concretely: components with two threads, as in C62_case, asked after every two events.  After
    a while, when every vertex has had its initial message (the fifth event is out, one query is
    open and one is to come), the same round over and over brings the program to its end. *)
Definition l_round : list (turn cc) :=
  TRemit :: TLog :: flat_map (fun t => map (TThread t) duties) [0; 1] ++ map (fun v => TThread (r_owner v) (Loop (Do (AddEdges v [])))) [0; 1; 2; 3].
Definition l_sched : list (actor cc) := firstn 1769 (every (ask_count 2)).
Definition l_s : qst cc := qrun cc r_owner false 2 r_stream (ask_count 2) r_s0 l_sched.
Definition go_on (k : nat) : qst cc := after cc r_owner false 2 r_stream (ask_count 2) (fun _ => l_round) l_s k.
Lemma l_round_fair : fair_turns cc r_owner 2 r_stream l_round.
Proof.
  split_and!.
  - assert (H : Forall allowed (steps_of l_round)) by (repeat constructor). intros x Hx. rewrite list.Forall_forall in H. by apply H.
  - apply elem_of_list_here.
  - apply elem_of_list_further, elem_of_list_here.
  - intros t x Ht Hx. unfold l_round. do 2 apply elem_of_list_further. apply elem_of_app. left. apply elem_of_list_In, in_flat_map. exists t. split; [cbn; lia|]. by apply in_map, elem_of_list_In.
  - intros v Hv. assert (Hv' : v ∈ [0; 1; 2; 3]) by (cbn in Hv; rewrite !elem_of_cons, elem_of_nil in *; intuition). unfold l_round. do 2 apply elem_of_list_further. apply elem_of_app. right.
    apply elem_of_list_In. by apply (in_map (fun v => TThread (r_owner v) (Loop (Do (AddEdges v [])))) [0; 1; 2; 3] v), elem_of_list_In.
Qed.
Example C75_case :
  fair_turns cc r_owner 2 r_stream l_round /\
  (nxt l_s = 5 /\ seen l_s = [2; 4] /\ rem l_s = Streaming) /\ (nxt (go_on 40) = 6 /\ seen (go_on 40) = [2; 4] /\ rem (go_on 40) = Asked) /\
  let s := go_on 140 in rem s = Finished /\ seen s = [2; 4; 6] /\ (forall t, t < 2 -> left (who s) t) /\ map (prop (eng (who s))) [0; 1; 2; 3] = [2; 2; 2; 2]%N.
Proof.
  split; [apply l_round_fair|]. split; [split_and!; by vm_compute|]. split; [split_and!; by vm_compute|]. cbv zeta. split_and!; [by vm_compute..| |by vm_compute].
  intros t Ht. destruct t as [|[|t]]; [by vm_compute..|lia].
Qed.

Print Assumptions C75_ends.
Print Assumptions C75_components.
Print Assumptions C75_shortest_paths.
Print Assumptions C75_ranks.
