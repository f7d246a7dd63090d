(** C88: on streams with deletions, too, every query is answered and the program ends. *)
From Verif Require Import Base RBO_Spec QcUtil Engine_Spec Engine_Model Engine_Proofs Engine_Shape Engine_Props.
From Verif Require Import Rank_Spec Rank_Model Rank_Proofs Rank_Run Rank_Wake Rank_Props Rank_Error Rank_Close RankRest_Props.
From Verif Require Import Rest_Spec Rest_Proofs Whole_Model Whole_Proofs Whole_Props QDel_Spec QDel_Model QDel_Lists QDel_Proofs QDel_Props QDLive_Model QDLive_Proofs.
From Verif Require Term_Model Term_Proofs Term_Live Colour_Spec Colour_Model Colour_Props Rest_Colour ColourRest_Props.
From Coq Require Import QArith Qcanon.
Open Scope nat_scope.

Section ends.
Context (a : alg) (owner : nat -> nat) (swap : bool) (n : nat) (Hown : forall v, owner v < n).
Context (evs : list (nat * change (edge_t a))) (ask : nat -> bool).
Notation qrun := (qrun a owner swap n evs ask).
Notation rounds := (rounds a owner swap n evs ask).
Notation clears := (clears a owner swap n evs ask).

(** The program is over: the stream has been read to its end, every query that was due has looked, all threads
    have left their loops, nothing is left for the algorithm; the graph is what all events leave, up to which of
    several parallel edges were deleted. *)
Definition finale (e : est a) (s : qst a) : Prop :=
  rem s = Finished /\ nxt s = length evs /\ seen s = List.filter ask (seq 1 (length evs)) /\
  (forall t, t < n -> left (who s) t /\ epoch s t = false /\ acked s t = false) /\
  idle (eng (who s)) /\ complete n (who s) = true /\
  forall v, (exists r, after (edges e v) (changes evs v) = Some r /\ same r (edges (eng (who s)) v)) /\ sublist (edges (eng (who s)) v) (edges e v ++ added (changes evs v)).

(** If the stream deletes only edges that are there: from wherever a schedule [sched] has led, with whatever
    it has sent as initial messages and however many queries are open or to come, fair rounds bring the program to its end. *)
Theorem C88_ends e sent0 (okay : actor a -> Prop) sched R : fresh n e sent0 ->
  (forall v, after (edges e v) (changes evs v) <> None) ->
  (forall x, allowed x -> okay x) -> (forall x, x ∈ sched -> okay x) ->
  let s0 := qstart a e sent0 in
  (forall l, (forall x, x ∈ l -> okay x) -> finite a owner (eng (who (qrun s0 l)))) ->
  let s := qrun s0 sched in
  (forall k, fair_turns a owner n evs (R k)) ->
  swap = true \/ (clears s0 sched /\ forall k, clears (rounds R s k) (steps_of (R k))) ->
  exists k, finale e (rounds R s k).
Proof.
  intros Hf Hval Hok Hs s0 Hfin s HR Hcl. pose proof Hf as (F1 & F2 & F3).
  assert (HS : forall l s, snd_ a swap n s -> swap = true \/ clears s l -> snd_ a swap n (qrun s l)).
  { induction l as [|x l IH]; intros s1 H1 H2; [done|]. cbn. apply IH; [apply sound_step; [done|]|]; (destruct H2 as [?|[? ?]]; [by left|by right]). }
  assert (HI : Inv a owner swap n evs ask e sent0 okay s).
  { split; [by exists sched|]. apply HS; [apply Term_Live.sound_start|]. destruct Hcl as [?|[? _]]; [by left|by right]. }
  assert (Hfin' : forall s, reach a owner swap n evs ask e sent0 okay s -> finite a owner (eng (who s))) by (intros s1 (l & Hl & ->); by apply Hfin).
  assert (HFR : fineR a owner swap n evs ask R s) by (intros k; destruct Hcl as [?|[_ H]]; [by left|right; apply H]).
  destruct (ev_over a owner swap n Hown evs ask e sent0 okay F1 F2 F3 Hval Hok Hfin' s HI R HR HFR) as (k & Hr & Hd). exists k.
  pose proof (inv_rounds a owner swap n evs ask e sent0 okay Hok R s k HI HR HFR) as [(l & Hl & El) _]. fold s0 in El. set (s' := rounds R s k) in *.
  assert (HQ : qinv a owner swap n evs ask e s') by (rewrite El; by apply (qrun_inv a owner swap n Hown), (qstart_inv a owner swap n Hown)).
  assert (En : nxt s' = length evs) by (by apply (q_nxt _ _ _ _ _ _ _ _ HQ)).
  assert (Hlook : looks n (qrun s0 l)). { right. rewrite <- El. intros t Ht. destruct (Hd t Ht) as (? & ? & _). by split. }
  destruct (C87_view a owner swap n Hown evs ask e sent0 l Hf Hlook) as (V1 & V2 & V3 & _). fold s0 in V1, V2, V3. rewrite <- El in V1, V2, V3. rewrite En, firstn_all in V3.
  split_and!; try done.
  - destruct (q_seen _ _ _ _ _ _ _ _ HQ) as [_ Q]. rewrite Q by (left; congruence). unfold asked_upto. by rewrite En.
Qed.

Lemma rounds_run s0 sched R k : exists l, (rounds R (qrun s0 sched) k : qst a) = qrun s0 (sched ++ l).
Proof.
  induction k as [|k (l & El)]; [exists []; by rewrite app_nil_r|]. exists (l ++ steps_of (R k)). cbn [QDLive_Model.rounds]. rewrite El. unfold QDel_Model.qrun. by rewrite (app_assoc sched l), (fold_left_app _ (sched ++ l)).
Qed.
End ends.
Arguments finale {a} _ _ _ _ _.

(** For the algorithms: among [N] vertices. *)
Definition inits_among {a : alg} (N : nat) (x : actor a) : Prop :=
  match x with Thread _ (Loop (Do (SendInit v m))) => v < N | _ => True end.
Definition events_among {E} (N : nat) (evs : list (nat * change E)) : Prop :=
  forall u c, (u, c) ∈ evs -> u < N /\ match c with Plus e => fst e < N | Minus _ => True end.
Lemma allowed_among {a} N (x : actor a) : allowed x -> inits_among N x.
Proof. destruct x as [| |t [| [|[]]| | |]]; done. Qed.

(** PageRank: ends, as near to the exact ranks of the graph that is left as in C55. *)
Theorem C88_ranks owner n N swap (evs : list (nat * change unit)) ask sched R graph : (forall v, owner v < n) -> events_among N evs ->
  (forall v, after [] (changes evs v) = Some (graph v)) ->
  let s0 := qstart ranking (rank_start none) (fun _ => 0%N) in let s := qrun ranking owner swap n evs ask s0 sched in
  (forall x, x ∈ sched -> inits_among (a := ranking) N x) ->
  (forall k, fair_turns ranking owner n evs (R k)) ->
  swap = true \/ (clears ranking owner swap n evs ask s0 sched /\ forall k, clears ranking owner swap n evs ask (rounds ranking owner swap n evs ask R s k) (steps_of (R k))) ->
  exists k l, let s' := rounds ranking owner swap n evs ask R s k in s' = qrun ranking owner swap n evs ask s0 (sched ++ l) /\
    finale (a := ranking) n evs ask (rank_start none) s' /\
    let work := qworks ranking owner swap n evs ask s0 (sched ++ l) in
    forall exact, (forall pre post, work = pre ++ post -> inexact (rank_run owner none pre)) ->
    exact_ranks DAMP N (fun w => map fst (graph w)) (Rank_Model.given owner (rank_start none) work) exact ->
    (qsum (fun v => qabs (mass (eng (who s')) v - exact v)) N <= inject_nat N * (EPS + EPS))%Qc.
Proof.
  intros Hown Hev Hg s0 s Hin HR Hcl.
  assert (Hfr : fresh n (rank_start none) (fun _ => 0%N)) by (by apply fresh_start).
  destruct (C88_ends ranking owner swap n Hown evs ask (rank_start none) (fun _ => 0%N) (inits_among (a := ranking) N) sched R Hfr) as (k & Hk); try done.
  { intros v. change (edges (rank_start none) v) with (@Datatypes.nil (nat * unit)). intros E. discriminate (eq_trans (eq_sym E) (Hg v)). }
  { apply allowed_among. }
  { intros l Hl. rewrite qwork_run. apply (ranks_finite owner n N none); try done. split; [intros u; split; [done|]; intros d e' H; by apply elem_of_nil in H|].
    intros t c H. pose proof (qworks_in ranking owner swap n evs ask l s0 t c (from_start _ _ _) H) as Hc. destruct c as [| |v es|v g|v m]; try done.
    - destruct Hc as [Hne Hx]. split; [|intros d e' Hd; by apply (Hev _ _ (Hx _ Hd))]. destruct es as [|x es]; [done|]. by apply (Hev v (Plus x)), Hx, elem_of_list_here.
    - destruct Hc as (d & Hd). by apply (Hev _ _ Hd).
    - by apply (Hl _ Hc). }
  exists k. destruct (rounds_run ranking owner swap n evs ask s0 sched R k) as (l & El). fold s in El. exists l. cbv zeta. split; [done|]. split; [done|]. intros exact Hx HX.
  fold s0 s in Hk. destruct Hk as (K1 & K2 & K3 & K4 & _). rewrite El in *.
  apply (C87_ranks owner n N swap evs ask (sched ++ l) graph exact); try done.
  - right. intros t Ht. destruct (K4 t Ht) as (? & ? & _). by split.
  - intros u c H. by apply (Hev u c).
  - fold s0. rewrite K2, firstn_all. done.
Qed.

(** Colouring: ends, and if what the stream leaves is undirected, with a proper colouring. *)
Notation col := Colour_Model.colouring.
Lemma adds_prefix owner n swap evs ask (e : est col) sent0 l u : exists r,
  added (changes evs u) = adds col u (qworks col owner swap n evs ask (qstart col e sent0) l) ++ r.
Proof.
  pose proof (adds_run col owner swap n evs ask u l (qstart col e sent0) [] eq_refl) as H. cbn [app] in H. set (s := qrun _ _ _ _ _ _ _ l) in *.
  exists (pend col owner u s ++ added (changes (skipn (nxt s) evs) u)).
  rewrite app_assoc. rewrite H. rewrite <- added_app, <- changes_app, (firstn_skipn (nxt s) evs). done.
Qed.
Theorem C88_colouring owner n swap (evs : list (nat * change nat)) ask sched R graph b f top K : (forall v, owner v < n) ->
  let e := estart col (fun v => replicate (b v) Colour_Model.EMPTY_VAL) (fun _ => Colour_Model.new_prop) none in
  let s0 := qstart col e (fun _ => 0%N) in let s := qrun col owner swap n evs ask s0 sched in
  ColourRest_Props.col_graph top K f b (fun v => added (changes evs v)) ->
  (forall v, after [] (changes evs v) = Some (graph v)) ->
  (forall k, fair_turns col owner n evs (R k)) ->
  swap = true \/ (clears col owner swap n evs ask s0 sched /\ forall k, clears col owner swap n evs ask (rounds col owner swap n evs ask R s k) (steps_of (R k))) ->
  exists k, let s' := rounds col owner swap n evs ask R s k in finale (a := col) n evs ask e s' /\
    (Colour_Spec.undirected graph -> Colour_Spec.proper graph (fun v => fst (prop (eng (who s')) v))).
Proof.
  intros Hown e s0 s HG Hg HR Hcl. destruct HG as (HK & HU & HP & Hf & HL & Hlow).
  assert (Hfr : fresh n e (fun _ => 0%N)) by (by apply fresh_start).
  destruct (C88_ends col owner swap n Hown evs ask e (fun _ => 0%N) (fun _ => True) sched R Hfr) as (k & Hk); try done.
  { intros v. change (edges e v) with (@Datatypes.nil (nat * nat)). intros E. discriminate (eq_trans (eq_sym E) (Hg v)). }
  { intros l _. rewrite qwork_run. fold s0. set (work := qworks col owner swap n evs ask s0 l).
    apply (ColourRest_Props.colouring_finite owner n b none work f top K); [done|].
    assert (Hpre : forall u, exists r, added (changes evs u) = Colour_Model.ever none work u ++ r) by (intros u; apply (adds_prefix owner n swap evs ask e (fun _ => 0%N) l u)).
    clearbody work. assert (Hsub : forall u x, x ∈ Colour_Model.ever none work u -> x ∈ added (changes evs u)) by (intros u x Hx; destruct (Hpre u) as (r & ->); apply elem_of_app; by left).
    split_and!; try done.
    - intros u1 u2 i1 i2 x H1 H2. destruct (Hpre u1) as (r1 & E1), (Hpre u2) as (r2 & E2). apply (HU u1 u2 i1 i2 x); [rewrite E1|rewrite E2]; by apply lookup_app_l_Some.
    - intros u v p H. by apply (HP u v p), Hsub.
    - intros u v p H. by apply (HL u v p), Hsub.
    - intros u Hu. destruct (Hpre u) as (r & E). rewrite Hlow in E by done. symmetry in E. by apply app_eq_nil in E as [-> _]. }
  exists k. cbv zeta. split; [done|]. intros Hund.
  destruct (rounds_run col owner swap n evs ask s0 sched R k) as (l & El). fold s in El. fold s0 s in Hk.
  destruct Hk as (K1 & K2 & K3 & K4 & _). rewrite El in K2, K4. set (s' := rounds col owner swap n evs ask R s k) in *.
  pose proof (C87_colouring owner n swap evs ask (sched ++ l) graph b f K Hown HK) as HC. cbv zeta in HC. fold e in HC. fold s0 in HC.
  assert (Es : qrun col owner swap n evs ask s0 (sched ++ l) = s') by (symmetry; exact El). rewrite Es in HC, K2, K4. rewrite K2, firstn_all in HC. apply HC; try done.
  right. intros t Ht. destruct (K4 t Ht) as (? & ? & _). by split.
Qed.

(** Concretely: the triangle of C87_case on two threads, asked after every two events.  After a while, when every vertex
    has had its initial message, the same round over and over brings the program to its end. *)
Definition l_round : list (turn col) :=
  TRemit :: TLog :: flat_map (fun t => map (TThread t) duties) [0; 1] ++
  flat_map (fun v => [TThread (r_owner 2 v) (Loop (Do (AddEdges (a := col) v []))); TThread (r_owner 2 v) (Loop (Do (DelEdges (a := col) v [])))]) [0; 1; 2].
Definition l_sched : list (actor col) := firstn 1300 (all_steps 2 1 tri Nat.even 60).
Definition l_s : qst col := qrun col (r_owner 2) false 2 tri Nat.even r_s0 l_sched.
Definition go_on (k : nat) : qst col := rounds col (r_owner 2) false 2 tri Nat.even (fun _ => l_round) l_s k.
Lemma l_round_fair : fair_turns col (r_owner 2) 2 tri l_round.
Proof.
  split_and!.
  - assert (H : Forall allowed (steps_of l_round)) by (repeat constructor). intros x Hx. rewrite list.Forall_forall in H. by apply H.
  - apply elem_of_list_here.
  - apply elem_of_list_further, elem_of_list_here.
  - intros t x Ht Hx. unfold l_round. do 2 apply elem_of_list_further. apply elem_of_app. left. apply elem_of_list_In, in_flat_map. exists t. split; [cbn; lia|]. by apply in_map, elem_of_list_In.
  - intros v Hv. assert (Hv' : v ∈ [0; 1; 2]) by (cbn in Hv; rewrite !elem_of_cons, elem_of_nil in *; intuition).
    unfold l_round. split; do 2 apply elem_of_list_further; apply elem_of_app; right; apply elem_of_list_In, in_flat_map; exists v; (split; [by apply elem_of_list_In|cbn; tauto]).
Qed.
Example C88_case :
  fair_turns col (r_owner 2) 2 tri l_round /\ (forall v, after [] (changes tri v) <> None) /\
  (nxt l_s = 4 /\ seen l_s = [2] /\ rem l_s = Asked) /\ (nxt (go_on 150) = 8 /\ seen (go_on 150) = [2; 4; 6] /\ rem (go_on 150) = Asked) /\
  let s := go_on 250 in rem s = Finished /\ seen s = [2; 4; 6; 8] /\ (forall t, t < 2 -> left (who s) t) /\
    map (fun v => fst (prop (eng (who s)) v)) [0; 1; 2] = [0; 1; 1]%N /\ map (edges (eng (who s))) [0; 1; 2] = [[(1, 0); (2, 1)]; [(0, 0)]; [(0, 1)]].
Proof.
  split; [apply l_round_fair|]. split; [by intros [|[|[|v]]]|]. split; [split_and!; by vm_compute|]. split; [split_and!; by vm_compute|]. cbv zeta. split_and!; [by vm_compute..| |by vm_compute|by vm_compute].
  intros t Ht. destruct t as [|[|t]]; [by vm_compute..|lia].
Qed.

Print Assumptions C88_ends.
Print Assumptions C88_ranks.
Print Assumptions C88_colouring.
