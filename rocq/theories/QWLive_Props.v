(** C91: with sliding windows, too, every query is answered and the program ends. *)
From Verif Require Import Base RBO_Spec QcUtil Engine_Spec Engine_Model Engine_Proofs Engine_Shape Engine_Props.
From Verif Require Import Rank_Spec Rank_Model Rank_Proofs Rank_Run Rank_Wake Rank_Props Rank_Error Rank_Close RankRest_Props.
From Verif Require Import Rest_Spec Rest_Proofs Whole_Model Whole_Proofs Whole_Props QDel_Spec QDel_Model QDel_Lists QDel_Proofs QDel_Props QDLive_Model.
From Verif Require Import QWin_Spec QWin_Model QWin_Proofs QWin_Timed QWin_Props QWLive_Model QWLive_Proofs.
From Verif Require Term_Model Term_Proofs Term_Live.
From Coq Require Import QArith Qcanon.
Open Scope nat_scope.

Section ends.
Context (a : alg) (owner : nat -> nat) (swap : bool) (n : nat) (Hown : forall v, owner v < n).
Context (evs : list (nat * (nat * edge_t a))) (ask : nat -> bool) (ts : edge_t a -> N) (W : N).
Notation xrun := (xrun a owner swap n evs ask ts W).
Notation xrounds := (xrounds a owner swap n evs ask ts W).
Notation xclears := (xclears a owner swap n evs ask ts W).

(** The program is over: the stream has been read to its end, every query that was due has looked, all threads
    have left their loops, nothing is left for the algorithm; of the edges of a vertex those are left that are young at the
    time of the last event of its thread. *)
Definition wfinale (s : qst a) : Prop :=
  rem s = Finished /\ nxt s = length evs /\ seen s = List.filter ask (seq 1 (length evs)) /\
  (forall t, t < n -> left (who s) t /\ epoch s t = false /\ acked s t = false) /\
  idle (eng (who s)) /\ complete n (who s) = true /\
  forall v, edges (eng (who s)) v = window ts W (clock ts (of_thread owner (owner v) evs)) (outs v evs).

(** If times never go back: from wherever a schedule [sched] has led, with whatever
    it has sent as initial messages and however many queries are open or to come, fair rounds bring the program to its end. *)
Theorem C91_ends e sent0 (okay : actor a -> Prop) sched R : fresh n e sent0 -> (forall v, edges e v = []) -> rising ts evs ->
  (forall x, allowed x -> okay x) -> (forall x, x ∈ sched -> okay x) ->
  let s0 := xstart a e sent0 in
  (forall l, (forall x, x ∈ l -> okay x) -> finite a owner (eng (who (base (xrun s0 l))))) ->
  let s := xrun s0 sched in
  (forall k, fair_turns a owner n (plus a evs) (R k)) ->
  swap = true \/ (xclears s0 sched /\ forall k, xclears (xrounds R s k) (steps_of (R k))) ->
  exists k, wfinale (base (xrounds R s k)).
Proof using All.
  intros Hf He Hup Hok Hs s0 Hfin s HR Hcl. pose proof Hf as (F1 & F2 & F3).
  assert (HS : forall l s, snd_ a swap n s -> swap = true \/ xclears s l -> snd_ a swap n (xrun s l)).
  { induction l as [|x l IH]; intros s1 H1 H2; [done|]. cbn. apply IH; [apply sound_step; [done|]|]; (destruct H2 as [?|[? ?]]; [by left|by right]). }
  assert (HI : Inv a owner swap n evs ask ts W e sent0 okay s).
  { split; [by exists sched|]. apply HS; [apply Term_Live.sound_start|]. destruct Hcl as [?|[? _]]; [by left|by right]. }
  assert (Hfin' : forall s : xst a, reach a owner swap n evs ask ts W e sent0 okay s -> finite a owner (eng (who s))) by (intros s1 (l & Hl & ->); by apply Hfin).
  assert (HFR : fineR a owner swap n evs ask ts W R s) by (intros k; destruct Hcl as [?|[_ H]]; [by left|right; apply H]).
  destruct (ev_over a owner swap n Hown evs ask ts W e sent0 okay F1 F2 F3 He Hup Hok Hfin' s HI R HR HFR) as (k & Hr & Hd). exists k.
  pose proof (inv_rounds a owner swap n evs ask ts W e sent0 okay Hok R s k HI HR HFR) as [HRe _]. pose proof HRe as (l & Hl & El). fold s0 in El. set (s' := xrounds R s k) in *.
  assert (HQ : core a swap n (plus a evs) ask s') by (by apply (reach_inv a owner swap n Hown evs ask ts W e sent0 okay)).
  assert (En : nxt s' = length evs). { rewrite <- (map_length (fun x : nat * (nat * edge_t a) => (fst x, Plus (snd x))) evs). by apply (c_nxt _ _ _ _ _ _ HQ). }
  assert (Hlook : looks n (base (xrun s0 l))). { right. rewrite <- El. intros t Ht. destruct (Hd t Ht) as (? & ? & _). by split. }
  destruct (C90_view a owner swap n Hown evs ask ts W Hup e sent0 l Hf He Hlook) as (V1 & V2 & V3 & _). fold s0 in V1, V2, V3. rewrite <- El in V1, V2, V3. cbv zeta in V3. rewrite En, firstn_all in V3.
  split_and!; try done.
  - destruct (c_seen _ _ _ _ _ _ HQ) as [_ Q]. rewrite Q by (left; congruence). unfold asked_upto. by rewrite En.
Qed.

Lemma xrounds_run s0 sched R k : exists l, xrounds R (xrun s0 sched) k = xrun s0 (sched ++ l).
Proof.
  induction k as [|k (l & El)]; [exists []; by rewrite app_nil_r|]. exists (l ++ steps_of (R k)). cbn [QWLive_Model.xrounds]. rewrite El. unfold QWin_Model.xrun. by rewrite (app_assoc sched l), (fold_left_app _ (sched ++ l)).
Qed.

(** What the engine is made to do comes from the stream or from initial messages. *)
Lemma xworks_from e sent0 l : fresh n e sent0 -> (forall v, edges e v = []) -> rising ts evs -> forall t c, (t, c) ∈ xworks a owner swap n evs ask ts W (xstart a e sent0) l ->
  match c with
  | Run | Pop => True
  | AddEdges v es => es <> [] /\ forall x, x ∈ es -> (v, x) ∈ evs
  | DelEdges v _ => v ∈ map fst evs
  | SendInit v m => Thread t (Loop (Do (SendInit v m))) ∈ l
  end.
Proof using All.
  intros Hf He Hup. pose proof (xstart_inv a owner swap n Hown evs ask ts W e sent0 Hup Hf He) as HX0. pose proof (tidy_start a owner evs e sent0) as HT0.
  assert (HF0 : xfrom a evs (xstart a e sent0)) by (by intros ? ? ? [?%elem_of_nil|?%elem_of_nil]).
  assert (G : forall l (s : xst a), xinv a owner swap n evs ask ts W s -> tidy a owner evs s -> xfrom a evs s -> forall t c, (t, c) ∈ xworks a owner swap n evs ask ts W s l ->
    match c with
    | Run | Pop => True
    | AddEdges v es => es <> [] /\ forall x, x ∈ es -> (v, x) ∈ evs
    | DelEdges v _ => v ∈ map fst evs
    | SendInit v m => Thread t (Loop (Do (SendInit v m))) ∈ l
    end); [|by apply G].
  clear l. intros l. induction l as [|y l IH]; intros s HX HT Hs t c Hin; [cbn in Hin; by apply elem_of_nil in Hin|]. pose proof Hin as Hin0. cbn [xworks] in Hin. apply elem_of_app in Hin as [Hin|Hin].
  - unfold qwork in Hin. destruct y as [| |u [|x| | |]]; try by apply elem_of_nil in Hin. destruct ((n <=? u) || acked (base s) u); [by apply elem_of_nil in Hin|].
    destruct x as [|c']; [by apply elem_of_nil in Hin|]. destruct c' as [| |v l'|v l'|v m].
    + by apply ework_in in Hin as [[= <-] ->].
    + destruct (QDel_Model.nil (batch (base s) u)); [|by apply elem_of_nil in Hin]. by apply ework_in in Hin as [[= <-] ->].
    + destruct (enact a s u v false) as [[c' k]|] eqn:Ee; [|by apply elem_of_nil in Hin]. destruct (owner v =? u); [|by apply elem_of_nil in Hin].
      apply ework_in in Hin as [[= ->] ->]. unfold enact in Ee. destruct (add_run a (changes (batch s u) v)) as [|e' es'] eqn:Ed; [done|]. injection Ee as <- <-.
      by apply (xworks_in a owner swap n evs ask ts W _ s u v _ Hs Hin0).
    + destruct (enact a s u v true) as [[c' k]|] eqn:Ee; [|by apply elem_of_nil in Hin]. destruct (owner v =? u); [|by apply elem_of_nil in Hin].
      apply ework_in in Hin as [[= ->] ->]. unfold enact in Ee. destruct (del_run a (changes (batch s u) v)) as [|d ds] eqn:Ed; [done|]. destruct (gone _ _ _); [|done]. injection Ee as <- <-.
      apply (h_own _ _ _ _ HT u v (Minus d)). left. apply changes_in. rewrite (del_run_split a (changes (batch s u) v)), Ed. by left.
    + apply ework_in in Hin as [[= <-] ->]. apply elem_of_list_here.
  - specialize (IH _ (xstep_inv a owner swap n Hown evs ask ts W e sent0 Hup s y HX) (tidy_x a owner swap n evs ask ts W s y HX HT) (xfrom_step a owner swap n evs ask ts W s y Hs) t c Hin). destruct c; try done. by apply elem_of_list_further.
Qed.
End ends.

(** With times on the edges an algorithm that does not use them comes to rest like without. *)
Section timed.
Context (a : alg) (T : Type) (owner : nat -> nat).
Notation alike := (QWin_Timed.alike a T).
Lemma can_alike s s' t c : alike s s' -> can (timed a T) s t c = can a s' t (unchoice a T c).
Proof.
  intros H. unfold can. rewrite <- (k_todo _ _ _ _ H t), <- (k_queue _ _ _ _ H t). destruct c; cbn [unchoice]; destruct (todo s t); done.
Qed.
Lemma count_alike l : forall s s', alike s s' -> count (timed a T) owner s l = count a owner s' (unwork a T l).
Proof.
  induction l as [|[t c] l IH]; intros s s' H; [done|]. cbn. rewrite (can_alike s s' t c H). f_equal. apply IH. by apply alike_step.
Qed.
Lemma finite_alike s s' : alike s s' -> finite a owner s' -> finite (timed a T) owner s.
Proof.
  intros H (B & HB). exists B. intros l Hl. rewrite (count_alike l s s' H). apply HB. intros t c Hin. unfold unwork in Hin. apply elem_of_list_fmap in Hin as ([t' c'] & [= -> ->] & Hin).
  specialize (Hl t' c' Hin). unfold acts in *. rewrite !elem_of_cons, elem_of_nil in Hl. destruct Hl as [->|[->|[]]]; cbn; [apply elem_of_list_here|apply elem_of_list_further, elem_of_list_here].
Qed.
End timed.

(** Initial messages among [N] vertices; events among them. *)
Definition winits_among {a : alg} (N : nat) (x : actor a) : Prop :=
  match x with Thread _ (Loop (Do (SendInit v m))) => v < N | _ => True end.

(** PageRank over a sliding window: ends, as near to the exact ranks of the graph that is left as in C55. *)
Theorem C91_ranks owner n N swap (evs : list (nat * (nat * (BinNums.N * unit)))) ask W sched R : (forall v, owner v < n) -> rising fst evs ->
  (forall u x, (u, x) ∈ evs -> u < N /\ fst x < N) ->
  let e := estart tranking (box (rank_start none)) (prop (rank_start none)) (fun _ => []) in
  let s0 := xstart tranking e (fun _ => 0%N) in let s := xrun tranking owner swap n evs ask fst W s0 sched in
  (forall x, x ∈ sched -> winits_among (a := tranking) N x) ->
  (forall k, fair_turns tranking owner n (plus tranking evs) (R k)) ->
  swap = true \/ (xclears tranking owner swap n evs ask fst W s0 sched /\ forall k, xclears tranking owner swap n evs ask fst W (xrounds tranking owner swap n evs ask fst W R s k) (steps_of (R k))) ->
  exists k l, let s' := xrounds tranking owner swap n evs ask fst W R s k in s' = xrun tranking owner swap n evs ask fst W s0 (sched ++ l) /\
    wfinale tranking owner n evs ask fst W (base s') /\
    let work := unwork ranking _ (xworks tranking owner swap n evs ask fst W s0 (sched ++ l)) in
    forall exact, (forall pre post, work = pre ++ post -> inexact (rank_run owner none pre)) ->
    exact_ranks DAMP N (fun w => map fst (window fst W (clock fst (of_thread owner (owner w) evs)) (outs w evs))) (Rank_Model.given owner (rank_start none) work) exact ->
    (qsum (fun v => qabs (mass (rank_run owner none work) v - exact v)) N <= inject_nat N * (EPS + EPS))%Qc /\
    forall v, prop (eng (who (base s'))) v = prop (rank_run owner none work) v.
Proof.
  intros Hown Hup Hev e s0 s Hin HR Hcl.
  assert (Hfr : fresh n e (fun _ => 0%N)) by (by apply fresh_start).
  destruct (C91_ends tranking owner swap n Hown evs ask fst W e (fun _ => 0%N) (winits_among (a := tranking) N) sched R Hfr) as (k & Hk); try done.
  { intros [| |t [| [|[]]| | |]]; done. }
  { intros l Hl. rewrite xwork_run. fold s0. set (work := xworks tranking owner swap n evs ask fst W s0 l).
    apply (finite_alike ranking BinNums.N owner _ (rank_run owner none (unwork ranking _ work))).
    { unfold rank_run. apply alike_run. by constructor. }
    apply (ranks_finite owner n N none); try done. split; [intros u; split; [done|]; intros d e' H; by apply elem_of_nil in H|].
    intros t c H. unfold unwork in H. apply elem_of_list_fmap in H as ([t' c'] & [= -> ->] & H).
    pose proof (xworks_from tranking owner swap n Hown evs ask fst W e (fun _ => 0%N) l Hfr ltac:(done) Hup t' c' H) as Hc. destruct c' as [| |v es|v g|v m]; try done; cbn [unchoice].
    - destruct Hc as [Hne Hx]. split.
      + destruct es as [|x es]; [done|]. by apply (Hev v x), Hx, elem_of_list_here.
      + intros d e' Hd. apply elem_of_list_fmap in Hd as (x & [= -> _] & Hd). by apply (Hev v x), Hx.
    - apply elem_of_list_fmap in Hc as ([v' x] & -> & Hc). by apply (Hev _ _ Hc).
    - by apply (Hl _ Hc). }
  exists k. destruct (xrounds_run tranking owner swap n evs ask fst W s0 sched R k) as (l & El). fold s in El. exists l. cbv zeta. split; [done|]. split; [done|]. intros exact Hx HX.
  fold s0 s in Hk. destruct Hk as (K1 & K2 & K3 & K4 & _). rewrite El in *.
  destruct (C90_ranks owner n N swap evs ask W (sched ++ l) exact Hown Hup) as [H1 H2]; try done.
  - right. intros t Ht. destruct (K4 t Ht) as (? & ? & _). by split.
  - intros u c H. by apply (Hev u c).
  - fold e s0. cbv zeta. rewrite K2, firstn_all. done.
  - split; [done|]. intros v. apply H2.
Qed.

(** Concretely: the stream of C90_case on two threads, asked after every two events, the same round over and over. *)
Notation still := QWin_Props.still.
Definition y_round : list (turn still) :=
  TRemit :: TLog :: flat_map (fun t => map (TThread t) duties) [0; 1] ++
  flat_map (fun v => [TThread (w_owner 2 v) (Loop (Do (AddEdges (a := still) v []))); TThread (w_owner 2 v) (Loop (Do (DelEdges (a := still) v [])))]) [0; 1].
Definition y_go (k : nat) : qst still := base (xrounds still (w_owner 2) false 2 path4 Nat.even (fun x => x) 10 (fun _ => y_round) w_s0 k).
Lemma y_round_fair : fair_turns still (w_owner 2) 2 (plus still path4) y_round.
Proof.
  split_and!.
  - assert (H : Forall allowed (steps_of y_round)) by (repeat constructor). intros x Hx. rewrite list.Forall_forall in H. by apply H.
  - apply elem_of_list_here.
  - apply elem_of_list_further, elem_of_list_here.
  - intros t x Ht Hx. unfold y_round. do 2 apply elem_of_list_further. apply elem_of_app. left. apply elem_of_list_In, in_flat_map. exists t. split; [cbn; lia|]. by apply in_map, elem_of_list_In.
  - intros v Hv. assert (Hv' : v ∈ [0; 1]) by (cbn in Hv; rewrite !elem_of_cons, elem_of_nil in *; intuition).
    unfold y_round. split; do 2 apply elem_of_list_further; apply elem_of_app; right; apply elem_of_list_In, in_flat_map; exists v; (split; [by apply elem_of_list_In|cbn; tauto]).
Qed.
Example C91_case : fair_turns still (w_owner 2) 2 (plus still path4) y_round /\
  (nxt (y_go 10) = 2 /\ rem (y_go 10) = Asked) /\
  let s := y_go 400 in rem s = Finished /\ seen s = [2; 4; 6] /\ (forall t, t < 2 -> left (who s) t) /\
    map (edges (eng (who s))) [0; 1] = [[(2, 3%N); (1, 5%N); (1, 12%N)]; [(2, 30%N)]].
Proof.
  split; [apply y_round_fair|]. split; [split; by vm_compute|]. cbv zeta. split_and!; [by vm_compute..| |by vm_compute].
  intros t Ht. destruct t as [|[|t]]; [by vm_compute..|lia].
Qed.

Print Assumptions C91_ends.
Print Assumptions C91_ranks.
