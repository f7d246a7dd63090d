(** What holds when temporal paths is idle. *)
From Verif Require Import Base Engine_Spec Engine_Model Engine_Proofs Engine_Shape Window_Spec Window_Model Window_Proofs
  Path_Spec Path_Model Path_Local Path_Proofs Path_Run Engine_Props.
Open Scope nat_scope.

(** The edges of a state. *)
Definition edge_in (s : est tpaths) (u v : nat) (a b : N) : Prop :=
  exists en p, (v, (a, en, p)) ∈ (edges s u : list (nat * tedge)) /\ b = (if en =? 0 then INFINITY else en)%N.

Lemma open_ses ts ws ws' : ses ws = ses ws' -> open_at ts ws = open_at ts ws'.
Proof.
  revert ws'. induction ws as [|w ws IH]; intros [|w' ws'] E; try done. cbn in E. injection E as E1 E2 E. cbn [open_at existsb]. fold (open_at ts ws) (open_at ts ws'). by rewrite E1, E2, (IH _ E).
Qed.
Lemma ex_ses (f : window -> Prop) l : Exists (fun p => f (se p)) l <-> exists w, w ∈ ses l /\ f w.
Proof. rewrite <- (list.Exists_exists f). symmetry. apply list.Exists_fmap. Qed.
Lemma open_exists ts ws : open_at ts ws = true <-> Exists (fun p => passes ts (se p)) ws.
Proof.
  unfold open_at. rewrite existsb_exists, List.Exists_exists. split; intros (x & Hx & H); exists x; (split; [done|]);
    unfold passes, se in *; cbn [fst snd] in *; rewrite ?andb_true_iff, ?N.ltb_lt in *; done.
Qed.
Lemma live_lookup l x : x ∈ live l <-> (exists p, l !! p = Some x) /\ p_start x <> INFINITY.
Proof.
  unfold live. rewrite elem_of_list_In, filter_In, <- elem_of_list_In, elem_of_list_lookup. rewrite negb_true_iff, N.eqb_neq. done.
Qed.
(** Two lists of slots that agree. *)
Definition val (l : list path) (p : nat) : path := match l !! p with Some x => x | None => no_path end.
Lemma live_agree l l' : (forall p, se (val l p) = se (val l' p) \/ (p_start (val l p) = INFINITY /\ p_start (val l' p) = INFINITY)) ->
  ses (live l) = ses (live l').
Proof.
  revert l'. induction l as [|x l IH]; intros l' H.
  - assert (E : live l' = []); [|by rewrite E]. assert (Hall : forall p y, l' !! p = Some y -> p_start y = INFINITY).
    { intros p y Hy. specialize (H p). unfold val in H. rewrite Hy in H. cbn in H. destruct H as [H|[_ H]]; [|done]. by injection H. }
    clear -Hall. induction l' as [|y l' IH]; [done|]. unfold live. cbn [List.filter]. rewrite (Hall 0 y eq_refl). cbn. apply IH.
    intros p z Hz. by apply (Hall (S p)).
  - destruct l' as [|y l'].
    + assert (E : live (x :: l) = []); [|by rewrite E]. assert (Hall : forall p z, (x :: l) !! p = Some z -> p_start z = INFINITY).
      { intros p z Hz. specialize (H p). unfold val in H. rewrite Hz in H. cbn in H. destruct H as [H|[H _]]; [|done]. by injection H. }
      clear -Hall. revert Hall. generalize (x :: l). clear. intros l. induction l as [|y l' IH]; [done|]. intros Hall. unfold live.
      cbn [List.filter]. rewrite (Hall 0 y eq_refl). cbn. apply IH. intros p z Hz. by apply (Hall (S p)).
    + assert (IH' : ses (live l) = ses (live l')). { apply IH. intros p. apply (H (S p)). }
      specialize (H 0). unfold val in H. cbn [lookup list_lookup] in H. unfold live. cbn [List.filter]. fold (live l) (live l').
      destruct H as [H|[-> ->]]; [|done]. injection H as E1 E2. rewrite <- E1. destruct (p_start x =? INFINITY)%N; cbn [negb map]; [done|].
      rewrite IH'. f_equal. unfold se. congruence.
Qed.
Lemma gather_live l : gather l = gather (live l).
Proof.
  unfold gather. generalize (@nil path). induction l as [|x l IH]; intros acc; [done|]. cbn [fold_left]. unfold live. cbn [List.filter].
  fold (live l). destruct (p_start x =? INFINITY)%N eqn:E; cbn [negb fold_left].
  - rewrite <- IH. unfold gather1 at 2. by rewrite E.
  - by rewrite IH.
Qed.
Lemma times_of_live new l : times_of new l = times_of new (live l).
Proof. unfold times_of. destruct (_ && _); [done|]. unfold mail_retrieve. by rewrite (gather_live l). Qed.

Section fin.
Context (owner : nat -> nat) (n : nat) (src : nat) (past : nat -> list (nat * (N * nat))) (s : est tpaths).
Hypothesis HU : slots_once past.
Hypothesis HT : slots_by_time past.
Hypothesis HI : times_below INFINITY past.
Hypothesis Hs : pinv owner n src past s.
Hypothesis Hidle : idle s.

Lemma idle_fresh v : ses (winof s v) = box_times (bx s v).
Proof.
  destruct (p_fresh _ _ _ _ _ Hs v) as [H|[(k & i & got & H)|H]]; [exfalso| |done].
  - pose proof (p_wake _ _ _ _ _ Hs) as HW. destruct (w_told _ _ _ _ HW v H) as [Ha|(t & _ & Hw)].
    + rewrite (w_act _ _ _ _ HW v) in Ha. rewrite (proj2 (Hidle _)), sumt_zero in Ha; [simpl in Ha; lia|].
      intros k _. by rewrite (proj1 (Hidle k)).
    + rewrite (proj1 (Hidle t)) in Hw. destruct Hw as [Hw|[? Hw]]; by apply elem_of_nil in Hw.
  - by rewrite (proj1 (Hidle _)) in H.
Qed.
Lemma idle_told u v ts en p : (v, (ts, en, p)) ∈ (edges s u : list (nat * tedge)) -> se (slotval (bx s v) p) = offer_se (winof s u) ts en.
Proof. intros H. destruct (p_tell _ _ _ _ _ Hs u v ts en p H) as [?|H']; [done|]. rewrite (proj1 (Hidle _)) in H'. by apply no_tell in H'. Qed.

Hypothesis Hinit : bx s src !! 0 = Some whole.

Lemma src_windows : ses (winof s src) = [(0%N, INFINITY)].
Proof. rewrite idle_fresh. destruct (bx s src) as [|h sl]; [done|]. injection Hinit as ->. done. Qed.
Lemma other_windows v : v <> src -> exists slots, bx s v = no_path :: slots /\
  sep (winof s v) /\ Forall wf (winof s v) /\ like (winof s v) (live slots).
Proof.
  intros Hv. destruct (p_head _ _ _ _ _ Hs v) as (h & slots & Eb & [->|[? _]]); [|done]. exists slots. split; [done|].
  destruct (p_some _ _ _ _ _ Hs v) as (p & Ep & [G1 G2]). 
  assert (Ew : winof s v = wins p) by (unfold winof; by rewrite Ep). rewrite Ew. split; [done|]. split; [done|]. rewrite <- Ew.
  destruct (slots_live (fun p ts => exists u en, (v, (ts, en, p)) ∈ (edges s u : list (nat * tedge))) slots) as [L1 L2].
  { intros p1 p2 ts ts' Hp (u & en & H) (u' & en' & H'). eapply HT; [by eapply edge_past|by eapply edge_past|done]. }
  { intros q x Hx. apply (p_slot _ _ _ _ _ Hs v). by rewrite Eb. }
  destruct (retrieve_ok no_path slots (TProp [] [] false)) as (next & ch & E & _ & _ & R3 & _); [done..|].
  pose proof (idle_fresh v) as Hf. rewrite Eb in Hf. cbn [box_times] in Hf. unfold times_of in Hf.
  change ((p_start no_path =? 0) && (p_end no_path =? INFINITY))%N with false in Hf. rewrite E in Hf. cbn [nexts] in Hf.
  intros t. destruct (R3 t) as [R4 R5].
  assert (Hses : forall f : window -> Prop, Exists (fun p => f (se p)) (winof s v) <-> Exists (fun p => f (se p)) next).
  { intros f. by rewrite !ex_ses, Hf. }
  split; (etransitivity; [apply Hses|done]).
Qed.
Lemma slot_edge v slots p x : bx s v = no_path :: slots -> slots !! p = Some x -> p_start x <> INFINITY ->
  exists u en, (v, (p_start x, en, p)) ∈ (edges s u : list (nat * tedge)) /\ p_end x = extent en /\ open_at (p_start x) (winof s u) = true.
Proof.
  intros Eb Hx Hn. destruct (p_slot _ _ _ _ _ Hs v p x) as [?|[(u & en & He) _]]; [by rewrite Eb|done|].
  exists u, en. split; [done|]. pose proof (idle_told _ _ _ _ _ He) as Ht. rewrite Eb, slotval_cons, Hx in Ht. unfold offer_se in Ht.
  destruct (open_at (p_start x) (winof s u)); [|by injection Ht]. injection Ht as Ht. done.
Qed.
Lemma edge_slot u v ts en p : (v, (ts, en, p)) ∈ (edges s u : list (nat * tedge)) -> open_at ts (winof s u) = true ->
  exists x, bx s v !! S p = Some x /\ p_start x = ts /\ p_end x = extent en.
Proof.
  intros He Ho. pose proof (idle_told _ _ _ _ _ He) as Ht. unfold offer_se in Ht. rewrite Ho in Ht. unfold slotval in Ht.
  destruct (bx s v !! S p) as [x|]; [exists x; injection Ht; done|]. injection Ht as Ht _.
  assert (Hp : (ts < INFINITY)%N). { eapply HI. eapply edge_past; done. } lia.
Qed.

Lemma carries_open u v a b : carries src (edge_in s) u v a b -> open_at a (winof s u) = true.
Proof.
  induction 1 as [v a b (en & p & He & ->) Ha|u v w a b a' b' Hc IH (en' & p' & He' & ->) Hlt].
  - apply (edge_past _ _ _ _ _ _ _ _ _ _ Hs) in He. apply HI in He. rewrite (open_ses a (winof s src) [whole]) by apply src_windows. cbn.
    unfold p_start, p_end. cbn. rewrite (proj2 (N.ltb_lt _ _) Ha). cbn. by rewrite (proj2 (N.ltb_lt _ _) He).
  - destruct (decide (v = src)) as [->|Hv].
    { apply (edge_past _ _ _ _ _ _ _ _ _ _ Hs) in He'. apply HI in He'. rewrite (open_ses a' (winof s src) [whole]) by apply src_windows. cbn.
      rewrite (proj2 (N.ltb_lt 0 a')) by lia. cbn. by rewrite (proj2 (N.ltb_lt _ _) He'). }
    destruct (other_windows v Hv) as (slots & Eb & _ & _ & L). apply open_exists, L.
    assert (He : exists en p, (v, (a, en, p)) ∈ (edges s u : list (nat * tedge)) /\ b = extent en).
    { inversion Hc; subst; match goal with H : edge_in _ _ _ _ _ |- _ => destruct H as (en & p & H & ->) end; by exists en, p. }
    destruct He as (en & p & He & ->). destruct (edge_slot _ _ _ _ _ He IH) as (x & Hx & E1 & E2).
    apply List.Exists_exists. exists x. split; [|unfold passes, se; cbn; lia]. apply elem_of_list_In, live_lookup. split.
    + exists p. by rewrite Eb in Hx.
    + apply (edge_past _ _ _ _ _ _ _ _ _ _ Hs) in He. apply HI in He. lia.
Qed.
Lemma open_carries a : forall u v b, edge_in s u v a b -> open_at a (winof s u) = true -> carries src (edge_in s) u v a b.
Proof.
  induction a as [a IH] using (well_founded_ind N.lt_wf_0). intros u v b He Ho. destruct (decide (u = src)) as [->|Hu].
  - apply carries_source; [done|]. rewrite (open_ses a (winof s src) [whole]) in Ho by apply src_windows. cbn in Ho.
    destruct (0 <? a)%N eqn:E; [by apply N.ltb_lt|done].
  - destruct (other_windows u Hu) as (slots & Eb & _ & _ & L). apply open_exists, L, List.Exists_exists in Ho.
    destruct Ho as (x & Hx & Hp). apply elem_of_list_In, live_lookup in Hx. destruct Hx as [(p & Hx) Hn].
    destruct (slot_edge u slots p x Eb Hx Hn) as (u0 & en & He0 & Een & Ho0). unfold passes, se in Hp. cbn in Hp.
    assert (Hin : edge_in s u0 u (p_start x) (p_end x)) by (exists en, p; done).
    eapply carries_step; [|exact He|exact Hp]. apply IH; [lia|done|done].
Qed.
(** The times at which a window of [v] is open are the times of the edges that carry to [v]. *)
Lemma final_times v (f : window -> Prop) : v <> src ->
  (exists w, w ∈ ses (live (tail (bx s v))) /\ f w) <-> exists u a b, carries src (edge_in s) u v a b /\ f (a, b).
Proof.
  intros Hv. destruct (other_windows v Hv) as (slots & Eb & _). rewrite Eb. cbn [tail]. split.
  - intros (w & Hw & Hf). apply elem_of_list_fmap in Hw. destruct Hw as (x & -> & Hx). apply live_lookup in Hx. destruct Hx as [(p & Hx) Hn].
    destruct (slot_edge v slots p x Eb Hx Hn) as (u & en & He & Een & Ho). exists u, (p_start x), (p_end x). split; [|done].
    apply open_carries; [|done]. by exists en, p.
  - intros (u & a & b & Hc & Hf). pose proof (carries_open _ _ _ _ Hc) as Ho.
    assert (He : edge_in s u v a b) by (by inversion Hc; subst). destruct He as (en & p & He & ->).
    destruct (edge_slot _ _ _ _ _ He Ho) as (x & Hx & E1 & E2). rewrite Eb in Hx. exists (se x). unfold se. rewrite E1, E2. split; [|done].
    apply elem_of_list_fmap. exists x. split; [unfold se; congruence|]. apply live_lookup. split; [by exists p|].
    apply (edge_past _ _ _ _ _ _ _ _ _ _ Hs) in He. apply HI in He. lia.
Qed.
End fin.
