(** C72: notification queues of limited size.  With room for one notification for every vertex of a
    thread, no thread ever waits to send, and the loops do what they do with unlimited queues; so the
    program ends with the right result.  With less room, it can hang: for every size there is a
    run that gets to a point from which no thread ever goes on. *)
From Verif Require Import Base RBO_Spec QcUtil Engine_Spec Engine_Model Engine_Proofs Engine_Shape Engine_Props Min_Spec Min_Model Min_Proofs Min_Props.
From Verif Require Import Rank_Model Rest_Spec Rest_Proofs Rest_Props Whole_Model Whole_Proofs Whole_Props Live_Proofs Live_Props.
From Verif Require Import Full_Spec Full_Model Full_Proofs.
From Verif Require Term_Model Term_Proofs Loop_Spec Loop_Model Loop_Proofs Loop_Props.
From Coq Require Import QArith Qcanon.
Open Scope nat_scope.

(** For any machine (Loop_Model): while all notifications of a thread fit into its queue, limited and
    unlimited loops go the same way. *)
Section machine.
Context (m : Loop_Model.machine) (swap : bool) (n : nat) (L : Loop_Model.lawful n m) (cap : N).
Notation run := (frun (Loop_Model.wstep m swap n) Loop_Model.trm (Loop_Model.lwork m) cap).

Theorem C72_room e own sent0 sched : Loop_Props.fresh (m := m) n e sent0 ->
  let s0 := Loop_Model.wstart m e own sent0 in
  (forall pre post u, plains sched = pre ++ post -> (N.of_nat (Loop_Model.m_len (Loop_Model.eng (Loop_Model.wrun m swap n s0 pre)) u) <= cap)%N) ->
  lp (run (fstart s0) sched) = Loop_Model.wrun m swap n s0 (plains sched).
Proof.
  intros (F1 & F2 & F3) s0 Hq.
  assert (HW0 : Loop_Proofs.winv m n s0) by (by apply Loop_Proofs.winv_start).
  refine (room (Loop_Model.wstep m swap n) Loop_Model.trm (Loop_Model.lwork m) cap (Loop_Proofs.winv m n) _ _ sched (fstart s0) HW0 _).
  - intros w t x. apply (Loop_Proofs.winv_step m swap n L).
  - intros w t x u HW Ht. rewrite Loop_Proofs.trm_step. unfold target, Loop_Model.lwork in *.
    destruct (Term_Model.at_ (Loop_Model.trm w) t) as [| |got snt ow| | | | | | | | | | | | | |] eqn:Hp; try done. destruct x as [c|c].
    + unfold Loop_Model.may_loop in Ht. rewrite Hp in Ht. destruct c; by rewrite ?andb_false_r in Ht || destruct (_ && _) in Ht.
    + destruct (Loop_Model.may_work m w t c) eqn:E; [|done]. destruct (Loop_Proofs.may_work_spec m n w t c HW E) as (_ & _ & _ & _ & Htn & _).
      unfold Loop_Model.sending in *. destruct (Loop_Model.m_kind c); try done. destruct (Loop_Model.m_send (Loop_Model.eng w) t) as [u'|] eqn:Es; [|done].
      injection Ht as ->. rewrite (Loop_Proofs.send_eq swap n _ t u got snt ow Htn) by (done || by apply (Loop_Model.l_send n m L) in Es).
      cbn. unfold Term_Model.fset. by rewrite Nat.eqb_refl.
  - intros pre post u Ep. specialize (Hq pre post u Ep). change (prun _ (lp (fstart s0)) pre) with (Loop_Model.wrun m swap n s0 pre).
    assert (HW : Loop_Proofs.winv m n (Loop_Model.wrun m swap n s0 pre)) by (by apply Loop_Proofs.winv_run).
    pose proof (Loop_Proofs.w_queue _ _ _ HW u) as Q. pose proof (Loop_Proofs.w_batch _ _ _ HW u). lia.
Qed.
End machine.

(** The mailbox engine (Whole_Model). *)
Section mailbox.
Context (a : alg) (owner : nat -> nat) (swap : bool) (n : nat) (cap : N) (N : nat) (Hown : forall v, owner v < n).
Notation step := (Whole_Model.wstep a owner swap n).
Notation run := (frun step trm (lwork a owner) cap).
Notation target := (target (W := wst a) trm (lwork a owner)).

Lemma target_spec (w : wst a) t x u : target w t x = Some u -> exists got snt ow d r,
  Term_Model.at_ (trm w) t = Term_Model.Work got snt ow /\ x = Do Run /\ todo (eng w) t = Put d :: r /\ u = owner d.
Proof.
  unfold Full_Model.target, lwork. destruct (Term_Model.at_ (trm w) t) as [| |got snt ow| | | | | | | | | | | | | |] eqn:Hp; try done.
  destruct x as [c|c]; [destruct c; destruct (todo (eng w) t); try done; by destruct (_ =? _)%N|].
  destruct c; try done. destruct (todo (eng w) t) as [|o r] eqn:Et; [done|]. destruct o; try done. intros [= <-]. eauto 10.
Qed.
Lemma target_sends (w : wst a) t x u : winv a n w -> target w t x = Some u ->
  Term_Model.queue (trm (step w t x)) u = (Term_Model.queue (trm w) u + 1)%N.
Proof.
  intros HW Ht. destruct (target_spec w t x u Ht) as (got & snt & ow & d & r & Hp & -> & Et & ->).
  rewrite trm_step. unfold lwork. rewrite Hp, Et. assert (t < n). { destruct (decide (t < n)); [done|]. rewrite (w_out _ _ _ HW t) in Hp by lia. done. }
  rewrite (Loop_Proofs.send_eq swap n _ t (owner d) got snt ow) by done. cbn. unfold Term_Model.fset. by rewrite Nat.eqb_refl.
Qed.

(** Room for every vertex of a thread: no thread ever waits.  [b], [p], [es]: mailboxes, properties and
    edges at the start; [before]: initial mail and whatever else happens before the loops. *)
Theorem C72_vertices b p es before own sent0 sched : along_edges a ->
  (forall u d, d ∈ map fst (es u) -> d < N) ->
  (forall t v l d, (t, AddEdges v l) ∈ before \/ (t, Plain (Do (AddEdges v l))) ∈ sched -> d ∈ map fst l -> d < N) ->
  let e := erun a owner (estart a b p es) before in fresh n e sent0 ->
  (forall t, t < n -> (N.of_nat (residents owner N t) <= cap)%N) ->
  let s0 := wstart a e own sent0 in
  lp (run (fstart s0) sched) = Whole_Model.wrun a owner swap n s0 (plains sched).
Proof.
  intros Ha Hes Hadd e (F1 & F2 & F3) Hcap s0.
  assert (HW0 : winv a n s0) by (by apply (winv_start a owner n Hown)).
  refine (room step trm (lwork a owner) cap (winv a n) _ target_sends sched (fstart s0) HW0 _).
  { intros w t x. apply (winv_step a owner swap n Hown). }
  intros pre post u Ep. change (prun step (lp (fstart s0)) pre) with (Whole_Model.wrun a owner swap n s0 pre).
  assert (HW : winv a n (Whole_Model.wrun a owner swap n s0 pre)) by (by apply winv_run).
  assert (Er : eng (Whole_Model.wrun a owner swap n s0 pre) = erun a owner (estart a b p es) (before ++ eworks a owner swap n s0 pre))
    by (rewrite eng_run; unfold s0, e, erun; by rewrite fold_left_app).
  assert (Hlow : low a N (eng (Whole_Model.wrun a owner swap n s0 pre))).
  { rewrite Er. apply low_run; [done|by apply low_start|]. intros t c Hin. destruct c as [| |v l|v gone|v m]; try done. intros d Hd. apply (Hadd t v l d); [|done].
    apply elem_of_app in Hin as [Hin|Hin]; [by left|right]. apply eworks_in in Hin.
    assert (H : (t, Do (AddEdges v l)) ∈ plains sched) by (rewrite Ep; apply elem_of_app; by left).
    unfold plains in H. apply elem_of_list_In, in_flat_map in H as ([t' [x|]] & H1 & H2); [|done]. destruct H2 as [[= -> ->]|[]]. by apply elem_of_list_In. }
  assert (Hwake : wake a owner n (eng (Whole_Model.wrun a owner swap n s0 pre))) by (rewrite Er; apply wake_erun; [done|apply wake_start]).
  pose proof (Whole_Proofs.w_queue _ _ _ HW u) as Q. pose proof (w_batch _ _ _ HW u) as HB.
  destruct (decide (u < n)) as [Hu|Hu].
  - pose proof (queue_residents a owner n N _ u Hwake Hlow) as HR. specialize (Hcap u Hu). lia.
  - assert (E : queue (eng (Whole_Model.wrun a owner swap n s0 pre)) u = []).
    { destruct (queue (eng (Whole_Model.wrun a owner swap n s0 pre)) u) as [|v q] eqn:E; [done|]. pose proof (Engine_Proofs.w_queue _ _ _ _ Hwake u v ltac:(rewrite E; apply elem_of_list_here)) as H. pose proof (Hown v). lia. }
    rewrite E in Q. cbn in Q. lia.
Qed.

(** Threads that have found each other's queues full, or their own, stay where they are for ever. *)
Definition waiting (w : wst a) (t u : nat) : Prop :=
  (exists got snt ow, Term_Model.at_ (trm w) t = Term_Model.Work got snt ow) /\ exists d r, todo (eng w) t = Put d :: r /\ owner d = u.
Definition jam (T : list nat) (s : fullst (W := wst a)) : Prop :=
  forall t, t ∈ T -> exists u, u ∈ T /\ waiting (lp s) t u /\ (cap <= ring trm s u)%N.

Lemma loop_queue s t c u : u <> t -> (forall v, c <> Term_Model.Send v) -> Term_Model.queue (Term_Model.step swap n s (t, c)) u = Term_Model.queue s u.
Proof.
  intros Hne Hc. unfold Term_Model.step. cbn [fst snd]. destruct (t <? n); [|done]. unfold Term_Model.go, Term_Model.received.
  destruct (Term_Model.at_ s t); destruct c; try done; cbv zeta; repeat case_match; cbn; Term_Proofs.fs; try done. all: by destruct (Hc u0).
Qed.
Lemma send_queue s t v u : (Term_Model.queue s u <= Term_Model.queue (Term_Model.step swap n s (t, Term_Model.Send v)) u)%N.
Proof.
  unfold Term_Model.step. cbn [fst snd]. destruct (t <? n); [|done]. unfold Term_Model.go. destruct (Term_Model.at_ s t); try done. case_match; [|done].
  cbn. unfold Term_Model.fset. case_match; [|done]. apply Nat.eqb_eq in H0 as ->. lia.
Qed.
Lemma lwork_one (w : wst a) t x : lwork a owner w t x = [] \/ exists c, lwork a owner w t x = [(t, c)].
Proof. unfold lwork. repeat case_match; eauto. Qed.
Lemma step_queue (w : wst a) t t' x : t' <> t -> (Term_Model.queue (trm w) t <= Term_Model.queue (trm (step w t' x)) t)%N.
Proof.
  intros Hne. rewrite trm_step. destruct (lwork_one w t' x) as [->|(c & ->)]; [done|]. cbn [Term_Model.exec fold_left].
  destruct c; try (rewrite loop_queue; [lia|done|done]). apply send_queue.
Qed.
Lemma estep_other e t c w : w <> t -> todo (estep a owner e t c) w = todo e w.
Proof.
  intros Hne. unfold estep. destruct (todo e t) as [|o r]; destruct c; try done.
  1-4: repeat case_match; try done; cbn; by rewrite upd_ne.
  destruct o; cbn [exec_op]; repeat case_match; cbn; by rewrite upd_ne.
Qed.
Lemma step_other (w : wst a) t t' x u : waiting w t u -> t' <> t -> waiting (step w t' x) t u.
Proof.
  intros ((got & snt & ow & Hp) & d & r & Et & Hd) Hne. split.
  - exists got, snt, ow. rewrite trm_step. destruct (lwork_one w t' x) as [->|(c & ->)]; [done|]. cbn [Term_Model.exec fold_left]. rewrite loop_other by done. done.
  - exists d, r. split; [|done]. rewrite eng_step. revert Et. generalize (eng w). intros e Et. unfold ework. repeat case_match; try done; cbn; by rewrite estep_other.
Qed.
Lemma waiting_self (w : wst a) t u x : waiting w t u -> target w t x = Some u \/ step w t x = w /\ target w t x = None.
Proof.
  intros ((got & snt & ow & Hp) & d & r & Et & <-). unfold Full_Model.target, Whole_Model.wstep, lwork. rewrite Hp, Et.
  destruct x as [c|[]]; try (by right); [|by left]. right. by destruct c.
Qed.
Theorem C72_jam T s : T <> [] -> jam T s -> (forall t, t ∈ T -> t < n) ->
  never run (fun s => forall t, t < n -> left (lp s) t) s /\ forall l, jam T (run s l).
Proof.
  intros HT HJ Hn. assert (H : forall l, jam T (run s l)).
  { intros l. apply (jam_run step trm (lwork a owner) cap waiting).
    - apply waiting_self.
    - intros w t u ((got & snt & ow & Hp) & _). unfold receiving. by rewrite Hp.
    - intros w t u t' x. apply step_other.
    - intros w t t' x. apply step_queue.
    - exact HJ. }
  split; [|exact H]. intros l Hl. destruct T as [|t T]; [done|]. destruct (H l t ltac:(apply elem_of_list_here)) as (u & _ & ((got & snt & ow & Hp) & _) & _).
  specialize (Hl t (Hn t ltac:(apply elem_of_list_here))). unfold left in Hl. congruence.
Qed.
End mailbox.

(** The algorithms send along edges only. *)
Lemma along_cc : along_edges cc.
Proof.
  intros v k p es cs p' ms ms' d m H Hin. left. cbn in *. injection H as <- <- <-. apply elem_of_app in Hin as [Hin|Hin].
  - case_match; [by apply elem_of_nil in Hin|]. apply elem_of_list_fmap in Hin as ([d' x] & [= -> ->] & Hin). apply elem_of_list_fmap. by exists (d', x).
  - destruct k; try by apply elem_of_nil in Hin. apply elem_of_list_fmap in Hin as ([d' x] & [= -> ->] & Hin). apply elem_of_list_fmap. exists (d', x). split; [done|].
    apply elem_of_list_lookup in Hin as (i & Hi). rewrite lookup_drop in Hi. by apply elem_of_list_lookup_2 in Hi.
Qed.
Lemma along_sssp rnd top : along_edges (sssp rnd top).
Proof.
  intros v k p es cs p' ms ms' d m H Hin. left. cbn in *. injection H as <- <- <-. apply elem_of_app in Hin as [Hin|Hin].
  - case_match; [by apply elem_of_nil in Hin|]. apply elem_of_list_fmap in Hin as ([d' x] & [= -> ->] & Hin). apply elem_of_list_fmap. by exists (d', x).
  - destruct k; try by apply elem_of_nil in Hin. case_match; [by apply elem_of_nil in Hin|]. apply elem_of_list_fmap in Hin as ([d' x] & [= -> ->] & Hin). apply elem_of_list_fmap. exists (d', x). split; [done|].
    apply elem_of_list_lookup in Hin as (i & Hi). rewrite lookup_drop in Hi. by apply elem_of_list_lookup_2 in Hi.
Qed.
Lemma in_to_all x l d m : (d, m) ∈ to_all x l -> d ∈ map fst l.
Proof. unfold to_all. rewrite !elem_of_list_fmap. intros (e & [= -> ->] & H). by exists e. Qed.
Lemma along_ranks : along_edges ranking.
Proof.
  intros v k p es cs p' ms ms' d m H Hin. cbn in H. injection H as H <-. rewrite app_nil_r in Hin. destruct k as [|start|gone].
  - left. unfold rank_update in H. case_match; injection H as <- <-; [by apply in_to_all in Hin|by apply elem_of_nil in Hin].
  - left. injection H as <- <-. apply elem_of_app in Hin as [Hin|Hin].
    + case_match; [by apply elem_of_nil in Hin|]. apply in_to_all in Hin. rewrite <- (firstn_skipn start es), map_app. apply elem_of_app. by left.
    + apply in_to_all in Hin. rewrite <- (firstn_skipn start es), map_app. apply elem_of_app. by right.
  - injection H as <- <-. apply elem_of_app in Hin as [Hin|Hin]; [left; by apply in_to_all in Hin|right; exists gone; split; [done|by apply in_to_all in Hin]].
Qed.
Theorem C72_along : along_edges cc /\ (forall rnd top, along_edges (sssp rnd top)) /\ along_edges ranking.
Proof. split_and!; [exact along_cc|exact along_sssp|exact along_ranks]. Qed.

(** Connected components with limited queues: the program ends with the components. *)
Theorem C72_components owner n (cap : N) N swap es before own sent0 sched raw : (forall v, owner v < n) -> among N (fun _ => True) es ->
  (forall t c, (t, c) ∈ before -> change_among N (fun _ => True) (fun _ => True) c) ->
  (forall t c, (t, Do c) ∈ plains sched -> change_among (a := cc) N (fun _ => True) (fun _ => True) c) ->
  (forall t, t < n -> (N.of_nat (residents owner N t) <= cap)%N) ->
  let e := erun cc owner (cc_start es) before in fresh n e sent0 ->
  let run := frun (wstep cc owner swap n) trm (lwork cc owner) cap in
  let s0 := wstart cc e own sent0 in let s := run (fstart s0) sched in
  let init := Min_Model.given owner (cc_start es) (before ++ eworks cc owner swap n s0 (plains sched)) in
  let graph := edges (eng (lp s)) in
  (forall v x, (v, x) ∈ init -> x = raw v /\ (raw v < 2 ^ 32)%N) ->
  (forall u v x, (v, x) ∈ graph u -> (u, raw u) ∈ init /\ exists x', (u, x') ∈ graph v) ->
  closed cc n (lp s) ->
  exists bound, forall rounds, Forall (fun l => fair_round cc n (plains l)) rounds -> bound <= length rounds ->
    swap = true \/ Term_Proofs.tidy swap n (trm s0) (lworks cc owner swap n s0 (plains (sched ++ concat rounds))) ->
    let s' := run s (concat rounds) in
    (forall t, t < n -> left (lp s') t) /\ complete n (lp s') = true /\ edges (eng (lp s')) = graph /\
    forall v, (v, raw v) ∈ init ->
    (exists u, joined graph u v /\ prop (eng (lp s')) v = raw u) /\ forall u, joined graph u v -> (prop (eng (lp s')) v <= raw u)%N.
Proof.
  intros Hown Hes Hb1 Hb2 Hcap e Hf run s0 s init graph Hraw Hsym HC.
  assert (Hlow : forall u d, d ∈ map fst (es u) -> d < N) by (intros u d H; apply elem_of_list_fmap in H as ([d' x] & -> & H); by apply (Hes u) in H as [? _]).
  assert (Hsame : forall more, (forall t c, (t, Do c) ∈ plains more -> change_among (a := cc) N (fun _ => True) (fun _ => True) c) ->
    lp (run (fstart s0) (sched ++ more)) = wrun cc owner swap n s0 (plains (sched ++ more))).
  { intros more Hm. refine (C72_vertices cc owner swap n cap N Hown _ _ es before own sent0 (sched ++ more) along_cc Hlow _ Hf Hcap).
    intros t v l d Hin Hd. apply elem_of_list_fmap in Hd as ([d' x] & -> & Hd).
    assert (Hc : change_among (a := cc) N (fun _ => True) (fun _ => True) (AddEdges v l)).
    { destruct Hin as [Hin|Hin]; [by apply (Hb1 t)|].
      assert (Hp : (t, Do (AddEdges v l)) ∈ plains (sched ++ more)) by (unfold plains; apply elem_of_list_In, in_flat_map; eexists; split; [by apply elem_of_list_In in Hin|by left]).
      rewrite plains_app in Hp. apply elem_of_app in Hp as [Hp|Hp]; [by apply (Hb2 t)|by apply (Hm t)]. }
    cbn in Hc. by apply Hc in Hd as [? _]. }
  assert (Es : lp s = wrun cc owner swap n s0 (plains sched)).
  { unfold s. rewrite <- (app_nil_r sched). apply (Hsame []). intros t c H. by apply elem_of_nil in H. }
  unfold graph in *. clear graph. rewrite Es in HC, Hsym. rewrite Es.
  destruct (C61_components owner n N swap es before own sent0 (plains sched) raw Hown Hes Hb1 Hb2 Hf Hraw) as (bound & Hb); [exact Hsym|exact HC|].
  exists bound. intros rounds Hr Hl Htd. set (s' := run s (concat rounds)).
  assert (Es' : lp s' = wrun cc owner swap n (wrun cc owner swap n s0 (plains sched)) (concat (map plains rounds))).
  { unfold s', s, run. rewrite <- frun_app. fold run. rewrite Hsame, plains_app, plains_concat; [unfold wrun; by rewrite fold_left_app|].
    intros t c Hin. rewrite plains_concat in Hin. apply elem_of_list_In, in_concat in Hin as (r & H1 & H2). apply in_map_iff in H1 as (r' & <- & H1).
    rewrite list.Forall_forall in Hr. specialize (Hr r' ltac:(by apply elem_of_list_In)). destruct Hr as [Hr _]. specialize (Hr t (Do c) ltac:(by apply elem_of_list_In)). cbn in Hr. unfold acts in Hr. rewrite !elem_of_cons, elem_of_nil in Hr. by destruct Hr as [->|[->|[]]]. }
  rewrite Es'. apply Hb; [|by rewrite map_length|by rewrite plains_app, plains_concat in Htd].
  apply list.Forall_forall. intros r Hin. apply elem_of_list_In, in_map_iff in Hin as (r' & <- & Hin). rewrite list.Forall_forall in Hr. apply Hr. by apply elem_of_list_In.
Qed.

(** With less room the program may hang.  One thread, connected components; vertex 0 and its edges to
    [c + 1] others arrive, and the queue has room for [c]. *)
Section hang.
Context (c : nat).
Definition one (_ : nat) : nat := 0.
Notation cap := (N.of_nat c).
Notation step := (wstep cc one false 1).
Notation run := (frun step trm (lwork cc one) cap).
Definition star (k : nat) : list (nat * unit) := map (fun d => (d, tt)) (seq 1 k).
Definition run0 (k : nat) : list (nat * fchoice (X := wchoice cc)) := repeat (0, Plain (Do Run)) k.
Definition hang_start (k : N) (l : list (nat * unit)) : list (nat * fchoice (X := wchoice cc)) :=
  [(0, Plain (Ctl Term_Model.Go)); (0, Plain (Ctl (Term_Model.Own k))); (0, Plain (Do (SendInit (a := cc) 0 0%N)))] ++
  run0 5 ++ [(0, Plain (Do (AddEdges (a := cc) 0 l)))] ++ run0 4.
Definition h0 : fullst := fstart (wstart cc (cc_start (fun _ => [])) (fun _ => true) (fun _ => 0%N)).

Record sending (ds : list nat) (q : N) (s : fullst (W := wst cc)) : Prop := Sending {
  s_at : exists got snt ow, Term_Model.at_ (trm (lp s)) 0 = Term_Model.Work got snt ow;
  s_todo : todo (eng (lp s)) 0 = map (fun d => Merge (a := cc) 0 d 0%N) ds;
  s_box : forall d, d ∈ ds -> box (eng (lp s)) d = [cc_empty] /\ act (eng (lp s)) d = 0;
  s_ring : ring trm s 0 = q /\ buf s 0 = 0%N }.
Lemma hang_begins k l : (forall d x, (d, x) ∈ l -> 0 < d) -> sending (map fst l) 0 (run h0 (hang_start k l)).
Proof.
  intros Hd. constructor.
  - destruct k; eexists _, _, _; vm_compute; reflexivity.
  - transitivity (map (fun '(v, d, m) => Merge (a := cc) v d m) (map (fun '(d, m) => (0, d, m)) (map (fun '(d, _) => (d, 0%N)) l)) ++ []).
    2:{ rewrite app_nil_r, !map_map. apply map_ext. by intros []. }
    destruct k; vm_compute; reflexivity.
  - intros d Hin. assert (0 < d) by (apply elem_of_list_fmap in Hin as ([d' y] & -> & Hin); by apply (Hd d' y)). destruct d; [lia|]. destruct k; vm_compute; done.
  - destruct k; vm_compute; done.
Qed.

(** The next operation, when it sends nothing, and when it does. *)
Notation work s := (exists got snt ow, Term_Model.at_ (trm (lp s)) 0 = Term_Model.Work got snt ow).
Lemma hang_run s o r : work s -> todo (eng (lp s)) 0 = o :: r -> (forall d, o <> Put d) ->
  let s' := fstep step trm (lwork cc one) cap s 0 (Plain (Do Run)) in
  eng (lp s') = exec_op cc one (eng (lp s)) 0 o r /\ trm (lp s') = trm (lp s) /\ buf s' = buf s.
Proof.
  intros (got & snt & ow & Hp) Et Ho. cbv zeta. unfold fstep, full, target, lwork, wstep. rewrite Hp, Et.
  assert (E : match o with Put d => [(0, Term_Model.Send (one d))] | _ => [] end = []) by (destruct o as [| |d| | | | |]; try done; by destruct (Ho d)).
  destruct o as [src d x|d|d|v|v k|v k i g|l|v x]; try (by destruct (Ho d)); cbn [act_on lp buf eng trm]; unfold pulls; cbn [trm act_on]; rewrite N.ltb_irrefl;
    (split; [unfold estep; by rewrite Et|done]).
Qed.
Lemma hang_put s d r : work s -> todo (eng (lp s)) 0 = Put d :: r -> (ring trm s 0 < cap)%N ->
  let s' := fstep step trm (lwork cc one) cap s 0 (Plain (Do Run)) in
  eng (lp s') = exec_op cc one (eng (lp s)) 0 (Put d) r /\ work s' /\ buf s' = buf s /\
  Term_Model.queue (trm (lp s')) 0 = (Term_Model.queue (trm (lp s)) 0 + 1)%N.
Proof.
  intros (got & snt & ow & Hp) Et Hr. cbv zeta. unfold fstep, full, target, lwork, wstep. rewrite Hp, Et.
  change (one d) with 0. rewrite (proj2 (N.leb_gt _ _) Hr).
  assert (Es : Term_Model.exec false 1 (trm (lp s)) [(0, Term_Model.Send 0)] = Term_Model.at_pc (Term_Model.set_queue (trm (lp s)) 0 (Term_Model.queue (trm (lp s)) 0 + 1)) 0 (Term_Model.Work got (snt + 1) ow))
    by (by apply Loop_Proofs.send_eq; [lia|lia|]).
  cbn [act_on lp buf eng trm]. unfold pulls. cbn [act_on trm]. rewrite Es.
  assert (Eq : Term_Model.queue (Term_Model.at_pc (Term_Model.set_queue (trm (lp s)) 0 (Term_Model.queue (trm (lp s)) 0 + 1)) 0 (Term_Model.Work got (snt + 1) ow)) 0 = (Term_Model.queue (trm (lp s)) 0 + 1)%N) by done.
  rewrite Eq. destruct (N.ltb_spec (Term_Model.queue (trm (lp s)) 0 + 1) (Term_Model.queue (trm (lp s)) 0)) as [|_]; [lia|].
  split_and!; [unfold estep; by rewrite Et| |done|done]. eexists _, _, _. done.
Qed.
Lemma merge_tell d (s : est cc) r : box s d = [cc_empty] -> exec_op cc one s 0 (Merge (a := cc) 0 d 0%N) r =
  Est (a := cc) (upd (box s) d [0%N]) (act s) (queue s) (prop s) (edges s) (upd (todo s) 0 (Cas d :: r)) (sent s) (elog s ++ [Told d]).
Proof. intros E. cbn. by rewrite E. Qed.

(** One more of the others is told, up to the point where it is put into the queue. *)
Lemma hang_two d ds q s : d ∉ ds -> sending (d :: ds) q s -> let s' := run s (run0 2) in
  work s' /\ todo (eng (lp s')) 0 = Put d :: map (fun d => Merge (a := cc) 0 d 0%N) ds /\
  (forall d, d ∈ ds -> box (eng (lp s')) d = [cc_empty] /\ act (eng (lp s')) d = 0) /\ ring trm s' 0 = q /\ buf s' 0 = 0%N.
Proof.
  intros Hd [H1 H2 H3 [H4 H5]]. cbv zeta. change (run s (run0 2)) with (fstep step trm (lwork cc one) cap (fstep step trm (lwork cc one) cap s 0 (Plain (Do Run))) 0 (Plain (Do Run))).
  set (s1 := fstep step trm (lwork cc one) cap s 0 (Plain (Do Run))).
  destruct (hang_run s (Merge (a := cc) 0 d 0%N) (map (fun d => Merge (a := cc) 0 d 0%N) ds) H1 H2 ltac:(done)) as (E1 & E2 & E3). fold s1 in E1, E2, E3. clearbody s1.
  destruct (H3 d ltac:(apply elem_of_list_here)) as [Hb Ha]. rewrite merge_tell in E1 by done.
  assert (Et : todo (eng (lp s1)) 0 = Cas d :: map (fun d => Merge (a := cc) 0 d 0%N) ds) by (rewrite E1; reflexivity).
  destruct (hang_run s1 (Cas d) (map (fun d => Merge (a := cc) 0 d 0%N) ds)) as (F1 & F2 & F3); [by rewrite E2|done|done|].
  set (s2 := fstep step trm (lwork cc one) cap s1 0 (Plain (Do Run))) in *. clearbody s2.
  assert (Ea : act (eng (lp s1)) d = 0) by (rewrite E1; exact Ha). cbn [exec_op] in F1. rewrite Ea in F1. cbn in F1.
  split_and!.
  - by rewrite F2, E2.
  - rewrite F1. reflexivity.
  - intros x Hx. assert (x <> d) by (intros ->; done). destruct (H3 x ltac:(by apply elem_of_list_further)) as [Hb' Ha'].
    rewrite F1. cbn. rewrite upd_ne by done. rewrite E1. cbn. by rewrite upd_ne.
  - unfold ring in *. by rewrite F2, E2, F3, E3.
  - by rewrite F3, E3.
Qed.
Lemma hang_tell d ds q s : d ∉ ds -> (q < cap)%N -> sending (d :: ds) q s -> sending ds (q + 1) (run s (run0 3)).
Proof.
  intros Hd Hq Hs. destruct (hang_two d ds q s Hd Hs) as (H1 & H2 & H3 & H4 & H5). cbv zeta in *.
  change (run s (run0 3)) with (fstep step trm (lwork cc one) cap (run s (run0 2)) 0 (Plain (Do Run))). set (s2 := run s (run0 2)) in *. clearbody s2.
  destruct (hang_put s2 d (map (fun d => Merge (a := cc) 0 d 0%N) ds) H1 H2 ltac:(by rewrite H4)) as (F1 & F2 & F3 & F4).
  constructor; [done|rewrite F1; reflexivity| |].
  - intros x Hx. rewrite F1. cbn. by apply H3.
  - unfold ring in *. rewrite F3, F4. split; [|done]. lia.
Qed.
Lemma hang_all ds : forall q s, NoDup ds -> (q + N.of_nat (length ds) = cap + 1)%N -> (q <= cap)%N -> sending ds q s -> exists l, jam cc one cap [0] (run s l).
Proof.
  induction ds as [|d ds IH]; intros q s Hnd Hq Hle Hs; [cbn in Hq; lia|]. apply list.NoDup_cons in Hnd as [Hd Hnd].
  destruct (decide (q < cap)%N) as [Hlt|Hge].
  - destruct (IH (q + 1)%N (run s (run0 3)) Hnd) as (l & Hl); [cbn in Hq; lia|lia|by apply (hang_tell d)|].
    exists (run0 3 ++ l). by rewrite frun_app.
  - exists (run0 2). destruct (hang_two d ds q s Hd Hs) as (H1 & H2 & H3 & H4 & H5). intros t Ht. apply elem_of_list_singleton in Ht as ->.
    exists 0. split; [apply elem_of_list_here|]. split; [|lia]. split; [done|]. by eexists d, _.
Qed.
End hang.

Theorem C72_ends_refuted c : exists sched,
  let run := frun (wstep cc one false 1) trm (lwork cc one) (N.of_nat c) in
  never run (fun s => left (lp s) 0) (run h0 (hang_start (N.of_nat c) (star (c + 1)) ++ sched)).
Proof.
  destruct (hang_all c (seq 1 (c + 1)) 0 (frun (wstep cc one false 1) trm (lwork cc one) (N.of_nat c) h0 (hang_start (N.of_nat c) (star (c + 1))))) as (l & Hl).
  - apply NoDup_ListNoDup, seq_NoDup.
  - rewrite seq_length. lia.
  - lia.
  - assert (E : map fst (star (c + 1)) = seq 1 (c + 1)) by (unfold star; rewrite map_map; cbn; apply map_id). rewrite <- E. apply hang_begins.
    intros d x H. unfold star in H. apply elem_of_list_fmap in H as (y & [= -> ->] & H). apply elem_of_list_In, in_seq in H. lia.
  - exists l. cbv zeta. rewrite frun_app. intros l' Hleft.
    destruct (C72_jam cc one false 1 (N.of_nat c) ltac:(unfold one; lia) [0] _ ltac:(done) Hl ltac:(intros t Ht; apply elem_of_list_singleton in Ht as ->; lia)) as [HN _].
    apply (HN l'). intros t Ht. by assert (t = 0) as -> by lia.
Qed.

(** The sizes.  By default (-m 8) one thread has room for 2^27 notifications, which is as many as it can have vertices
    (C18: 27 bits); with 2^k threads, each has room for its share of 2^27.  With -m 0 it is 2^19. *)
Example C72_sizes : queue_size 8 1 = (2 ^ 27)%N /\ queue_size 8 16 = (2 ^ 23)%N /\ queue_size 0 1 = (2 ^ 19)%N.
Proof. by vm_compute. Qed.
(** Vertex 0 and three others: the same schedule with room for three, where the program ends, and with room for two, where it hangs. *)
Definition case_round : list (nat * fchoice (X := wchoice cc)) :=
  run0 8 ++ [(0, Plain (Do Pop)); (0, Plain (Ctl Term_Model.Finish)); (0, Plain (Ctl Term_Model.Close)); (0, Spill); (0, Plain (Ctl Term_Model.Go))].
Definition case_at (cap : N) : fullst := frun (wstep cc one false 1) trm (lwork cc one) cap h0 (hang_start 2 (star 3) ++ concat (repeat case_round 60)).
Definition is_done (p : Term_Model.pc) : bool := match p with Term_Model.Done => true | _ => false end.
Example C72_case :
  (let s := case_at 3 in is_done (Term_Model.at_ (trm (lp s)) 0) = true /\ complete 1 (lp s) = true /\ map (prop (eng (lp s))) [0; 1; 2; 3; 4] = [0; 0; 0; 0; cc_empty]%N) /\
  (let s := case_at 2 in is_done (Term_Model.at_ (trm (lp s)) 0) = false /\ ring trm s 0 = 2%N /\ length (todo (eng (lp s)) 0) = 1 /\ map (prop (eng (lp s))) [0; 1; 2; 3; 4] = [0; cc_empty; cc_empty; cc_empty; cc_empty]%N).
Proof. vm_compute. by split_and!. Qed.

Print Assumptions C72_room.
Print Assumptions C72_vertices.
Print Assumptions C72_along.
Print Assumptions C72_components.
Print Assumptions C72_jam.
Print Assumptions C72_ends_refuted.
