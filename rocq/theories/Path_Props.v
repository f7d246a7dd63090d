(** C45: temporal paths on the asynchronous engine. *)
From Verif Require Import Base Engine_Spec Engine_Model Engine_Proofs Engine_Shape Window_Spec Window_Model Window_Proofs
  Path_Spec Path_Model Path_Local Path_Proofs Path_Run Engine_Props Path_Final Path_Init.
Open Scope nat_scope.

Definition times (p : path) : window := (p_start p, p_end p).
(** The windows of a vertex; [None] if its worker aborted. *)
Definition windows (s : est tpaths) (v : nat) : option (list window) := option_map (fun p => map times (wins p)) (prop s v : option tprop).

(** No stream that satisfies the conditions makes MailRetrieve abort, under any schedule; and the
    windows of every vertex are well-formed and disjoint at any moment. *)
Theorem C45_no_abort owner n src b es sched v : (forall v, owner v < n) -> sound es sched ->
  exists ws, windows (tpath_run owner src (tpath_start b es) sched) v = Some ws /\ apart ws.
Proof.
  intros Hown Hs. pose proof (pinv_sound owner n Hown src b es sched Hs) as Hp. destruct (p_some _ _ _ _ _ Hp v) as (p & E & G1 & G2).
  exists (map times (wins p)). unfold windows. rewrite E. split; [done|]. by apply sep_apart.
Qed.

(** When nothing is left to do, after the source got its initial mail: a time lies in a window of [v] iff it
    lies in the interval of an edge into [v] over which something that started at the source can come; the source itself
    has all times. *)
Theorem C45_exact owner n src b es sched v : (forall v, owner v < n) -> sound es sched ->
  let s := tpath_run owner src (tpath_start b es) sched in
  idle s -> mailed owner src b es sched ->
  exists ws, windows s v = Some ws /\ apart ws /\
    (v = src -> ws = [(0%N, INFINITY)]) /\
    (v <> src -> forall t,
      ((exists w, w ∈ ws /\ covers t w) <-> (exists u a b, carries src (edge_in s) u v a b /\ covers t (a, b))) /\
      ((exists w, w ∈ ws /\ passes t w) <-> (exists u a b, carries src (edge_in s) u v a b /\ passes t (a, b)))).
Proof.
  intros Hown Hs s Hidle Hm. pose proof (pinv_sound owner n Hown src b es sched Hs) as Hp. fold s in Hp.
  pose proof (mailed_started owner n Hown src b es sched Hs Hm) as Hst. fold s in Hst. destruct Hst as [(v0 & m0 & H)|Hw].
  { rewrite (proj1 (Hidle _)) in H. by apply elem_of_nil in H. }
  destruct Hs as (HU & HS & HT & HI & _).
  destruct (p_some _ _ _ _ _ Hp v) as (p & E & G1 & G2). assert (Ew : winof s v = wins p) by (unfold winof; by rewrite E).
  exists (map times (wins p)). unfold windows. rewrite E. split; [done|]. split; [by apply sep_apart|]. rewrite <- Ew. split.
  - intros ->. by apply (src_windows owner n src _ s Hp Hidle).
  - intros Hv t. destruct (other_windows owner n src _ s HT Hp Hidle v Hv) as (slots & Eb & _ & _ & L).
    pose proof (fun f => final_times owner n src _ s HT HI Hp Hidle Hw v f Hv) as F. rewrite Eb in F. cbn [tail] in F.
    destruct (like_same _ _ L t) as [L1 L2]. split; (etransitivity; [eassumption|apply F]).
Qed.

Lemma carries_mono src (E E' : nat -> nat -> N -> N -> Prop) u v a b : (forall u v a b, E u v a b -> E' u v a b) ->
  carries src E u v a b -> carries src E' u v a b.
Proof.
  intros H. induction 1 as [v a b He|u v w a b a' b' Hc IH He Hlt]; [apply carries_source; [by apply H|done]|].
  eapply carries_step; [exact IH|by apply H|done].
Qed.
(** Two runs (any threads, any schedules, any initial mailbox sizes, edges arriving in any portions) that end with the same edges
    give the same windows. *)
Theorem C45_agree src owner n b es sched owner' n' b' es' sched' v :
  (forall v, owner v < n) -> sound es sched -> (forall v, owner' v < n') -> sound es' sched' ->
  let s := tpath_run owner src (tpath_start b es) sched in
  let s' := tpath_run owner' src (tpath_start b' es') sched' in
  idle s -> mailed owner src b es sched -> idle s' -> mailed owner' src b' es' sched' ->
  (forall u e, e ∈ edges s u <-> e ∈ edges s' u) -> windows s v = windows s' v.
Proof.
  intros Hown Hs Hown' Hs' s s' Hidle Hm Hidle' Hm' Hedges.
  pose proof (pinv_sound owner n Hown src b es sched Hs) as Hp. fold s in Hp.
  pose proof (pinv_sound owner' n' Hown' src b' es' sched' Hs') as Hp'. fold s' in Hp'.
  pose proof (mailed_started owner n Hown src b es sched Hs Hm) as Hst. fold s in Hst. destruct Hst as [(v0 & m0 & H)|Hw].
  { rewrite (proj1 (Hidle _)) in H. by apply elem_of_nil in H. }
  pose proof (mailed_started owner' n' Hown' src b' es' sched' Hs' Hm') as Hst'. fold s' in Hst'. destruct Hst' as [(v0 & m0 & H)|Hw'].
  { rewrite (proj1 (Hidle' _)) in H. by apply elem_of_nil in H. }
  destruct Hs as (HU & HS & HT & HI & _), Hs' as (HU' & HS' & HT' & HI' & _).
  assert (E : ses (winof s v) = ses (winof s' v)).
  2:{ destruct (p_some _ _ _ _ _ Hp v) as (p & E1 & _), (p_some _ _ _ _ _ Hp' v) as (p' & E1' & _). unfold windows, winof in *.
      rewrite E1, E1' in *. cbn. f_equal. exact E. }
  destruct (decide (v = src)) as [->|Hv].
  { by rewrite (src_windows owner n src _ s Hp Hidle Hw), (src_windows owner' n' src _ s' Hp' Hidle' Hw'). }
  assert (Hopen : forall u d a en p, (d, (a, en, p)) ∈ (edges s u : list (nat * tedge)) -> open_at a (winof s u) = open_at a (winof s' u)).
  { intros u d a en p He. assert (He' : (d, (a, en, p)) ∈ (edges s' u : list (nat * tedge))) by (by apply Hedges).
    assert (Hin : edge_in s u d a (extent en)) by (by exists en, p). assert (Hin' : edge_in s' u d a (extent en)) by (by exists en, p).
    assert (Hc : carries src (edge_in s) u d a (extent en) <-> carries src (edge_in s') u d a (extent en)).
    { split; apply carries_mono; intros x y c d0 (en0 & p0 & H1 & H2); exists en0, p0; by split; [apply Hedges|]. }
    destruct (open_at a (winof s u)) eqn:E1, (open_at a (winof s' u)) eqn:E2; try done; exfalso.
    - apply (open_carries owner n src _ s HT Hp Hidle Hw a u d _ Hin) in E1. apply Hc in E1.
      apply (carries_open owner' n' src _ s' HT' HI' Hp' Hidle' Hw') in E1. congruence.
    - apply (open_carries owner' n' src _ s' HT' Hp' Hidle' Hw' a u d _ Hin') in E2. apply Hc in E2.
      apply (carries_open owner n src _ s HT HI Hp Hidle Hw) in E2. congruence. }
  rewrite (idle_fresh owner n src _ s Hp Hidle v), (idle_fresh owner' n' src _ s' Hp' Hidle' v).
  destruct (other_windows owner n src _ s HT Hp Hidle v Hv) as (slots & Eb & _).
  destruct (other_windows owner' n' src _ s' HT' Hp' Hidle' v Hv) as (slots' & Eb' & _).
  rewrite Eb, Eb'. cbn [box_times]. rewrite (times_of_live _ slots), (times_of_live _ slots'). apply times_of_se; [done|].
  apply live_agree. intros p. 
  assert (Hval : forall (st : est tpaths) sl, bx st v = no_path :: sl -> val sl p = slotval (bx st v) p).
  { intros st sl ->. by rewrite slotval_cons. }
  assert (Hnone : forall (st : est tpaths), (forall u en ts, (v, (ts, en, p)) ∉ (edges st u : list (nat * tedge))) ->
    (forall x, bx st v !! S p = Some x -> okslot st v p x) -> p_start (slotval (bx st v) p) = INFINITY).
  { intros st Hno Hok. unfold slotval. destruct (bx st v !! S p) as [x|]; [|done]. destruct (Hok x eq_refl) as [?|[(u & en & He) _]]; [done|].
    by apply Hno in He. }
  rewrite (Hval s slots Eb), (Hval s' slots' Eb').
  destruct (slotval (bx s v) p) as [st en h] eqn:Es, (slotval (bx s' v) p) as [st' en' h'] eqn:Es'.
  assert (Hone : forall (x : path), x = slotval (bx s v) p -> p_start x = INFINITY \/ exists u en ts, (v, (ts, en, p)) ∈ (edges s u : list (nat * tedge))).
  { intros x ->. unfold slotval. destruct (bx s v !! S p) as [x|] eqn:Ex; [|by left].
    destruct (p_slot _ _ _ _ _ Hp v p x Ex) as [?|[(u & en0 & He) _]]; [by left|right; eauto]. }
  assert (Hone' : forall (x : path), x = slotval (bx s' v) p -> p_start x = INFINITY \/ exists u en ts, (v, (ts, en, p)) ∈ (edges s u : list (nat * tedge))).
  { intros x ->. unfold slotval. destruct (bx s' v !! S p) as [x|] eqn:Ex; [|by left].
    destruct (p_slot _ _ _ _ _ Hp' v p x Ex) as [?|[(u & en0 & He) _]]; [by left|right]. apply Hedges in He. eauto. }
  assert (Hsame : (exists u en ts, (v, (ts, en, p)) ∈ (edges s u : list (nat * tedge))) -> se (slotval (bx s v) p) = se (slotval (bx s' v) p)).
  { intros (u & en0 & ts & He). rewrite (idle_told owner n src _ s Hp Hidle _ _ _ _ _ He).
    assert (He' : (v, (ts, en0, p)) ∈ (edges s' u : list (nat * tedge))) by (by apply Hedges).
    rewrite (idle_told owner' n' src _ s' Hp' Hidle' _ _ _ _ _ He'). unfold offer_se. by rewrite (Hopen _ _ _ _ _ He). }
  rewrite Es, Es' in *. destruct (Hone _ eq_refl) as [H1|H1]; [|left; by apply Hsame].
  destruct (Hone' _ eq_refl) as [H2|H2]; [|left; by apply Hsame]. by right.
Qed.

(** As long as the initial mail is not sent, no vertex has a window. *)
Theorem C45_before owner n src b es sched v : (forall v, owner v < n) -> sound es sched -> (forall t, (t, TInit) ∉ sched) ->
  windows (tpath_run owner src (tpath_start b es) sched) v = Some [].
Proof.
  intros Hown Hs Hn. pose proof (pinv_sound owner n Hown src b es sched Hs) as Hp.
  destruct (unmailed owner n Hown src b es sched Hs Hn) as [H _]. destruct (p_dead _ _ _ _ _ Hp H) as [D _].
  destruct (p_some _ _ _ _ _ Hp v) as (p & E & _). specialize (D v). unfold winof in D. unfold windows. rewrite E in *. cbn. by rewrite D.
Qed.

(** Two workers, source 0.  0→1 appears at 10, 1→2 at 20.  After the first results, 0→1 is ended at 15 (so that 1→2 leads
    nowhere), 0→2 appears at 30 and 2→1 at 35. *)
Definition case_owner (v : nat) : nat := v mod 2.
Definition case_es (u : nat) : list (nat * tedge) :=
  match u with 0 => [(1, (10%N, 0%N, 0))] | 1 => [(2, (20%N, 0%N, 0))] | _ => [] end.
Definition steps (k : nat) : list (nat * tchoice) := concat (replicate k [(0, TRun); (1, TRun); (0, TRun); (1, TPop); (0, TPop); (1, TRun)]).
Definition case_sched : list (nat * tchoice) :=
  (0, TInit) :: steps 20 ++ (0, TEnd 0 [(1, 0, 15%N)]) :: (0, TRun) :: (0, TRun) :: (1, TRun) :: steps 20 ++
  (0, TAdd 0 [(2, (30%N, 1))]) :: steps 20 ++ (0, TAdd 2 [(1, (35%N, 1))]) :: steps 20.
Definition case_run (sched : list (nat * tchoice)) := tpath_run case_owner 0 (tpath_start (fun _ => 1) case_es) sched.
Lemma case_ever u : tever case_es case_sched u =
  match u with 0 => [(1, (10%N, 0)); (2, (30%N, 1))] | 1 => [(2, (20%N, 0))] | 2 => [(1, (35%N, 1))] | _ => [] end.
Proof. destruct u as [|[|[|u]]]; vm_compute; done. Qed.
Lemma case_in u d a p : (d, (a, p)) ∈ tever case_es case_sched u ->
  (u = 0 /\ d = 1 /\ a = 10%N /\ p = 0) \/ (u = 0 /\ d = 2 /\ a = 30%N /\ p = 1) \/
  (u = 1 /\ d = 2 /\ a = 20%N /\ p = 0) \/ (u = 2 /\ d = 1 /\ a = 35%N /\ p = 1).
Proof.
  rewrite case_ever. destruct u as [|[|[|u]]]; intros H; repeat (apply elem_of_cons in H; destruct H as [H|H]; [injection H as -> -> ->; tauto|]);
    by apply elem_of_nil in H.
Qed.
Lemma case_ends v l t : (t, TEnd v l) ∈ case_sched -> v = 0 /\ forall d p en, (d, p, en) ∈ l -> d = 1 /\ p = 0 /\ en = 15%N.
Proof.
  assert (Ht : forallb (fun '(_, c) => match c with TEnd v l => (v =? 0) && forallb (fun '(d, p, en) => (d =? 1) && (p =? 0) && (en =? 15)%N) l | _ => true end)
    case_sched = true) by (vm_compute; reflexivity).
  rewrite forallb_forall in Ht. intros H%elem_of_list_In%Ht. apply andb_true_iff in H. destruct H as [H1%Nat.eqb_eq H2].
  split; [done|]. rewrite forallb_forall in H2. intros d p en H%elem_of_list_In%H2. rewrite !andb_true_iff, !Nat.eqb_eq, N.eqb_eq in H. tauto.
Qed.
Example C45_case :
  sound case_es case_sched /\ idle (case_run case_sched) /\ mailed case_owner 0 (fun _ => 1) case_es case_sched /\
  map (windows (case_run ((0, TInit) :: steps 20))) [0; 1; 2; 3] = [Some [(0%N, INFINITY)]; Some [(10%N, INFINITY)]; Some [(20%N, INFINITY)]; Some []] /\
  map (windows (case_run case_sched)) [0; 1; 2; 3] =
    [Some [(0%N, INFINITY)]; Some [(10%N, 15%N); (35%N, INFINITY)]; Some [(30%N, INFINITY)]; Some []].
Proof.
  split_and!; [split_and!| | |vm_compute; reflexivity|vm_compute; reflexivity].
  - intros u1 u2 i1 i2 d a1 a2 p. rewrite !case_ever. intros H1 H2.
    destruct u1 as [|[|[|u1]]], i1 as [|[|[|i1]]]; try discriminate; injection H1 as <- <- <-;
      destruct u2 as [|[|[|u2]]], i2 as [|[|[|i2]]]; try discriminate; injection H2; intros; done || discriminate.
  - intros u. rewrite case_ever. destruct u as [|[|[|u]]]; repeat constructor; cbn; lia.
  - intros u1 u2 d a1 a2 p1 p2 H1%case_in H2%case_in Hp. lia.
  - intros u d a p H%case_in. unfold INFINITY, w64. lia.
  - intros u d ts en p H. destruct u as [|[|u]]; cbn in H; [| |by apply elem_of_nil in H]; apply elem_of_list_singleton in H;
      injection H as -> -> -> ->; vm_compute; discriminate.
  - apply list.Forall_forall. intros [t c] H. destruct c as [| | |v es|v l]; try done. cbn.
    intros d p en ts H1 H2%case_in. destruct (case_ends v l t H) as [-> Hl]. destruct (Hl d p en H1) as (-> & -> & ->). unfold extent. cbn. lia.
  - intros [|[|t]]; vm_compute; done.
  - exists [], (tail case_sched). split; [reflexivity|vm_compute; reflexivity].
Qed.

Print Assumptions C45_no_abort.
Print Assumptions C45_exact.
Print Assumptions C45_agree.
Print Assumptions C45_before.
