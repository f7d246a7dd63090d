(** C89: static runs: the graph is loaded, then the algorithm starts on it. *)
From Verif Require Import Base RBO_Spec QcUtil Engine_Spec Engine_Model Engine_Proofs Engine_Shape Engine_Props.
From Verif Require Import Rank_Spec Rank_Model Rank_Proofs Rank_Run Rank_Wake Rank_Props Rank_Error Rank_Close RankRest_Props.
From Verif Require Import Rest_Spec Rest_Proofs Rest_Props Whole_Model Whole_Proofs Whole_Props Live_Proofs Live_Props.
From Verif Require Import QDel_Spec QDel_Model QDel_Lists QDel_Proofs QDel_Props QDLive_Model QDLive_Proofs QDLive_Props.
From Verif Require Import Full_Spec Full_Proofs Min_Spec Min_Model Min_Proofs Min_Props Static_Spec Static_Model Static_Proofs.
From Verif Require Term_Model Term_Proofs Term_Live.
From Coq Require Import QArith Qcanon.
Open Scope nat_scope.

Section loading.
Context (a : alg) (owner : nat -> nat) (swap : bool) (n : nat) (Hown : forall v, owner v < n).
Context (evs : list (nat * change (edge_t a))) (ask : nat -> bool) (b : nat -> list (cell_t a)) (p : nat -> prop_t a).
Notation load := (load a owner swap n evs ask b p).
Notation empty := (empty a b p).

Lemma load_untouched sched : untouched a b p (eng (who (load sched))).
Proof. unfold Static_Model.load. rewrite qwork_run. apply untouched_run, untouched_start. Qed.
Lemma empty_fresh : fresh n empty (fun _ => 0%N).
Proof. by apply fresh_start. Qed.

(** Loading ends: if the stream deletes only edges that are there, fair rounds lead from wherever a schedule has
    led to the end of loading, where the graph is what the stream leaves (see C88). *)
Theorem C89_load_ends sched R : (forall v, after [] (changes evs v) <> None) ->
  let s := load sched in let s0 := qstart (blank a) empty (fun _ => 0%N) in
  (forall k, fair_turns (blank a) owner n evs (R k)) ->
  swap = true \/ (clears (blank a) owner swap n evs ask s0 sched /\ forall k, clears (blank a) owner swap n evs ask (rounds (blank a) owner swap n evs ask R s k) (steps_of (R k))) ->
  exists k, finale (a := blank a) n evs ask empty (rounds (blank a) owner swap n evs ask R s k).
Proof using Hown.
  intros Hv s s0 HR Hcl.
  refine (C88_ends (blank a) owner swap n Hown evs ask empty (fun _ => 0%N) (fun _ => True) sched R empty_fresh Hv _ _ _ HR Hcl); try done.
  intros l _. apply (quietly a owner n Hown b p); [apply load_untouched|]. rewrite qwork_run. apply wake_erun; [done|apply wake_start].
Qed.

(** What loading hands over: however the stream is cut and whatever initial mail new vertices got, mailboxes and
    properties are as made, nobody is notified and nothing is queued; only the edges are there, those that the stream
    leaves.  So the algorithm starts like on a graph given at once. *)
Theorem C89_loaded sched base : let s := load sched in finale (a := blank a) n evs ask empty s ->
  agree (handover a base (eng (who s))) (estart a (fun v => base v (b v)) p (edges (eng (who s)))) /\
  forall v, (exists r, after [] (changes evs v) = Some r /\ same r (edges (eng (who s)) v)) /\ sublist (edges (eng (who s)) v) (added (changes evs v)).
Proof using Hown.
  intros s HF. pose proof (load_untouched sched) as HU. fold s in HU. split.
  - constructor; cbn; try done; intros; first [by rewrite (u_box _ _ _ _ HU)|apply HU].
  - intros v. apply HF.
Qed.
(** States that agree run alike, for ever. *)
Theorem C89_alike (s s' : est a) sched : agree s s' -> agree (erun a owner s sched) (erun a owner s' sched).
Proof. apply agree_run. Qed.

(** A time series needs its logging goroutine, which a static run starts after loading only (algorithm.go:201-207):
    if a query falls due, loading never ends, on no schedule. *)
Theorem C89_unlogged k sched : 1 <= k <= length evs -> ask k = true -> (forall x, x ∈ sched -> x <> Logger) ->
  let s := load sched in rem s <> Finished /\ ~ (forall t, t < n -> left (who s) t /\ epoch s t = false).
Proof using Hown.
  intros Hk Ha Hs s.
  assert (Hl : lg s = LWait). { unfold s, Static_Model.load. assert (H0 : lg (qstart (blank a) empty (fun _ => 0%N)) = LWait) by done. revert H0. generalize (qstart (blank a) empty (fun _ => 0%N)) as s0. clear s.
    induction sched as [|x l IH]; intros s0 H0; [done|]. cbn. apply IH; [intros y Hy; by apply Hs, elem_of_list_further|]. specialize (Hs x ltac:(apply elem_of_list_here)). by apply unlogged_step. }
  pose proof (stops (blank a) owner swap n evs ask sched Hs (qstart (blank a) empty (fun _ => 0%N)) eq_refl ltac:(cbn; lia)) as ST.
  assert (HQ : qinv (blank a) owner swap n evs ask empty s) .
  { destruct empty_fresh as (F1 & F2 & F3). unfold s, Static_Model.load. apply (qrun_inv (blank a) owner swap n Hown evs ask empty (fun _ => 0%N)). by apply (qstart_inv (blank a) owner swap n Hown). }
  assert (HF : rem s <> Finished).
  { intros E. destruct ST as [H|[H1 H2]]; [right; split; [intros j Hj; cbn in Hj; lia|done]| |].
    - change (rem s = Asked) in H. congruence.
    - change (rem s = Finished -> nxt s = length evs) in H2. specialize (H2 E). rewrite (H1 k) in Ha; [done|]. change (1 <= k <= nxt s). lia. }
  split; [done|]. intros Hall. assert (Hn : 0 < n) by (pose proof (Hown 0); lia).
  destruct (q_trm _ _ _ _ _ _ _ _ HQ) as (own & q & c & l & Et).
  assert (Hq : Term_Proofs.quiet n (trm (who s))) by (rewrite Et; apply Term_All.all_left_quiet; rewrite <- Et; intros t Ht; by apply Hall).
  destruct (Hq 0 Hn) as (_ & _ & Ho). destruct (q_open _ _ _ _ _ _ _ _ HQ 0 Hn Ho) as [_ [?|[E' _]]]; [done|]. destruct (Hall 0 Hn). congruence.
Qed.
End loading.

(** Initial mail with limited queues. *)
Section mail.
Context (a : alg) (owner : nat -> nat) (cap n N : nat) (Hown : forall v, owner v < n).

(** Room for every vertex of each thread: as if queues had no limit. *)
Theorem C89_room b p es sched : along_edges a -> (forall u d, d ∈ map fst (es u) -> d < N) -> (forall t, residents owner N t <= cap) ->
  (forall t c, (t, c) ∈ sched -> c = Run \/ exists v m, c = SendInit v m) ->
  irun a owner cap (estart a b p es) sched = erun a owner (estart a b p es) sched.
Proof using Hown. intros Ha Hes Hcap Hs. apply (roomy a owner cap N n); try done; [apply wake_start|by apply low_start]. Qed.
End mail.

(** Connected components: [u] has the smallest label of all vertices that lead to it; if it leads to more vertices of
    one thread than the queue of the thread has places, the initial mail is never all sent, on no schedule. *)
Theorem C89_jam owner cap n N raw es u t sched : (forall v, owner v < n) ->
  (forall w, joined es w u -> w <> u -> (raw u < raw w)%N) ->
  (forall v, leads (es u) u v = true -> (raw u < raw v)%N) -> (raw u < cc_empty)%N -> (forall v, (raw v <= cc_empty)%N) ->
  cap < owned owner N t (leads (es u) u) ->
  (forall t c, (t, c) ∈ sched -> c = Run \/ exists v, c = SendInit (a := cc) v (raw v)) ->
  let s := irun cc owner cap (cc_start es) sched in
  ~ ((forall t, todo s t = []) /\ (u, raw u) ∈ Min_Model.given owner (cc_start es) (iworks cc owner cap (cc_start es) sched)).
Proof.
  intros Hown Hroot Hlead Hsm Hraw Hmany Hs s [Htodo Hgiven]. set (work := iworks cc owner cap (cc_start es) sched) in *.
  assert (Es : s = erun cc owner (cc_start es) work) by apply irun_works.
  assert (Hp : forall t c, (t, c) ∈ work -> pure raw c) by (intros t' c H; apply iworks_in in H as [H _]; by apply Hs in H).
  assert (He : edges s = es) by (rewrite Es; etransitivity; [by apply (edges_run owner raw)|done]).
  assert (HW : wake cc owner n s) by (rewrite Es; apply wake_erun; [done|apply wake_start]).
  assert (HL : lit owner raw u s).
  { destruct (root_run owner raw es u Hroot Hsm n Hown work (cc_start es) [] Hp ltac:(done) (wake_start _ _ _ _ _ _) (shaped_start _ _ _ _ _)) as [[_ H]|H].
    - left. split; [|intros H; by apply elem_of_nil in H]. constructor; [intros w; by exists cc_empty|intros w _; exact Hsm|intros k o H; by apply elem_of_nil in H].
    - specialize (H Hgiven). rewrite <- Es, Htodo in H. by apply elem_of_nil in H.
    - by rewrite <- Es in H. }
  assert (Hprop : (prop s u <= raw u)%N).
  { destruct (l_prop _ _ _ _ HL) as [H|[(k & H)|(k & i & got & H)]]; [done|rewrite Htodo in H; by apply elem_of_nil in H..]. }
  assert (HM : minv N.leb cc_empty (fun (_ : unit) x => x) false owner (fun _ => True) ([] ++ given owner (cc_start es) work) s).
  { rewrite Es. unfold cc_start. apply (minv_erun N.leb cc_empty (fun _ x => x) false owner n); try done.
    - intros x y. unfold le. rewrite !N.leb_le. lia.
    - intros x y z. unfold le. rewrite !N.leb_le. lia.
    - apply wake_start.
    - apply shaped_start.
    - apply (minv_start N.leb cc_empty (fun _ x => x) false owner); [|done]. intros x y. unfold le. rewrite !N.leb_le. lia.
    - intros k v g H. apply iworks_in in H as [_ [?|(? & ? & ?)]]; done. }
  assert (HN : noted raw s).
  { rewrite Es. apply noted_run; [done|]. constructor; [intros k v H; by apply elem_of_nil in H|intros k v m H; by apply elem_of_nil in H|].
    intros v. exists cc_empty. split; [done|]. intros H. pose proof (Hraw v). lia. }
  assert (Hin : forall v, leads (es u) u v = true -> v ∈ queue s (owner v)).
  { intros v Hv. pose proof (Hlead v Hv) as Hlt. unfold leads in Hv. apply andb_true_iff in Hv as [_ Hv]. apply existsb_exists in Hv as ([d e] & Hv & Ed). cbn in Ed. apply Nat.eqb_eq in Ed as ->.
    apply elem_of_list_In, elem_of_list_lookup in Hv as (i & Hi). rewrite <- He in Hi.
    pose proof (m_cov _ _ _ _ _ _ _ _ HM u i v e Hi) as HC. unfold covered, le in HC. rewrite Htodo in HC.
    assert (Hb : (bx N.leb cc_empty (fun (_ : unit) x => x) false s v <= raw u)%N).
    { destruct HC as [H|[H|[(m & _ & H)|[(st & _ & [H|(j & got & H)])|(l & m & H & _)]]]]; try done; [|apply N.leb_le in H; exact (N.le_trans _ _ _ H Hprop)|by apply elem_of_nil in H]. apply N.leb_le in H. exfalso. exact (N.lt_irrefl _ (N.lt_le_trans _ _ _ Hsm (N.le_trans _ _ _ H Hprop))). }
    destruct (o_box _ _ HN v) as (c & Eb & Hc). assert (Ebx : bx N.leb cc_empty (fun (_ : unit) x => x) false s v = c) by (exact (f_equal (hd cc_empty) Eb)). rewrite Ebx in Hb. destruct Hc as [Ha|(k & Hk)]; [by eapply N.le_lt_trans| |rewrite Htodo in Hk; by apply elem_of_nil in Hk].
    apply occ_in. pose proof (w_act _ _ _ _ HW v) as A. rewrite sumt_zero in A; [lia|]. intros k _. by rewrite Htodo. }
  assert (Hcap : length (queue s t) <= cap) by (apply capped_run; intros k; cbn; lia).
  assert (owned owner N t (leads (es u) u) <= length (queue s t)); [|lia].
  unfold owned. apply NoDup_incl_length; [apply NoDup_filter, seq_NoDup|]. intros v Hv. apply filter_In in Hv as [_ Hv]. apply andb_true_iff in Hv as [H1 H2]. apply Nat.eqb_eq in H1 as <-. apply elem_of_list_In. by apply Hin.
Qed.

(** Initial notes: one for each vertex of a thread, to its own queue.  A queue never holds more than it has places
    for; all are sent, at last, exactly if they all have room. *)
Theorem C89_notes cap count sched t : nrun cap count sched t <= Nat.min cap (count t).
Proof.
  unfold nrun. assert (H : forall sent : nat -> nat, sent t <= Nat.min cap (count t) -> fold_left (nstep cap count) sched sent t <= Nat.min cap (count t)); [|apply H; cbn; lia].
  induction sched as [|u l IH]; intros sent H; [done|]. cbn. apply IH. unfold nstep. destruct (sent u <? count u) eqn:E1, (sent u <? cap) eqn:E2; cbn [andb]; try done.
  apply Nat.ltb_lt in E1, E2. unfold upd. destruct (Nat.eqb_spec t u) as [->|]; lia.
Qed.
Theorem C89_notes_end cap count n : (exists sched, forall t, t < n -> nrun cap count sched t = count t) <-> forall t, t < n -> count t <= cap.
Proof.
  split.
  - intros (sched & H) t Ht. pose proof (C89_notes cap count sched t). rewrite H in *; lia.
  - intros H. assert (HI : forall k, k <= n -> exists sched, forall t, nrun cap count sched t = if t <? k then count t else 0).
    { induction k as [|k IH]; intros Hk; [by exists []|]. destruct (IH ltac:(lia)) as (l & Hl).
      assert (HJ : forall j, j <= count k -> forall t, nrun cap count (l ++ repeat k j) t = if t <? k then count t else if t =? k then j else 0).
      { induction j as [|j IHj]; intros Hj t.
        - rewrite app_nil_r, Hl. destruct (t <? k); [done|]. by destruct (t =? k).
        - specialize (IHj ltac:(lia)). replace (l ++ repeat k (S j)) with ((l ++ repeat k j) ++ [k]) by (rewrite <- app_assoc; f_equal; symmetry; apply repeat_cons).
          unfold nrun in *. rewrite fold_left_app. cbn [fold_left]. unfold nstep at 1. rewrite (IHj k). rewrite Nat.ltb_irrefl, Nat.eqb_refl. specialize (H k ltac:(lia)).
          destruct (Nat.ltb_spec j (count k)) as [_|]; [|lia]. destruct (Nat.ltb_spec j cap) as [_|]; [|lia]. cbn [andb]. unfold upd. destruct (Nat.eqb_spec t k) as [->|]; [by rewrite Nat.ltb_irrefl|]. rewrite IHj. destruct (t <? k); [done|]. by destruct (Nat.eqb_spec t k). }
      exists (l ++ repeat k (count k)). intros t. rewrite (HJ (count k) ltac:(lia)). destruct (Nat.ltb_spec t k), (Nat.ltb_spec t (S k)); try lia. - destruct (Nat.eqb_spec t k) as [->|]; [done|lia]. - destruct (Nat.eqb_spec t k) as [->|]; [lia|done]. }
    destruct (HI n ltac:(lia)) as (l & Hl). exists l. intros t Ht. rewrite Hl. by destruct (Nat.ltb_spec t n); [|lia].
Qed.

(** From the stream to the result, for connected components: when loading has ended, initial mail is sent to the
    vertices and has led to no more, and the loops run, fair rounds lead to the end, with the smallest label of its
    component at every vertex of the graph that the stream leaves. *)
Lemma finite_agree {a} owner (s s' : est a) : agree s s' -> finite a owner s -> finite a owner s'.
Proof.
  intros H (B & HB). exists B. intros l Hl. specialize (HB l Hl). assert (E : count a owner s l = count a owner s' l); [|lia]. clear HB Hl.
  revert s s' H. induction l as [|[t c] l IH]; intros s s' H; [done|]. cbn [count]. unfold can at 1 2. rewrite (g_todo _ _ H t), (g_queue _ _ H t). f_equal. by apply IH, agree_step.
Qed.
Lemma given_agree {a} owner l : forall s s' : est a, agree s s' -> Min_Model.given owner s l = Min_Model.given owner s' l.
Proof. induction l as [|[t c] l IH]; intros s s' H; [done|]. cbn [given]. unfold given_at. rewrite (g_todo _ _ H t). f_equal. by apply IH, agree_step. Qed.
Lemma given_in {a} owner l : forall (s : est a) v m, (v, m) ∈ Min_Model.given owner s l -> exists t, (t, SendInit v m) ∈ l.
Proof.
  induction l as [|[t c] l IH]; intros s v m H; [by apply elem_of_nil in H|]. cbn [given] in H. apply elem_of_app in H as [H|H].
  - unfold given_at in H. destruct (todo s t), c; try (by apply elem_of_nil in H). destruct (_ =? _); [|by apply elem_of_nil in H]. apply elem_of_list_singleton in H as [= -> ->]. exists t. apply elem_of_list_here.
  - apply IH in H as (k & H). exists k. by apply elem_of_list_further.
Qed.
Lemma joined_dest {E} (g g' : nat -> list (nat * E)) u v : (forall w, map fst (g w) ⊆ map fst (g' w)) -> joined g u v -> joined g' u v.
Proof.
  intros H. induction 1 as [|u v w e Hj IH He]; [constructor|]. assert (Hw : w ∈ map fst (g v)) by (apply elem_of_list_fmap; by exists (w, e)).
  apply H, elem_of_list_fmap in Hw as ([w' e'] & E1 & Hw). cbn in E1. subst w'. eapply joined_step; [exact IH|exact Hw].
Qed.
Lemma added_in {E} (evs : list (nat * change E)) v x : x ∈ added (changes evs v) -> (v, Plus x) ∈ evs.
Proof.
  unfold added. intros H. apply elem_of_list_In, in_flat_map in H as ([y|d] & H1 & H2); [|done]. destruct H2 as [->|[]].
  unfold changes in H1. apply in_map_iff in H1 as ([w c] & E1 & H1). cbn in E1. subst c. apply filter_In in H1 as [H1 H2]. cbn in H2. apply Nat.eqb_eq in H2 as ->. by apply elem_of_list_In.
Qed.
Theorem C89_components owner n N swap (evs : list (nat * change unit)) ask load_sched graph before sent0 raw : (forall v, owner v < n) -> events_among N evs ->
  (forall v, after [] (changes evs v) = Some (graph v)) ->
  let s := load cc owner swap n evs ask (fun _ => [cc_empty]) (fun _ => cc_empty) load_sched in
  finale (a := blank cc) n evs ask (empty cc (fun _ => [cc_empty]) (fun _ => cc_empty)) s ->
  (forall u v, v ∈ map fst (graph u) -> u ∈ map fst (graph v)) -> (forall v, (raw v < 2 ^ 32)%N) ->
  let e0 := handover cc (fun _ c => c) (eng (who s)) in
  (forall t c, (t, c) ∈ before -> c = Run \/ exists v, v < N /\ c = SendInit (a := cc) v (raw v)) ->
  (forall v, v < N -> (v, raw v) ∈ Min_Model.given owner e0 before) ->
  let e := erun cc owner e0 before in fresh n e sent0 ->
  let s0 := wstart cc e (fun _ => false) sent0 in
  exists bound, forall rounds, Forall (fair_round cc n) rounds -> bound <= length rounds ->
    swap = true \/ Term_Proofs.tidy swap n (trm s0) (lworks cc owner swap n s0 (concat rounds)) ->
    let s' := wrun cc owner swap n s0 (concat rounds) in
    (forall t, t < n -> left s' t) /\ complete n s' = true /\
    forall v, v < N -> (exists u, joined graph u v /\ prop (eng s') v = raw u) /\ forall u, joined graph u v -> (prop (eng s') v <= raw u)%N.
Proof.
  intros Hown Hev Hg s HF Hsym Hraw e0 Hbef Hall e Hfr s0.
  destruct (C89_loaded cc owner swap n Hown evs ask (fun _ => [cc_empty]) (fun _ => cc_empty) load_sched (fun _ c => c) HF) as [HA HE]. fold s in HA, HE. fold e0 in HA.
  set (es := edges (eng (who s))) in *. change (estart cc (fun v => [cc_empty]) (fun _ => cc_empty) es) with (cc_start es) in HA.
  assert (HP : forall v, Permutation (map fst (graph v)) (map fst (es v))).
  { intros v. destruct (HE v) as [(r & E1 & E2) _]. injection (eq_trans (eq_sym (Hg v)) E1) as ->. by apply same_fst. }
  assert (Hsub : forall v d x, (d, x) ∈ es v -> v < N /\ d < N).
  { intros v d x H. destruct (HE v) as [_ Hs]. assert (Hin : (d, x) ∈ added (changes evs v)) by (eapply elem_of_submseteq; [exact H|by apply sublist_submseteq]).
    apply added_in in Hin. apply Hev in Hin. done. }
  assert (Hb : forall t c, (t, c) ∈ before -> change_among (a := cc) N (fun _ => True) (fun _ => True) c).
  { intros t c H. destruct (Hbef t c H) as [->|(v & Hv & ->)]; [done|]. by split. }
  assert (Hes : among N (fun _ => True) es).
  { intros v. split; [|intros d x H; split; [|done]; by apply (Hsub v d x)]. intros Hv. destruct (es v) as [|[d x] r] eqn:E; [done|]. pose proof (Hsub v d x ltac:(rewrite E; apply elem_of_list_here)). lia. }
  assert (HAb : agree e (erun cc owner (cc_start es) before)) by (by apply agree_run).
  assert (HFin : finite cc owner (eng s0)).
  { destruct (components_finite owner n N es before Hown Hes Hb) as [HF' _]. eapply finite_agree; [|exact HF'].
    destruct HAb. constructor; intros; symmetry; auto. }
  destruct (C61_ends cc owner swap n Hown e (fun _ => false) sent0 [] Hfr ltac:(done) HFin) as (bound & HB). exists bound. intros rounds Hr Hlen Htd s'.
  destruct (HB rounds Hr Hlen Htd) as (H1 & H2 & H3 & l & El & Hl). cbn [wrun fold_left] in *. fold s0 in H1, H2, H3, El. fold s' in H1, H2, H3, El. change (eng s0) with e in El.
  split_and!; try done.
  assert (HAs : agree (eng s') (erun cc owner (cc_start es) (before ++ l))).
  { rewrite El. unfold erun. rewrite fold_left_app. apply agree_run. exact HAb. }
  assert (Hed : edges (erun cc owner (cc_start es) (before ++ l)) = es).
  { unfold erun. rewrite fold_left_app. etransitivity; [by apply acts_run_edges|]. etransitivity; [apply (edges_run owner raw)|done].
    intros t c H. destruct (Hbef t c H) as [->|(v & _ & ->)]; [by left|right; by exists v]. }
  assert (Hg0 : given owner (cc_start es) (before ++ l) = given owner e0 before).
  { rewrite given_app. rewrite (acts_given owner _ l Hl), app_nil_r. symmetry. by apply given_agree. }
  intros v Hv. pose proof (C35_components owner n es (before ++ l) raw Hown) as HC. cbv zeta in HC. rewrite Hg0 in HC. specialize (HC ltac:(
    intros t w g H; apply elem_of_app in H as [H|H]; [destruct (Hbef t _ H) as [?|(? & _ & ?)]; done|apply Hl in H; unfold acts in H; rewrite !elem_of_cons, elem_of_nil in H; by destruct H as [?|[?|[]]]])).
  assert (Hidle : idle (erun cc owner (cc_start es) (before ++ l))).
  { intros t. rewrite <- (g_todo _ _ HAs t), <- (g_queue _ _ HAs t). apply H3. }
  specialize (HC Hidle). rewrite Hed in HC.
  assert (HC1 : forall w x, (w, x) ∈ given owner e0 before -> x = raw w /\ (raw w < 2 ^ 32)%N).
  { intros w x H. destruct (given_in (a := cc) owner before e0 w x H) as (t & H').  clear H. rename H' into H. destruct (Hbef t _ H) as [?|(w' & _ & E)]; [done|]. injection E as -> ->. done. }
  specialize (HC HC1).
  assert (HC2 : forall w d x, (d, x) ∈ es w -> (w, raw w) ∈ given owner e0 before /\ exists x', (w, x') ∈ es d).
  { intros w d x H. split; [apply Hall; by apply (Hsub w d x)|]. assert (Hd : d ∈ map fst (graph w)) by (rewrite (HP w); apply elem_of_list_fmap; by exists (d, x)).
    apply Hsym in Hd. rewrite (HP d) in Hd. apply elem_of_list_fmap in Hd as ([w' x'] & E & Hd). cbn in E. subst w'. by exists x'. }
  specialize (HC HC2 v (Hall v Hv)). destruct HC as [(u & Hj & Hpv) Hmin].
  assert (J1 : forall u, joined es u v -> joined graph u v) by (intros w; apply joined_dest; intros y z; by rewrite (HP y)).
  assert (J2 : forall u, joined graph u v -> joined es u v) by (intros w; apply joined_dest; intros y z; by rewrite (HP y)).
  rewrite (g_prop _ _ HAs v). split; [exists u; split; [by apply J1|exact Hpv]|]. intros w Hw. apply Hmin. by apply J2.
Qed.

(** The same for PageRank: as near to the exact ranks of the graph that the stream leaves as in C55. *)
Lemma rank_given_agree owner l v : forall s s' : est ranking, agree s s' -> Rank_Model.given owner s l v = Rank_Model.given owner s' l v.
Proof. induction l as [|[t c] l IH]; intros s s' H; [done|]. cbn [Rank_Model.given]. rewrite (g_todo _ _ H t). f_equal. by apply IH, agree_step. Qed.
Lemma mail_edges {a} owner l : (forall t c, (t, c) ∈ l -> c = Run \/ exists v m, c = SendInit v m) -> forall s : est a, edges (erun a owner s l) = edges s.
Proof.
  induction l as [|[t c] l IH]; intros Hl s; [done|]. change (edges (erun a owner (estep a owner s t c) l) = edges s). rewrite IH by (intros; by eapply Hl, elem_of_list_further).
  destruct (Hl t c ltac:(apply elem_of_list_here)) as [->|(v & m & ->)]; unfold estep; destruct (todo s t) as [|o r]; try done; [|by destruct (_ =? _)].
  destruct o as [src d m|d|d|w|w k|w k i got|x|w m]; cbn [exec_op]; try done.
  - by destruct (merge a m src d (box s d)).
  - by destruct (_ =? _).
  - destruct (box s w !! i) as [c|]; [by destruct (take a c)|]. by destruct (react a w k (prop s w) (edges s w) got) as [[? ?] ?].
  - by destruct (merge a m w w (box s w)).
Qed.
Theorem C89_ranks owner n N swap (evs : list (nat * change unit)) ask load_sched graph before sent0 exact : (forall v, owner v < n) -> events_among N evs ->
  (forall v, after [] (changes evs v) = Some (graph v)) ->
  let s := load ranking owner swap n evs ask (fun _ => [0%Qc]) (fun _ => (0, 0)%Qc) load_sched in
  finale (a := blank ranking) n evs ask (empty ranking (fun _ => [0%Qc]) (fun _ => (0, 0)%Qc)) s ->
  let e0 := handover ranking (fun _ c => c) (eng (who s)) in
  (forall t c, (t, c) ∈ before -> c = Run \/ exists v m, v < N /\ c = SendInit (a := ranking) v m) ->
  exact_ranks DAMP N (fun w => map fst (graph w)) (Rank_Model.given owner e0 before) exact ->
  let e := erun ranking owner e0 before in fresh n e sent0 ->
  let s0 := wstart ranking e (fun _ => false) sent0 in
  exists bound, forall rounds, Forall (fair_round ranking n) rounds -> bound <= length rounds ->
    swap = true \/ Term_Proofs.tidy swap n (trm s0) (lworks ranking owner swap n s0 (concat rounds)) ->
    let s' := wrun ranking owner swap n s0 (concat rounds) in
    (forall t, t < n -> left s' t) /\ complete n s' = true /\
    ((forall pre post, before ++ eworks ranking owner swap n s0 (concat rounds) = pre ++ post -> inexact (erun ranking owner e0 pre)) ->
     (qsum (fun v => qabs (mass (eng s') v - exact v)) N <= inject_nat N * (EPS + EPS))%Qc).
Proof.
  intros Hown Hev Hg s HF e0 Hbef HX e Hfr s0.
  destruct (C89_loaded ranking owner swap n Hown evs ask (fun _ => [0%Qc]) (fun _ => (0, 0)%Qc) load_sched (fun _ c => c) HF) as [HA HE]. fold s in HA, HE. fold e0 in HA.
  set (es := edges (eng (who s))) in *. change (estart ranking (fun v => [0%Qc]) (fun _ => (0, 0)%Qc) es) with (rank_start es) in HA.
  assert (HP : forall v, Permutation (map fst (graph v)) (map fst (es v))).
  { intros v. destruct (HE v) as [(r & E1 & E2) _]. injection (eq_trans (eq_sym (Hg v)) E1) as ->. by apply same_fst. }
  assert (Hsub : forall v d x, (d, x) ∈ es v -> v < N /\ d < N).
  { intros v d x H. destruct (HE v) as [_ Hs]. assert (Hin : (d, x) ∈ added (changes evs v)) by (eapply elem_of_submseteq; [exact H|by apply sublist_submseteq]).
    apply added_in in Hin. apply Hev in Hin. done. }
  assert (Hes : forall v, (N <= v -> es v = []) /\ forall d x, (d, x) ∈ es v -> d < N).
  { intros v. split; [|intros d x H; by apply (Hsub v d x)]. intros Hv. destruct (es v) as [|[d x] r] eqn:E; [done|]. pose proof (Hsub v d x ltac:(rewrite E; apply elem_of_list_here)). lia. }
  assert (Ham : rank_among N es before).
  { split; [done|]. intros t c H. destruct (Hbef t c H) as [->|(v & m & Hv & ->)]; done. }
  assert (HAb : agree e (erun ranking owner (rank_start es) before)) by (by apply agree_run).
  assert (HFin : finite ranking owner (eng s0)).
  { destruct (ranks_finite owner n N es before Hown Ham) as [HF' _]. eapply finite_agree; [|exact HF']. destruct HAb. constructor; intros; symmetry; auto. }
  destruct (C61_ends ranking owner swap n Hown e (fun _ => false) sent0 [] Hfr ltac:(done) HFin) as (bound & HB). exists bound. intros rounds Hr Hlen Htd s'.
  destruct (HB rounds Hr Hlen Htd) as (H1 & H2 & H3 & _). cbn [wrun fold_left] in *. fold s0 in H1, H2, H3. fold s' in H1, H2, H3.
  split_and!; try done. intros Hx. set (l := eworks ranking owner swap n s0 (concat rounds)) in *.
  assert (El : eng s' = erun ranking owner e l) by (unfold s'; by rewrite eng_run).
  assert (Hl : forall t c, (t, c) ∈ l -> c ∈ acts ranking).
  { intros t c Hin. apply eworks_in in Hin. apply elem_of_list_In, in_concat in Hin as (r & Hr' & Hin). rewrite list.Forall_forall in Hr.
    specialize (Hr r ltac:(by apply elem_of_list_In)). apply (proj1 Hr t (Do c)). by apply elem_of_list_In. }
  assert (HAs : agree (eng s') (rank_run owner es (before ++ l))).
  { rewrite El. unfold rank_run, erun. rewrite fold_left_app. apply agree_run. exact HAb. }
  assert (Hed : forall v, edges (rank_run owner es (before ++ l)) v = es v).
  { intros v. unfold rank_run, erun. rewrite fold_left_app. change (edges (erun ranking owner (erun ranking owner (rank_start es) before) l) v = es v). rewrite acts_run_edges by done. rewrite mail_edges; [done|]. intros t c H. destruct (Hbef t c H) as [->|(w & m & _ & ->)]; eauto. }
  rewrite (qsum_ext _ (fun v => qabs (mass (rank_run owner es (before ++ l)) v - exact v)%Qc)); [|intros v _; by rewrite (g_prop _ _ HAs v)].
  pose proof (C55_close owner n N es (before ++ l) exact Hown) as HC. cbv zeta in HC. apply HC; clear HC.
  - intros w Hw. by apply Hes.
  - intros t c Hin. apply elem_of_app in Hin as [Hin|Hin]; [by destruct (Hbef t c Hin) as [->|(w & m & _ & ->)]|]. apply Hl in Hin. unfold acts in Hin. rewrite !elem_of_cons, elem_of_nil in Hin. by destruct Hin as [->|[->|[]]].
  - intros pre post E. specialize (Hx pre post E). assert (HAp : agree (erun ranking owner e0 pre) (rank_run owner es pre)) by (by apply agree_run).
    intros v. rewrite <- (g_box _ _ HAp v). apply Hx.
  - intros t. rewrite <- (g_todo _ _ HAs t), <- (g_queue _ _ HAs t). apply H3.
  - intros v Hv. rewrite rank_given_app, (rank_given_acts owner _ l), Qcplus_0_r by done. rewrite <- (rank_given_agree owner before v _ _ HA), (HX v Hv). f_equal. unfold handed. apply qsum_ext. intros w _. unfold part.
    rewrite Hed. by rewrite (copies_perm v _ _ (HP w)), (Permutation_length (HP w)).
Qed.

(** Concrete runs.  One thread: 1 - 2 is added and deleted again, 0 - 1 and 0 - 2 stay; vertex 1 has the label 5, the others 7 and 9.
    Loading, handover, initial mail, loops: all get the label 5.  A query that is due, and nobody logs: loading stops.
    Initial mail with one place in the queue stops, too, when the two leaves of a star are to be notified; with two places it ends. *)
Definition pick (s : qst (blank cc)) : tchoice (blank cc) :=
  match Term_Model.at_ (trm (who s)) 0 with
  | Term_Model.Look _ => if nil (tq s 0) then Loop (Ctl (if finished (blank cc) s then Term_Model.Close else Term_Model.Go)) else Pull (length (tq s 0)) 0
  | Term_Model.Work _ _ _ =>
      match todo (eng (who s)) 0, batch s 0 with
      | _ :: _, _ => Loop (Do Run)
      | [], (v, Plus _) :: _ => Loop (Do (AddEdges (a := blank cc) v []))
      | [], (v, Minus _) :: _ => Loop (Do (DelEdges (a := blank cc) v []))
      | [], [] => Loop (Ctl Term_Model.Finish)
      end
  | _ => Loop (Ctl Term_Model.Go)
  end.
Definition c_evs : list (nat * change unit) :=
  [(1, Plus (2, tt)); (2, Plus (1, tt)); (0, Plus (1, tt)); (1, Plus (0, tt)); (0, Plus (2, tt)); (2, Plus (0, tt)); (1, Minus 2); (2, Minus 1)].
Definition c_step ask (s : qst (blank cc)) (x : actor (blank cc)) := qstep (blank cc) (fun _ => 0) false 1 c_evs ask s x.
Fixpoint c_drive ask (k : nat) (s : qst (blank cc)) : list (actor (blank cc)) :=
  match k with
  | O => []
  | S k => let s1 := c_step ask s Remitter in let x := Thread 0 (pick s1) in Remitter :: x :: c_drive ask k (c_step ask s1 x)
  end.
Definition c_empty_state : est (blank cc) := empty cc (fun _ => [cc_empty]) (fun _ => cc_empty).
Definition c_sched ask : list (actor (blank cc)) := c_drive ask 120 (qstart (blank cc) c_empty_state (fun _ => 0%N)).
Definition c_loaded ask : qst (blank cc) := load cc (fun _ => 0) false 1 c_evs ask (fun _ => [cc_empty]) (fun _ => cc_empty) (c_sched ask).
Definition c_raw (v : nat) : N := nth v [7; 5; 9]%N 0%N.
Definition c_mail : list (nat * choice cc) := flat_map (fun v => (0, SendInit (a := cc) v (c_raw v)) :: repeat (0, Run) 12) [0; 1; 2].
Definition c_e0 : est cc := handover cc (fun _ c => c) (eng (who (c_loaded (fun _ => false)))).
Definition c_e : est cc := erun cc (fun _ => 0) c_e0 c_mail.
Definition c_end : wst cc := wrun cc (fun _ => 0) false 1 (wstart cc c_e (fun _ => false) (fun _ => N.of_nat (length (queue c_e 0)))) (concat (repeat (map (pair 0) (turns cc)) 60)).
Definition star (v : nat) : list (nat * unit) := match v with 0 => [(1, tt); (2, tt)] | 1 | 2 => [(0, tt)] | _ => [] end.
Example C89_case :
  (let s := c_loaded (fun _ => false) in rem s = Finished /\ nxt s = 8 /\ Term_Model.at_ (trm (who s)) 0 = Term_Model.Done /\ epoch s 0 = false /\
   map (edges (eng (who s))) [0; 1; 2] = [[(1, tt); (2, tt)]; [(0, tt)]; [(0, tt)]] /\ map (box (eng (who s))) [0; 1; 2] = [[cc_empty]; [cc_empty]; [cc_empty]]) /\
  (todo c_e 0 = [] /\ queue c_e 0 = [1; 2; 0] /\ Min_Model.given (fun _ => 0) c_e0 c_mail = [(0, 7%N); (1, 5%N); (2, 9%N)]) /\
  (Term_Model.at_ (trm c_end) 0 = Term_Model.Done /\ map (prop (eng c_end)) [0; 1; 2] = [5; 5; 5]%N /\ complete 1 c_end = true) /\
  (let s := c_loaded (fun k => k =? 3) in rem s = Asked /\ nxt s = 3 /\ Term_Model.at_ (trm (who s)) 0 <> Term_Model.Done) /\
  (let run cap := irun cc (fun _ => 0) cap (cc_start star) (repeat (0, Run) 3 ++ flat_map (fun v => (0, SendInit (a := cc) v (N.of_nat v)) :: repeat (0, Run) 12) [0; 1; 2]) in
   owned (fun _ => 0) 3 0 (leads (star 0) 0) = 2 /\
   queue (run 1) 0 = [1] /\ todo (run 1) 0 = [Put 2; Else []] /\ queue (run 2) 0 = [1; 2] /\ todo (run 2) 0 = []).
Proof. cbv zeta. split_and!; vm_compute; first [reflexivity|discriminate]. Qed.

Print Assumptions C89_load_ends.
Print Assumptions C89_loaded.
Print Assumptions C89_alike.
Print Assumptions C89_unlogged.
Print Assumptions C89_room.
Print Assumptions C89_jam.
Print Assumptions C89_notes.
Print Assumptions C89_notes_end.
Print Assumptions C89_components.
Print Assumptions C89_ranks.
