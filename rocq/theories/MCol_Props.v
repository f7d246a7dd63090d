(** Properties of colouring by messages (cmd/lp-colouring with -msg, static graphs). *)
From Verif Require Import Base Bitmap_Spec Bitmap_Model Vertex_Model Active_Spec Active_Model Active_Proofs.
From Verif Require Import Colour_Spec MCol_Spec MCol_Model MCol_Graph MCol_Proofs MCol_Wait MCol_Ends.
Open Scope nat_scope.

Section props.
Context (wt : bool) (lines : list (nat * nat)) (owner : nat -> nat) (n : nat).
(** The state after a run: initial notes may be sent by any thread at any time. *)
Definition mrun (sched : list (nat * achoice (mcolouring wt))) : ast (mcolouring wt) := arun (mcolouring wt) owner (mstart wt lines) sched.
Definition colour_of (s : ast (mcolouring wt)) (v : nat) : N := mcol (aprop s v).
(** Vertices have owners among the threads; no vertex has 2^32 - 2 edges or more. *)
Definition fits : Prop := (forall v, owner v < n) /\ forall v, (N.of_nat (length (mentions lines v)) < MAGIC)%N.
End props.
(** The line numbers of the edges of a vertex: edge [i] of [v] to [u] is edge [j] of [u], back to [v]. *)
Theorem C81_graph : forall lines v i u j, t_out (load lines) v !! i = Some (u, j) -> t_out (load lines) u !! j = Some (v, i).
Proof. intros lines. apply (k_pair _ _ (load_ok lines)). Qed.
Theorem C81_mentions : forall lines v, map fst (t_out (load lines) v) = mentions lines v /\ t_in (load lines) v = length (mentions lines v).
Proof.
  intros lines v. split; [apply (k_men _ _ (load_ok lines))|]. rewrite <- (k_men _ _ (load_ok lines)), map_length. apply (k_len _ _ (load_ok lines)).
Qed.

(** Whatever the graph and the schedule, no vertex panics, and no colour exceeds the degree. *)
Theorem C81_safe : forall wt lines owner n sched v, fits lines owner n -> ok_sched wt n sched ->
  let s := mrun wt lines owner sched in
  mpanic (aprop s v) = false /\ (colour_of wt s v = EMPTY \/ (colour_of wt s v <= N.of_nat (length (mentions lines v)))%N).
Proof.
  intros wt lines owner n sched v [Hown Hdeg] Hs. cbn zeta.
  pose proof (minv_run wt lines owner n Hown Hdeg sched _ (minv_start wt lines owner n Hown Hdeg) Hs) as HI. fold (mrun wt lines owner sched) in HI.
  destruct (m_good _ _ _ _ _ HI v) as [G1 G2 G3 G4 _ _ _]. split; [done|]. rewrite <- es_len. exact G4.
Qed.

(** When nothing is left to do, all vertices are coloured and neighbours differ, with -w and without. *)
Theorem C81_proper : forall wt lines owner n sched, fits lines owner n -> ok_sched wt n sched ->
  let s := mrun wt lines owner sched in
  rest wt s -> started wt lines s ->
  coloured lines (colour_of wt s) /\ forall v, vertex lines v -> (colour_of wt s v <= N.of_nat (length (mentions lines v)))%N.
Proof.
  intros wt lines owner n sched [Hown Hdeg] Hs. cbn zeta. intros Hr Hst.
  pose proof (minv_run wt lines owner n Hown Hdeg sched _ (minv_start wt lines owner n Hown Hdeg) Hs) as HI. fold (mrun wt lines owner sched) in HI.
  split.
  - intros u v Hj. destruct (prio v u) eqn:E.
    + apply not_eq_sym. apply (rest_diff wt lines owner n Hown Hdeg _ v u HI Hr Hst); [unfold joined in *; tauto|].
      destruct (decide (u = v)) as [->|Hne]; [by rewrite prio_irrefl in E|]. rewrite prio_cases, E by done. done.
    + by apply (rest_diff wt lines owner n Hown Hdeg _ u v HI Hr Hst).
  - intros v Hv. pose proof (rest_all wt lines owner n Hown Hdeg _ v HI Hr Hst Hv) as Hne.
    destruct (g_col _ _ _ _ (m_good _ _ _ _ _ HI v)) as [?|H]; [done|]. by rewrite es_len in H.
Qed.

(** Without self-loops there is a bound on the number of steps that do something, besides six for
    every initial note; and while the run is not over such a step exists. *)
Theorem C81_ends : forall wt lines owner n, fits lines owner n -> no_loops lines -> exists B, forall sched, ok_sched wt n sched ->
  total wt owner (acts wt) (mstart wt lines) sched <= B + 6 * total wt owner (notes wt) (mstart wt lines) sched.
Proof. intros wt lines owner n [Hown Hdeg] Hl. by apply ends_bound. Qed.
Theorem C81_goes_on : forall wt lines owner n sched, fits lines owner n -> ok_sched wt n sched ->
  let s := mrun wt lines owner sched in
  ~ rest wt s -> exists t c, t < n /\ (c = ARun \/ c = APop) /\ acts wt s t c = 1.
Proof.
  intros wt lines owner n sched [Hown Hdeg] Hs. cbn zeta.
  pose proof (minv_run wt lines owner n Hown Hdeg sched _ (minv_start wt lines owner n Hown Hdeg) Hs) as HI. fold (mrun wt lines owner sched) in HI.
  set (s := mrun wt lines owner sched) in *. intros Hr. pose proof (m_base _ _ _ _ _ HI) as HB.
  assert (Hdec : (exists t, t < n /\ (atodo s t <> [] \/ aqueue s t <> [])) \/ forall t, t < n -> atodo s t = [] /\ aqueue s t = []).
  { clear -n. induction n as [|k IH]; [right; lia|]. destruct IH as [(t & Ht & H)|IH]; [left; exists t; split; [lia|done]|].
    destruct (atodo s k) eqn:E1; [|left; exists k; split; [lia|left; congruence]]. destruct (aqueue s k) eqn:E2; [|left; exists k; split; [lia|right; congruence]].
    right. intros t Ht. destruct (decide (t = k)) as [->|]; [done|]. apply IH. lia. }
  destruct Hdec as [(t & Ht & H)|Hall].
  - destruct (atodo s t) as [|o l] eqn:Et.
    + exists t, APop. split_and!; [done|by right|]. unfold acts. rewrite Et. destruct H as [?|H]; [done|]. by destruct (aqueue s t).
    + exists t, ARun. split_and!; [done|by left|]. unfold acts. by rewrite Et.
  - exfalso. apply Hr. split; intros t.
    + destruct (atodo s t) as [|o l] eqn:Et; [done|]. assert (Ht : t < n) by (apply (i_mine _ _ _ _ HB t o); rewrite Et; by left). destruct (Hall t Ht). congruence.
    + destruct (aqueue s t) as [|[v x] l] eqn:Et; [done|]. assert (Ho : owner v = t) by (apply (i_queue _ _ _ _ HB t v x); rewrite Et; by left).
      destruct (Hall t ltac:(rewrite <- Ho; apply Hown)). congruence.
Qed.

(** With a self-loop the run never ends: once all vertices have been told to start, there is always
    something left to do. *)
Theorem C81_loop_refuted : forall wt lines owner n sched v, fits lines owner n -> ok_sched wt n sched -> (v, v) ∈ lines ->
  let s := mrun wt lines owner sched in
  started wt lines s -> ~ rest wt s /\ exists t c, t < n /\ (c = ARun \/ c = APop) /\ acts wt s t c = 1.
Proof.
  intros wt lines owner n sched v Hf Hs Hv. cbn zeta. intros Hst.
  assert (Hr : ~ rest wt (mrun wt lines owner sched)).
  { intros Hr. destruct (C81_proper wt lines owner n sched Hf Hs Hr Hst) as [Hc _]. apply (Hc v v); [by left|done]. }
  split; [done|]. by apply (C81_goes_on wt lines owner n sched).
Qed.

(** With -w and without self-loops: a vertex never changes its colour, and at the end the colouring is
    the greedy one in the order of priorities, whatever the schedule. *)
Theorem C81_wait_once : forall lines owner n sched sched' v, fits lines owner n -> no_loops lines -> ok_sched true n (sched ++ sched') ->
  colour_of true (mrun true lines owner sched) v <> EMPTY ->
  colour_of true (mrun true lines owner (sched ++ sched')) v = colour_of true (mrun true lines owner sched) v.
Proof.
  intros lines owner n sched sched' v [Hown Hdeg] Hl Hs Hc. unfold mrun, arun in *. rewrite fold_left_app.
  destruct (winv_run lines owner n Hown Hdeg Hl sched _ (winv_start lines owner n Hown Hdeg Hl)) as [HW _].
  { intros t c H. apply Hs. apply elem_of_app. by left. }
  destruct (winv_run lines owner n Hown Hdeg Hl sched' _ HW) as [_ H].
  { intros t c H. apply Hs. apply elem_of_app. by right. }
  by apply H.
Qed.
Theorem C81_wait_greedy : forall lines owner n sched, fits lines owner n -> no_loops lines -> ok_sched true n sched ->
  let s := mrun true lines owner sched in
  rest true s -> started true lines s -> greedily prio lines (colour_of true s).
Proof.
  intros lines owner n sched [Hown Hdeg] Hl Hs. cbn zeta. intros Hr Hst v Hv.
  destruct (winv_run lines owner n Hown Hdeg Hl sched _ (winv_start lines owner n Hown Hdeg Hl) Hs) as [HW _]. fold (mrun true lines owner sched) in HW.
  set (s := mrun true lines owner sched) in *.
  pose proof (rest_all true lines owner n Hown Hdeg s v (w_inv _ _ _ _ HW) Hr Hst Hv) as Hne.
  destruct (w_pick _ _ _ _ HW v Hne) as [P1 P2]. split.
  - intros (u & Hj & Hp & Hc). apply P1. apply (joined_es true lines owner n Hown Hdeg) in Hj as (i & j & E). by exists i, u, j.
  - intros d Hd. destruct (P2 d Hd) as (i & u & j & E & Hp & Hc). exists u. split_and!; [|done|done]. apply (joined_es true lines owner n Hown Hdeg). by exists i, j.
Qed.

(** Concrete runs; one thread. *)
Definition quiet_upto {wt} (n : nat) (s : ast (mcolouring wt)) : bool :=
  forallb (fun t => match atodo s t, aqueue s t with [], [] => true | _, _ => false end) (seq 0 n).
Definition work {wt} (k : nat) : list (nat * achoice (mcolouring wt)) :=
  concat (replicate k [(0, APop); (0, ARun); (0, ARun); (0, ARun); (0, ARun); (0, ARun); (0, ARun)]).
Definition tell {wt} (v : nat) : list (nat * achoice (mcolouring wt)) := [(0, @ANote (mcolouring wt) v init_note); (0, ARun); (0, ARun)].
Lemma ok_tell wt v : ok_sched wt 1 (tell v).
Proof. intros t c H. unfold tell in H. repeat (apply elem_of_cons in H as [[= -> ->]|H]; [cbn; repeat split; lia|]). by apply elem_of_nil in H. Qed.
Lemma ok_work wt k : ok_sched wt 1 (work k).
Proof.
  intros t c H. unfold work in H. induction k as [|k IH]; cbn [replicate concat] in H; [by apply elem_of_nil in H|].
  apply elem_of_app in H as [H|H]; [|by apply IH]. repeat (apply elem_of_cons in H as [[= -> ->]|H]; [done|]). by apply elem_of_nil in H.
Qed.
Lemma ok_app wt k l l' : ok_sched wt k l -> ok_sched wt k l' -> ok_sched wt k (l ++ l').
Proof. intros H1 H2 t c [H|H]%elem_of_app; [by apply H1|by apply H2]. Qed.
Lemma rest_check wt lines sched : (forall v, (N.of_nat (length (mentions lines v)) < MAGIC)%N) -> ok_sched wt 1 sched ->
  quiet_upto 1 (mrun wt lines (fun _ => 0) sched) = true -> rest wt (mrun wt lines (fun _ => 0) sched).
Proof.
  intros Hd Hs Hq. assert (Ho1 : forall v : nat, (fun _ : nat => 0) v < 1) by (intros; lia).
  pose proof (minv_run wt lines (fun _ => 0) 1 Ho1 Hd sched _ (minv_start wt lines (fun _ => 0) 1 Ho1 Hd) Hs) as HI.
  fold (mrun wt lines (fun _ => 0) sched) in HI. pose proof (m_base _ _ _ _ _ HI) as HB. set (s := mrun wt lines (fun _ => 0) sched) in *.
  unfold quiet_upto in Hq. cbn [seq forallb] in Hq. split; intros t.
  - destruct (atodo s t) as [|o l] eqn:Et; [done|]. assert (Ht : t < 1) by (apply (i_mine _ _ _ _ HB t o); rewrite Et; by left).
    assert (t = 0) as -> by lia. by rewrite Et in Hq.
  - destruct (aqueue s t) as [|[v x] l] eqn:Et; [done|]. assert (Ho : 0 = t) by (apply (i_queue _ _ _ _ HB t v x); rewrite Et; by left).
    subst t. rewrite Et in Hq. by destruct (atodo s 0).
Qed.
Lemma edge_deg v : (N.of_nat (length (mentions [(0, 1)%nat] v)) < MAGIC)%N.
Proof. destruct v as [|[|v]]; done. Qed.

(** Without -w the result depends on the schedule, and need not be the greedy one. *)
Theorem C81_plain_refuted : exists lines sched sched',
  let s := mrun false lines (fun _ => 0) sched in let s' := mrun false lines (fun _ => 0) sched' in
  fits lines (fun _ => 0) 1 /\ no_loops lines /\ ok_sched false 1 sched /\ ok_sched false 1 sched' /\ rest false s /\ rest false s' /\
  started false lines s /\ started false lines s' /\
  greedily prio lines (colour_of false s) /\ ~ greedily prio lines (colour_of false s') /\ colour_of false s 0 <> colour_of false s' 0.
Proof.
  exists [(0, 1)], (tell 0 ++ work 1 ++ tell 1 ++ work 3), (tell 1 ++ work 1 ++ tell 0 ++ work 4). cbn zeta.
  assert (Hok : ok_sched false 1 (tell 0 ++ work 1 ++ tell 1 ++ work 3)) by (apply ok_app; [apply ok_tell|apply ok_app; [apply ok_work|apply ok_app; [apply ok_tell|apply ok_work]]]).
  assert (Hok' : ok_sched false 1 (tell 1 ++ work 1 ++ tell 0 ++ work 4)) by (apply ok_app; [apply ok_tell|apply ok_app; [apply ok_work|apply ok_app; [apply ok_tell|apply ok_work]]]).
  assert (Hst : forall s : ast (mcolouring false), existsb (fun e => if decide (e = Began_send 0) then true else false) (alog s) = true ->
    existsb (fun e => if decide (e = Began_send 1) then true else false) (alog s) = true -> started false [(0, 1)] s).
  { intros s H0 H1 v (u & Hj). assert (Hv : v = 0 \/ v = 1).
    { destruct Hj as [H%elem_of_list_singleton|H%elem_of_list_singleton]; injection H as -> ->; tauto. }
    apply existsb_exists in H0 as (e0 & I0 & E0). apply existsb_exists in H1 as (e1 & I1 & E1). destruct (decide _) in E0; [|done]. destruct (decide (e1 = _)) in E1; [|done]. subst.
    destruct Hv as [->| ->]; by apply elem_of_list_In. }
  split_and!.
  - split; [lia|exact edge_deg].
  - intros v H%elem_of_list_singleton. injection H as -> H. done.
  - exact Hok.
  - exact Hok'.
  - apply rest_check; [exact edge_deg|done|vm_compute; reflexivity].
  - apply rest_check; [exact edge_deg|done|vm_compute; reflexivity].
  - apply Hst; vm_compute; reflexivity.
  - apply Hst; vm_compute; reflexivity.
  - set (s := mrun _ _ _ _). assert (E0 : colour_of false s 0 = 0%N) by (vm_compute; reflexivity). assert (E1 : colour_of false s 1 = 1%N) by (vm_compute; reflexivity).
    clearbody s. assert (P0 : prio 0 1 = true) by reflexivity. assert (P1 : prio 1 0 = false) by reflexivity.
    intros v (u & Hj). assert (Hv : (u = 0 /\ v = 1) \/ (u = 1 /\ v = 0)).
    { destruct Hj as [H%elem_of_list_singleton|H%elem_of_list_singleton]; injection H as -> ->; tauto. }
    destruct Hv as [[-> ->]|[-> ->]].
    + rewrite E1. split.
      * intros (u & Hj' & Hp & Hc). assert (u = 0) as ->; [|congruence].
        destruct Hj' as [H%elem_of_list_singleton|H%elem_of_list_singleton]; injection H; intros; subst; done.
      * intros d Hd. exists 0. split_and!; [done|done|]. rewrite E0. lia.
    + rewrite E0. split; [|lia]. intros (u & Hj' & Hp & Hc).
      destruct Hj' as [H%elem_of_list_singleton|H%elem_of_list_singleton]; injection H; intros; subst; done.
  - set (s := mrun _ _ _ _). assert (E0 : colour_of false s 0 = 1%N) by (vm_compute; reflexivity). clearbody s.
    intros H. destruct (H 0) as [_ H0]; [exists 1; right; by left|]. rewrite E0 in H0. destruct (H0 0%N) as (u & Hj & Hp & _); [lia|].
    destruct Hj as [Hj%elem_of_list_singleton|Hj%elem_of_list_singleton]; injection Hj; intros; subst; done.
  - vm_compute. discriminate.
Qed.

(** A path 0-1-2 with -w, the middle told last: colours 0, 1, 0. *)
Example C81_case : let s := mrun true [(0, 1); (1, 2)] (fun _ => 0) (tell 2 ++ tell 0 ++ tell 1 ++ work 9) in
  (map (colour_of true s) [0; 1; 2], quiet_upto 1 s) = ([0%N; 1%N; 0%N], true).
Proof. vm_compute. reflexivity. Qed.
(** A self-loop: after 40 rounds vertex 0 still changes its colour. *)
Example C81_loop_case : let s k := mrun false [(0, 0)] (fun _ => 0) (tell 0 ++ work k) in
  map (fun k => (colour_of false (s k) 0, quiet_upto 1 (s k))) [1; 3; 39; 40; 41; 42; 43]  =
  [(0%N, false); (1%N, false); (1%N, false); (EMPTY, false); (0%N, false); (EMPTY, false); (1%N, false)].
Proof. vm_compute. reflexivity. Qed.

Print Assumptions C81_graph. Print Assumptions C81_mentions. Print Assumptions C81_safe. Print Assumptions C81_proper.
Print Assumptions C81_ends. Print Assumptions C81_goes_on. Print Assumptions C81_loop_refuted. Print Assumptions C81_wait_once.
Print Assumptions C81_wait_greedy. Print Assumptions C81_plain_refuted.
