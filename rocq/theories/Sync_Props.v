(** C34: the synchronous engines. *)
From Verif Require Import Base Engine_Spec Engine_Model Engine_Proofs Engine_Props Sync_Spec Sync_Model Sync_Proofs SyncPrev_Proofs.

(** [verts t] are the vertices of thread [t], each once. *)
Definition layout (owner : nat -> nat) (verts : nat -> list nat) : Prop := (forall t v, v ∈ verts t -> owner v = t) /\ forall t, NoDup (verts t).

Lemma before_rounds (a : alg) owner n b p es sched : (forall v, owner v < n)%nat -> (forall t, todo (erun a owner (estart a b p es) sched) t = []) ->
  let e := erun a owner (estart a b p es) sched in (forall v, act e v <= 1) /\ forall v, unanswered (elog e) v -> 0 < act e v.
Proof.
  intros Hown Hq e. pose proof (wake_erun a owner n sched _ Hown (wake_start a owner n b p es)) as HW. fold e in HW, Hq. split; [apply (w_one _ _ _ _ HW)|].
  intros v Hu. destruct (w_told _ _ _ _ HW v Hu) as [?|(t & _ & Hw)]; [done|]. rewrite Hq in Hw. destruct Hw as [Hw|[? Hw]]; by apply elem_of_nil in Hw.
Qed.

Section claims.
Context (a : alg) (owner : nat -> nat) (n : nat) (b : nat -> list (cell_t a)) (p : nat -> prop_t a) (es : nat -> list (nat * edge_t a)).
(** [init]: how the initial mails were delivered. *)
Context (init : list (nat * choice a)) (verts : nat -> list nat) (sched : list nat).
Let e := erun a owner (estart a b p es) init.
Context (Hown : forall v, (owner v < n)%nat) (Hlay : layout owner verts) (Hinit : forall t, todo e t = []).

(** When the synchronous engine stops: the last round sent nothing, no vertex is active, and all
    news has been answered. *)
Theorem C34_stop : let s := srun a owner n verts (sstart a e) sched in
  sdone s = true ->
  sumt (stact s) n = 0 /\ (forall t, todo (sbase s) t = []) /\
  (forall v, v ∈ all_verts n verts -> act (sbase s) v = 0) /\ answered_for (all_verts n verts) (elog (sbase s)).
Proof.
  intros s Hd. destruct (before_rounds a owner n b p es init Hown Hinit) as [He1 He2]. destruct Hlay as [Hv1 Hv2].
  pose proof (sinv_srun a owner n verts Hv1 Hv2 sched _ (sinv_start a owner n verts Hv1 Hv2 e Hinit He1 He2)) as HI. fold s in HI.
  destruct (v_done _ _ _ _ HI Hd) as [Hz Hth].
  assert (Hq : forall t, todo (sbase s) t = [] /\ sacc s t = None).
  { intros t. destruct (decide (t < n)%nat) as [Ht|Ht]; [|by apply (v_range _ _ _ _ HI)]. specialize (Hth t Ht). unfold through in Hth.
    destruct (todo (sbase s) t), (sacc s t); done. }
  assert (Hact : forall v, v ∈ all_verts n verts -> act (sbase s) v = 0).
  { intros v Hin. apply in_all in Hin. destruct Hin as (t & i & Ht & Hi). destruct (decide (0 < act (sbase s) v)) as [Hp|]; [|lia]. exfalso.
    assert (Hpos : (i < spos s t)%nat).
    { specialize (Hth t Ht). unfold through in Hth. rewrite !andb_true_iff, Nat.eqb_eq in Hth. destruct Hth as [_ ->]. by eapply lookup_lt_Some. }
    destruct (v_vis _ _ _ _ HI t i v Ht Hi Hpos Hp) as [(k & _ & Hput)|?]; [|lia]. rewrite (proj1 (Hq k)) in Hput. by apply elem_of_nil in Hput. }
  split_and!; [done|apply Hq|done|].
  intros l1 v l2 Hin El. destruct (decide (Began v ∈ l2)) as [|Hn]; [done|]. exfalso.
  destruct (v_told _ _ _ _ HI v ltac:(exists l1, l2; done)) as [Hp|(t & Ht & Hw)].
  - rewrite Hact in Hp by done. lia.
  - rewrite (proj1 (Hq t)), (proj2 (Hq t)) in Hw. destruct Hw as [Hw|[[? Hw]|Hw]]; [by apply elem_of_nil in Hw|by apply elem_of_nil in Hw|done].
Qed.

(** In every completed round each vertex is looked at exactly once, and updated if it was active
    when the round began (or became active before its turn). *)
Theorem C34_rounds : let s := srun a owner n verts (sstart a e) sched in
  (forall l1 snap l2 snap' l3, slog s = l1 ++ Round snap :: l2 ++ Round snap' :: l3 -> no_round l2 -> round_ok (all_verts n verts) snap l2) /\
  (sdone s = true -> forall l1 snap l2, slog s = l1 ++ Round snap :: l2 -> no_round l2 -> round_ok (all_verts n verts) snap l2).
Proof.
  intros s. destruct (before_rounds a owner n b p es init Hown Hinit) as [He1 He2]. destruct Hlay as [Hv1 Hv2].
  pose proof (sinv_srun a owner n verts Hv1 Hv2 sched _ (sinv_start a owner n verts Hv1 Hv2 e Hinit He1 He2)) as HI. fold s in HI.
  split; [apply (v_past _ _ _ _ HI)|]. intros Hd l1 snap l2 E Hn. destruct (v_now _ _ _ _ HI) as (l1' & snap' & l2' & E' & Hn' & Hp).
  rewrite E' in E. destruct (no_round_tail _ _ _ _ _ _ E Hn' Hn) as (-> & -> & ->). intros v Hin. apply in_all in Hin. destruct Hin as (t & i & Ht & Hi).
  apply (Hp t i v Ht Hi). destruct (v_done _ _ _ _ HI Hd) as [_ Hth]. specialize (Hth t Ht). unfold through in Hth. rewrite !andb_true_iff, Nat.eqb_eq in Hth.
  destruct Hth as [_ ->]. by eapply lookup_lt_Some.
Qed.

(** The strict variant stops in the same way. *)
Theorem C34_strict_stop : let s := prun a owner n verts (pstart a e) sched in
  pdone s = true ->
  sumt (ptact s) n = 0 /\ (forall t, todo (pbase s) t = []) /\
  (forall v, v ∈ all_verts n verts -> act (pbase s) v = 0) /\ answered_for (all_verts n verts) (elog (pbase s)).
Proof.
  intros s Hd. destruct (before_rounds a owner n b p es init Hown Hinit) as [He1 He2]. destruct Hlay as [Hv1 Hv2].
  pose proof (pinv_prun a owner n verts Hv1 Hv2 sched _ (pinv_start a owner n verts Hv1 Hv2 e Hinit He1 He2)) as HI. fold s in HI.
  destruct (p_done _ _ _ _ HI Hd) as (Hg & Hz & Hth).
  assert (Hq : forall t, todo (pbase s) t = []).
  { intros t. destruct (decide (t < n)%nat) as [Ht|Ht]; [|by apply (p_range _ _ _ _ HI)]. specialize (Hth t Ht). unfold pthrough in Hth.
    by destruct (todo (pbase s) t). }
  assert (Hact : forall v, v ∈ all_verts n verts -> act (pbase s) v = 0).
  { intros v Hin. apply in_all in Hin. destruct Hin as (t & i & Ht & Hi). destruct (decide (0 < act (pbase s) v)) as [Hp|]; [|lia]. exfalso.
    destruct (p_act _ _ _ _ HI Hg t i v Ht Hi Hp) as [(k & _ & Hput)|?]; [|lia]. rewrite (Hq k) in Hput. by apply elem_of_nil in Hput. }
  split_and!; [done|apply Hq|done|].
  intros l1 v l2 Hin El. destruct (decide (Began v ∈ l2)) as [|Hn]; [done|]. exfalso.
  destruct (p_told _ _ _ _ HI v ltac:(exists l1, l2; done)) as [Hp|(t & Ht & Hw)].
  - rewrite Hact in Hp by done. lia.
  - rewrite (Hq t) in Hw. destruct Hw as [Hw|[? Hw]]; by apply elem_of_nil in Hw.
Qed.

(** Its rounds: exactly the vertices active at the beginning of a round are updated, once, with
    exactly the mail they had at the beginning of the round. *)
Theorem C34_strict_rounds : let s := prun a owner n verts (pstart a e) sched in
  (forall l1 x y l2 x' y' l3, plog s = l1 ++ PRound x y :: l2 ++ PRound x' y' :: l3 -> no_pround l2 -> pround_ok (read_all a) (all_verts n verts) x y l2) /\
  (pdone s = true -> forall l1 x y l2, plog s = l1 ++ PRound x y :: l2 -> no_pround l2 -> pround_ok (read_all a) (all_verts n verts) x y l2).
Proof.
  intros s. destruct (before_rounds a owner n b p es init Hown Hinit) as [He1 He2]. destruct Hlay as [Hv1 Hv2].
  pose proof (pinv_prun a owner n verts Hv1 Hv2 sched _ (pinv_start a owner n verts Hv1 Hv2 e Hinit He1 He2)) as HI. fold s in HI.
  split; [apply (p_past _ _ _ _ HI)|]. intros Hd l1 x y l2 E Hn. destruct (p_now _ _ _ _ HI) as (l1' & x' & y' & l2' & E' & Hn' & Hp).
  rewrite E' in E. destruct (no_pround_tail _ _ _ _ _ _ _ _ E Hn' Hn) as (-> & -> & -> & ->). intros v Hin. apply in_all in Hin. destruct Hin as (t & i & Ht & Hi).
  destruct (p_done _ _ _ _ HI Hd) as (Hg & _ & Hth). specialize (Hth t Ht). unfold pthrough in Hth. rewrite !andb_true_iff, Nat.eqb_eq in Hth.
  destruct Hth as [_ Hlen]. specialize (Hp t i v Ht Hi). rewrite Hg in Hp. destruct Hp as [Hp _].
  destruct Hp as [-> _]; [rewrite Hlen; by eapply lookup_lt_Some|]. unfold expected. by destruct (x v =? 0)%nat.
Qed.
End claims.

(** The small algorithm of C31 with three vertices on two threads. *)
Definition toy_verts (t : nat) : list nat := match t with 0 => [0; 2] | 1 => [1] | _ => [] end%nat.
Definition toy_init : est toy := erun toy toy_owner toy_start ([(0, SendInit (a := toy) 0 3)] ++ runs 0 20)%nat.
Definition visited (l : list sevent) : list (option (nat * bool)) := map (fun e => match e with Round _ => None | Visit v b => Some (v, b) end) l.
Example C34_case :
  let s := srun toy toy_owner 2 toy_verts (sstart toy toy_init) (repeat 1 9 ++ repeat 0 9 ++ repeat 1 9 ++ repeat 0 9)%nat in
  map (todo toy_init) [0; 1]%nat = [[]; []] /\ sdone s = true /\ map (prop (sbase s)) [0; 1; 2]%nat = [3; 3; 3]%nat /\
  visited (slog s) = [None; Some (1, true); Some (0, false); Some (2, true)]%nat.
Proof. vm_compute. done. Qed.
(** A chain 0 -> 1 -> 2 -> 3: one step per round. *)
Definition chain_init : est toy :=
  erun toy (fun _ => 0)%nat (estart toy (fun _ => [9%nat]) (fun _ => 9%nat) (fun v => if (v <? 3)%nat then [(S v, tt)] else [])) ([(0, SendInit (a := toy) 0 3)] ++ runs 0 20)%nat.
Example C34_strict_case :
  let s := prun toy (fun _ => 0)%nat 1 (fun t => if (t =? 0)%nat then [0; 1; 2; 3]%nat else []) (pstart toy chain_init) (repeat 0 60)%nat in
  pdone s = true /\ map (prop (pbase s)) [0; 1; 2; 3]%nat = [3; 3; 3; 3]%nat /\
  map (fun e => match e with PRound _ _ => None | Update v got => Some (v, got) end) (plog s) = [None; Some (1, [3]); None; Some (2, [3]); None; Some (3, [3])]%nat.
Proof. vm_compute. done. Qed.
(** A notification can stay in a queue for ever: vertex 2 is marked active, its thread visits it and
    finds the queue still empty, and only then the notification is put. *)
Definition late_init : est toy :=
  erun toy toy_owner (estart toy (fun _ => [9%nat]) (fun _ => 9%nat) (fun v => if (v <? 2)%nat then [(S v, tt)] else [])) ([(0, SendInit (a := toy) 0 3)] ++ runs 0 20)%nat.
Example C34_leftover_notification :
  let s := srun toy toy_owner 2 toy_verts (sstart toy late_init) (repeat 1 7 ++ repeat 0 3 ++ repeat 1 9 ++ repeat 0 20 ++ repeat 1 9 ++ repeat 0 9)%nat in
  sdone s = true /\ map (prop (sbase s)) [0; 1; 2]%nat = [3; 3; 3]%nat /\ map (queue (sbase s)) [0; 1]%nat = [[2]; []]%nat.
Proof. vm_compute. done. Qed.
Print Assumptions C34_stop.
Print Assumptions C34_rounds.
Print Assumptions C34_strict_stop.
Print Assumptions C34_strict_rounds.
