(** Coming to rest when notifications only go down: a vertex that is told something tells only vertices of smaller rank. *)
From Verif Require Import Base Engine_Spec Engine_Model Engine_Proofs Engine_Shape Engine_Props Rest_Spec Rest_Proofs.
Open Scope nat_scope.

Section prio.
Context (a : alg) (owner : nat -> nat) (n : nat) (Hown : forall v, owner v < n).
(** The rank of a vertex; which messages can occur; a bound for the cells of a mailbox and one for the messages of a reaction. *)
Context (rk : nat -> nat) (okm : nat -> nat -> msg_t a -> Prop) (oki : nat -> msg_t a -> Prop) (cells B : nat).
(** Which messages may cause a notification. *)
Context (tells : nat -> nat -> bool).
Context (Htells : forall m s d b, okm s d m -> snd (merge a m s d b) = true -> tells s d = true)
  (Hrk : forall m s d, okm s d m -> tells s d = true -> rk d < rk s)
  (Hcells : forall m s d b, okm s d m -> length b <= cells -> length (fst (merge a m s d b)) <= cells)
  (Hcells0 : forall m v b, oki v m -> length b <= cells -> length (fst (merge a m v v b)) <= cells).
Notation est := (est a).

(** What a reaction sends can occur, and is not too much. *)
Definition reacts (v : nat) (k : kind (edge_t a)) (es : list (nat * edge_t a)) : Prop :=
  forall p cs, let '(_, ms, ms') := react a v k p es cs in
  Forall (fun '(d, m) => okm v d m) ms /\ Forall (fun '(d, m) => okm v d m) ms' /\ length ms + length ms' <= B.
Definition pop (es : nat -> list (nat * edge_t a)) (o : op a) : Prop :=
  match o with
  | Merge s d m => okm s d m
  | Begin v k | Scan v k _ _ => reacts v k (es v)
  | Else l => Forall (fun '(s, d, m) => okm s d m) l
  | Init v m => oki v m
  | _ => True
  end.
Record pinv (s : est) : Prop := {
  p_threads : threads a n s;
  p_box : forall v, length (box s v) <= cells;
  p_ops : forall t, Forall (pop (edges s)) (todo s t);
  p_upd : forall v, reacts v KUpd (edges s v) }.

Lemma pinv_step s t c : pinv s -> c ∈ acts a -> pinv (estep a owner s t c).
Proof.
  intros Hs Hc. destruct (decide (can a s t c = true)) as [Hcan|Hcan]; [|rewrite cannot; [done..|by destruct (can a s t c)]].
  assert (Ht : t < n). { destruct (decide (t < n)) as [|Ht]; [done|]. destruct (p_threads s Hs t ltac:(lia)) as [E1 E2]. unfold can in Hcan. rewrite E1, E2 in Hcan. by destruct c. }
  assert (HO : forall l, Forall (pop (edges s)) l -> forall k, Forall (pop (edges s)) (upd (todo s) t l k)).
  { intros l Hl k. destruct (decide (k = t)) as [->|Hne]; us; [done|apply (p_ops s Hs)]. }
  unfold acts in Hc. rewrite !elem_of_cons, elem_of_nil in Hc. destruct Hc as [->|[->|[]]]; unfold can in Hcan; unfold estep.
  - destruct (todo s t) as [|o rest] eqn:Et; [done|]. pose proof (p_ops s Hs t) as Hop. rewrite Et in Hop. apply list.Forall_cons in Hop as [Ho Hrest].
    unfold exec_op. destruct o as [v d m|d|d|v|v k|v k i got|l|v m]; cbn [pop] in Ho.
    + pose proof (Hcells m v d (box s d) Ho (p_box s Hs d)) as HC. destruct (merge a m v d (box s d)) as [b new] eqn:Em. cbn [fst] in HC. split; try apply Hs.
      * intros k Hk. cbn. us. by apply (p_threads s Hs).
      * intros w. cbn. destruct (decide (w = d)) as [->|Hne]; us; [done|apply Hs].
      * apply HO. destruct new; by repeat constructor.
    + destruct (act s d =? 0); (split; try apply Hs; [intros k Hk; cbn; us; by apply (p_threads s Hs)|apply HO; by repeat constructor]).
    + split; try apply Hs; [|by apply HO]. intros k Hk. cbn. pose proof (Hown d). us. by apply (p_threads s Hs).
    + split; try apply Hs; [|by apply HO]. intros k Hk. cbn. us. by apply (p_threads s Hs).
    + split; try apply Hs; [|apply HO; by repeat constructor]. intros k' Hk. cbn. us. by apply (p_threads s Hs).
    + destruct (box s v !! i) as [c1|] eqn:Ei.
      * destruct (take a c1) as [c' x]. split; try apply Hs.
        -- intros k' Hk. cbn. us. by apply (p_threads s Hs).
        -- intros w. cbn. destruct (decide (w = v)) as [->|Hne]; us; [rewrite insert_length|]; apply Hs.
        -- apply HO. by constructor.
      * specialize (Ho (prop s v) got). destruct (react a v k (prop s v) (edges s v) got) as [[p ms] ms'] eqn:Er. destruct Ho as (R1 & R2 & _).
        split; try apply Hs.
        -- intros k' Hk. cbn. us. by apply (p_threads s Hs).
        -- apply HO. apply Forall_app. split; [|constructor; [|done]].
           ++ apply Forall_fmap. eapply List.Forall_impl; [|exact R1]. by intros [d m].
           ++ cbn. apply Forall_fmap. eapply List.Forall_impl; [|exact R2]. by intros [d m].
    + split; try apply Hs; [intros k Hk; cbn; us; by apply (p_threads s Hs)|]. apply HO. destruct (sent s t =? 0); [|done].
      apply Forall_app. split; [|done]. apply Forall_fmap. eapply List.Forall_impl; [|exact Ho]. by intros [[v d] m].
    + pose proof (Hcells0 m v (box s v) Ho (p_box s Hs v)) as HC. destruct (merge a m v v (box s v)) as [b new] eqn:Em. cbn [fst] in HC. split; try apply Hs.
      * intros k Hk. cbn. us. by apply (p_threads s Hs).
      * intros w. cbn. destruct (decide (w = v)) as [->|Hne]; us; [done|apply Hs].
      * apply HO. destruct new; [|done]. constructor; [apply Hs|done].
  - destruct (todo s t) as [|o rest] eqn:Et; [|done]. destruct (queue s t) as [|v q] eqn:Eq; [done|]. split; try apply Hs.
    + intros k Hk. cbn. us. by apply (p_threads s Hs).
    + apply HO. constructor; [done|]. constructor; [apply Hs|constructor].
Qed.

(** Weights: [g k] is enough for a message from a vertex of rank [k]. *)
Fixpoint g (k : nat) : nat := match k with 0 => 1 | S k => 8 + cells + B * g k end.
Definition wreact (v : nat) : nat := 1 + B * g (rk v).
Definition wscan (v i : nat) : nat := 1 + (cells - i) + wreact v.
Definition wbegin (v : nat) : nat := 1 + wscan v 0.
Definition wq (v : nat) : nat := 2 + wbegin v.
Definition wm (s d : nat) : nat := if tells s d then g (S (rk d)) else 1.
Definition wl (l : list (nat * nat * msg_t a)) : nat := list_sum (map (fun '(s, d, _) => wm s d) l).
Definition opw (o : op a) : nat :=
  match o with
  | Merge s d _ => wm s d | Cas d => wq d + 2 | Put d => wq d + 1 | Dec _ => 1
  | Begin v _ => wbegin v | Scan v _ i _ => wscan v i | Else l => 1 + wl l | Init v _ => 1 + wbegin v
  end.
Definition lw (l : list (op a)) : nat := list_sum (map opw l).
Lemma lw_cons o l : lw (o :: l) = opw o + lw l. Proof. done. Qed.
Lemma lw_nil : lw [] = 0. Proof. done. Qed.
Lemma lw_app l l' : lw (l ++ l') = lw l + lw l'.
Proof. unfold lw. by rewrite map_app, list_sum_app. Qed.
Lemma g_S k : g (S k) = 8 + cells + B * g k. Proof. done. Qed.
Lemma g_pos k : 0 < g k. Proof. destruct k; [simpl; lia|]. rewrite g_S. lia. Qed.
Lemma g_mono k k' : k <= k' -> g k <= g k'.
Proof.
  assert (H1 : forall k, g k <= g (S k)). { induction k0 as [|j IH]; [simpl; lia|]. rewrite !g_S in *. nia. }
  induction 1 as [|k' _ IH]; [done|]. specialize (H1 k'). lia.
Qed.
Lemma wm_pos s d : 0 < wm s d.
Proof. unfold wm. destruct (tells s d); [apply g_pos|lia]. Qed.
Lemma wm_le s d m : okm s d m -> wm s d <= g (rk s).
Proof. intros Ho. unfold wm. destruct (tells s d) eqn:E; [|apply g_pos]. apply g_mono. by apply (Hrk m s d). Qed.
Lemma wl_le v (ms : list (nat * msg_t a)) : Forall (fun '(d, m) => okm v d m) ms -> wl (map (fun '(d, m) => (v, d, m)) ms) <= length ms * g (rk v).
Proof.
  unfold wl. induction 1 as [|[d m] l H _ IH]; [simpl; lia|]. cbn [map list_sum length]. change (list_sum (?x :: ?y)) with (x + list_sum y). pose proof (wm_le v d m H). lia.
Qed.
Lemma lw_merges v (ms : list (nat * msg_t a)) : lw (map (fun '(d, m) => Merge v d m) ms) = wl (map (fun '(d, m) => (v, d, m)) ms).
Proof. unfold lw, wl. rewrite !map_map. f_equal. apply map_ext. by intros [d m]. Qed.
Lemma lw_merges' (l : list (nat * nat * msg_t a)) : lw (map (fun '(v, d, m) => Merge v d m) l) = wl l.
Proof. unfold lw, wl. rewrite !map_map. f_equal. apply map_ext. by intros [[v d] m]. Qed.
Lemma wm_tells s d : tells s d = true -> wm s d = wq d + 3.
Proof. intros H. unfold wm. rewrite H, g_S. unfold wq, wbegin, wscan, wreact. lia. Qed.

Definition qw (l : list nat) : nat := list_sum (map wq l).
Definition work (s : est) : nat := sumt (fun t => lw (todo s t)) n + sumt (fun t => qw (queue s t)) n.
Lemma work_todo s s' t : t < n -> (forall k, k <> t -> todo s' k = todo s k) -> (forall k, queue s' k = queue s k) ->
  lw (todo s' t) < lw (todo s t) -> work s' < work s.
Proof.
  intros Ht H1 H2. unfold work. rewrite (sumt_ext (fun t => qw (queue s' t)) (fun t => qw (queue s t))) by (intros; by rewrite H2).
  pose proof (sumt_change (fun t => lw (todo s' t)) (fun t => lw (todo s t)) n t Ht ltac:(intros; cbn beta; by rewrite H1)) as H. cbn beta in H. lia.
Qed.
Lemma work_queue s s' t t' : t < n -> t' < n -> (forall k, k <> t -> todo s' k = todo s k) -> (forall k, k <> t' -> queue s' k = queue s k) ->
  lw (todo s' t) + qw (queue s' t') < lw (todo s t) + qw (queue s t') -> work s' < work s.
Proof.
  intros Ht Ht' H1 H2. unfold work.
  pose proof (sumt_change (fun t => lw (todo s' t)) (fun t => lw (todo s t)) n t Ht ltac:(intros; cbn beta; by rewrite H1)) as A.
  pose proof (sumt_change (fun t => qw (queue s' t)) (fun t => qw (queue s t)) n t' Ht' ltac:(intros; cbn beta; by rewrite H2)) as C. cbn beta in A, C. lia.
Qed.

Lemma work_step s t c : pinv s -> c ∈ acts a -> can a s t c = true -> work (estep a owner s t c) < work s.
Proof.
  intros Hs Hc Hcan.
  assert (Ht : t < n). { destruct (decide (t < n)) as [|Ht]; [done|]. destruct (p_threads s Hs t ltac:(lia)) as [E1 E2]. unfold can in Hcan. rewrite E1, E2 in Hcan. by destruct c. }
  unfold acts in Hc. rewrite !elem_of_cons, elem_of_nil in Hc. destruct Hc as [->|[->|[]]]; unfold can in Hcan; unfold estep.
  - destruct (todo s t) as [|o rest] eqn:Et; [done|]. pose proof (p_ops s Hs t) as Hop. rewrite Et in Hop. apply list.Forall_cons in Hop as [Ho Hrest].
    unfold exec_op. destruct o as [v d m|d|d|v|v k|v k i got|l|v m]; cbn [pop] in Ho.
    + pose proof (Htells m v d (box s d) Ho) as HT. destruct (merge a m v d (box s d)) as [b new] eqn:Em. cbn [snd] in HT.
      apply (work_todo s _ t Ht); [intros; cbn; by us|done|]. cbn [todo]. us. rewrite Et, !lw_cons. cbn [opw]. destruct new.
      * rewrite !lw_cons. cbn [opw]. rewrite wm_tells by auto. lia.
      * pose proof (wm_pos v d). lia.
    + destruct (act s d =? 0); (apply (work_todo s _ t Ht); [intros; cbn; by us|done|]; cbn [todo]; us; rewrite Et, !lw_cons; cbn [opw]; lia).
    + apply (work_queue s _ t (owner d) Ht (Hown d)); [intros; cbn; by us..|]. cbn [todo queue]. us. rewrite Et, !lw_cons. unfold qw. rewrite map_app, list_sum_app. cbn [map opw]. change (list_sum [wq d]) with (wq d + 0). lia.
    + apply (work_todo s _ t Ht); [intros; cbn; by us|done|]. cbn [todo]. us. rewrite Et, !lw_cons. cbn [opw]. lia.
    + apply (work_todo s _ t Ht); [intros; cbn; by us|done|]. cbn [todo]. us. rewrite Et, !lw_cons. cbn [opw]. unfold wbegin. lia.
    + destruct (box s v !! i) as [c|] eqn:Ev.
      * destruct (take a c) as [c' x]. apply (work_todo s _ t Ht); [intros; cbn; by us|done|]. cbn [todo]. us. rewrite Et, !lw_cons. cbn [opw]. unfold wscan.
        assert (i < length (box s v)) by (apply lookup_lt_is_Some; eauto). pose proof (p_box s Hs v). lia.
      * specialize (Ho (prop s v) got). destruct (react a v k (prop s v) (edges s v) got) as [[p ms] ms'] eqn:Er. destruct Ho as (R1 & R2 & R3).
        apply (work_todo s _ t Ht); [intros; cbn; by us|done|]. cbn [todo]. us. rewrite Et, lw_app, !lw_cons, lw_merges. cbn [opw]. unfold wscan, wreact.
        pose proof (wl_le v ms R1). pose proof (wl_le v ms' R2). pose proof (g_pos (rk v)). nia.
    + apply (work_todo s _ t Ht); [intros; cbn; by us|done|]. cbn [todo]. us. rewrite Et, lw_cons. cbn [opw]. destruct (sent s t =? 0); [rewrite lw_app, lw_merges'|]; lia.
    + destruct (merge a m v v (box s v)) as [b new] eqn:Em.
      apply (work_todo s _ t Ht); [intros; cbn; by us|done|]. cbn [todo]. us. rewrite Et, lw_cons. cbn [opw]. destruct new; [rewrite lw_cons; cbn [opw]; lia|lia].
  - destruct (todo s t) as [|o rest] eqn:Et; [|done]. destruct (queue s t) as [|v q] eqn:Eq; [done|].
    unfold start_task. cbn [box act queue prop edges todo sent elog].
    apply (work_queue s _ t t Ht Ht); [intros; cbn; by us..|]. cbn [todo queue]. us. rewrite Et, Eq, !lw_cons, lw_nil. unfold qw. cbn [map opw]. change (list_sum (?x :: ?y)) with (x + list_sum y). unfold wq. lia.
Qed.

Theorem prio_settles s : pinv s -> finite a owner s /\ settles (erun a owner) (acts a) n idle s.
Proof.
  intros Hs. apply (settles_acc a owner n pinv).
  - intros s' H. apply H.
  - intros s' t c H Hc. by apply pinv_step.
  - done.
  - assert (G : forall k s, work s < k -> Acc (next a owner pinv) s).
    { induction k as [|k IH]; intros s' Hk; [lia|]. constructor. intros s'' (t & c & I1 & Hc & Hcan & ->). apply IH.
      pose proof (work_step s' t c I1 Hc Hcan). lia. }
    by apply (G (S (work s))), Nat.lt_succ_diag_r.
Qed.
End prio.

(** Only the threads below [n] have something to do. *)
Lemma shaped_threads {a} owner n (s : est a) : (forall v, owner v < n) -> shaped a owner s -> (forall t v, v ∈ queue s t -> owner v = t) -> threads a n s.
Proof.
  intros Hown HS HQ t Ht. split.
  - destruct (todo s t) as [|o rest] eqn:Et; [done|]. pose proof (HS t) as H. rewrite Et in H.
    assert (exists v, owner v = t) as (v & Hv); [|specialize (Hown v); lia].
    destruct (shape_cons a owner t _ _ _ H) as [(v&?)|[(v&m&?)|[(v&k&?)|[(v&k&i&got&?)|[(v&x&?)|(v&?)]]]]]; exists v; tauto.
  - destruct (queue s t) as [|v q] eqn:Eq; [done|]. assert (owner v = t) by (apply HQ; rewrite Eq; apply elem_of_list_here). specialize (Hown v). lia.
Qed.
