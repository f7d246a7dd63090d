(** Proofs about the engine with unique notifications: activity counts and wake-ups. *)
From Verif Require Import Base Engine_Spec Engine_Model.
Arguments Merge {a} _ _ _. Arguments Cas {a} _. Arguments Put {a} _. Arguments Dec {a} _. Arguments Begin {a} _ _.
Arguments Scan {a} _ _ _ _. Arguments Else {a} _. Arguments Init {a} _ _.
Arguments box {a} _. Arguments act {a} _. Arguments queue {a} _. Arguments prop {a} _. Arguments edges {a} _.
Arguments todo {a} _. Arguments sent {a} _. Arguments elog {a} _. Arguments Est {a} _ _ _ _ _ _ _ _.
Arguments Run {a}. Arguments Pop {a}. Arguments AddEdges {a} _ _. Arguments DelEdges {a} _ _. Arguments SendInit {a} _ _.

Lemma upd_eq {A} (f : nat -> A) i x : upd f i x i = x.
Proof. unfold upd. by rewrite Nat.eqb_refl. Qed.
Lemma upd_ne {A} (f : nat -> A) i j x : j <> i -> upd f i x j = f j.
Proof. intros H. unfold upd. by destruct (Nat.eqb_spec j i). Qed.
Ltac us := repeat (rewrite upd_eq in * || (rewrite upd_ne in * by (first [assumption | apply not_eq_sym; assumption | congruence | lia]))).

Fixpoint sumt (f : nat -> nat) (n : nat) : nat := match n with O => 0 | S k => sumt f k + f k end.
Lemma sumt_ext f g n : (forall k, (k < n)%nat -> f k = g k) -> sumt f n = sumt g n.
Proof. induction n as [|n IH]; intros H; simpl; [done|]. rewrite IH, H; [done|lia|intros; apply H; lia]. Qed.
Lemma sumt_change f g n t : (t < n)%nat -> (forall k, (k < n)%nat -> k <> t -> f k = g k) -> sumt f n + g t = sumt g n + f t.
Proof.
  induction n as [|n IH]; intros Ht H; [lia|]. simpl. destruct (decide (t = n)) as [->|Hne].
  - rewrite (sumt_ext f g n); [lia|]. intros k Hk. apply H; lia.
  - rewrite (H n) by lia. pose proof (IH ltac:(lia) ltac:(intros; apply H; lia)). lia.
Qed.
Lemma sumt_zero f n : (forall k, (k < n)%nat -> f k = 0) -> sumt f n = 0.
Proof. induction n as [|n IH]; intros H; simpl; [done|]. rewrite IH, H; [done|lia|intros; apply H; lia]. Qed.
Lemma sumt_ge f n t : (t < n)%nat -> f t <= sumt f n.
Proof. induction n as [|n IH]; intros Ht; [lia|]. simpl. destruct (decide (t = n)) as [->|]; [lia|]. pose proof (IH ltac:(lia)). lia. Qed.
Lemma sumt_pos f n : 0 < sumt f n -> exists t, (t < n)%nat /\ 0 < f t.
Proof.
  induction n as [|n IH]; simpl; intros H; [lia|]. destruct (decide (0 < f n)); [exists n; lia|].
  destruct IH as (t & ? & ?); [lia|]. exists t. lia.
Qed.

Fixpoint occ (v : nat) (l : list nat) : nat := match l with [] => 0 | x :: l' => (if (x =? v)%nat then 1 else 0) + occ v l' end.
Lemma occ_app v l l' : occ v (l ++ l') = occ v l + occ v l'.
Proof. induction l as [|o l IH]; simpl; [done|]. lia. Qed.
Lemma occ_in v l : v ∈ l <-> 0 < occ v l.
Proof.
  induction l as [|x l IH]; simpl; [by rewrite elem_of_nil; lia|]. rewrite elem_of_cons, IH.
  destruct (Nat.eqb_spec x v) as [->|Hne]; split; intros H; try lia.

Qed.

Section proofs.
Context (a : alg) (owner : nat -> nat) (n : nat).

(** Notifications for [v] that are about to enter the queue, or have just left it. *)
Definition token (v : nat) (o : op a) : nat :=
  match o with Put d | Dec d => if (d =? v)%nat then 1 else 0 | _ => 0 end.
Fixpoint tokens (v : nat) (l : list (op a)) : nat := match l with [] => 0 | o :: l' => token v o + tokens v l' end.
Lemma tokens_app v l l' : tokens v (l ++ l') = tokens v l + tokens v l'.
Proof. induction l as [|o l IH]; simpl; [done|]. lia. Qed.
Lemma tokens_merges v s (ms : list (nat * msg_t a)) : tokens v (map (fun '(d, m) => Merge s d m) ms) = 0.
Proof. induction ms as [|[d m] l IH]; simpl; [done|]. lia. Qed.
Lemma tokens_merges' v (ms : list (nat * nat * msg_t a)) : tokens v (map (fun '(s, d, m) => Merge s d m) ms) = 0.
Proof. induction ms as [|[[s d] m] l IH]; simpl; [done|]. lia. Qed.

(** An operation belongs to the thread that owns its vertex. *)
Definition mine (t : nat) (o : op a) : Prop :=
  match o with Dec v | Begin v _ | Scan v _ _ _ | Init v _ => owner v = t | _ => True end.
Definition unanswered (l : list event) (v : nat) : Prop := exists l1 l2, l = l1 ++ Told v :: l2 /\ Began v ∉ l2.
Definition waking (s : est a) (v : nat) : Prop :=
  0 < act s v \/ exists t, (t < n)%nat /\ (Cas v ∈ todo s t \/ exists k, Begin v k ∈ todo s t).

Record wake (s : est a) : Prop := Wake {
  w_act : forall v, act s v = occ v (queue s (owner v)) + sumt (fun t => tokens v (todo s t)) n;
  w_one : forall v, act s v <= 1;
  w_queue : forall t v, v ∈ queue s t -> owner v = t;
  w_mine : forall t o, o ∈ todo s t -> (t < n)%nat /\ mine t o;
  w_dec : forall t v, Dec v ∈ todo s t -> todo s t = [Dec v; Begin v KUpd];
  w_told : forall v, unanswered (elog s) v -> waking s v }.

Lemma unanswered_app_told l v w : unanswered (l ++ [Told w]) v -> w = v \/ unanswered l v.
Proof.
  intros (l1 & l2 & E & Hb). destruct (decide (w = v)) as [->|Hne]; [by left|right].
  destruct l2 as [|x l2] using rev_ind.
  - apply app_inj_tail in E. destruct E as [_ E]. congruence.
  - rewrite app_comm_cons, app_assoc in E. apply app_inj_tail in E. destruct E as [-> <-]. exists l1, l2. split; [done|].
    intros H. apply Hb. apply elem_of_app. by left.
Qed.
Lemma unanswered_app_began l v w : unanswered (l ++ [Began w]) v -> w <> v /\ unanswered l v.
Proof.
  intros (l1 & l2 & E & Hb). destruct l2 as [|x l2] using rev_ind.
  - apply app_inj_tail in E. destruct E as [_ E]. discriminate.
  - rewrite app_comm_cons, app_assoc in E. apply app_inj_tail in E. destruct E as [-> <-]. split.
    + intros ->. apply Hb. apply elem_of_app. right. apply elem_of_list_here.
    + exists l1, l2. split; [done|]. intros H. apply Hb. apply elem_of_app. by left.
Qed.

Lemma wake_start b p es : wake (estart a b p es).
Proof.
  constructor; simpl; intros; try lia.
  - by rewrite sumt_zero.
  - by apply elem_of_nil in H.
  - by apply elem_of_nil in H.
  - by apply elem_of_nil in H.
  - destruct H as (l1 & l2 & E & _). by destruct l1.
Qed.

(** Changing what thread [t] has to do. *)
Lemma sum_change (s s' : est a) t l v : (t < n)%nat -> (forall k, todo s' k = upd (todo s) t l k) ->
  sumt (fun k => tokens v (todo s' k)) n + tokens v (todo s t) = sumt (fun k => tokens v (todo s k)) n + tokens v l.
Proof.
  intros Ht H. pose proof (sumt_change (fun k => tokens v (todo s' k)) (fun k => tokens v (todo s k)) n t Ht) as Hc. simpl in Hc.
  rewrite Hc.
  - rewrite H, upd_eq. done.
  - intros k Hk Hne. rewrite H, upd_ne; done.
Qed.

(** A step that replaces what [t] has to do, from [o :: rest] to [new ++ rest]. *)
Lemma wake_step (s s' : est a) t o rest new : wake s -> todo s t = o :: rest ->
  (forall k, todo s' k = upd (todo s) t (new ++ rest) k) ->
  (forall v, act s' v <= 1) ->
  (forall v, act s' v + (occ v (queue s (owner v)) + token v o) = act s v + (occ v (queue s' (owner v)) + tokens v new)) ->
  (forall k v, v ∈ queue s' k -> owner v = k) ->
  (forall o', o' ∈ new -> mine t o') ->
  (forall v, Dec v ∈ new -> new = [Dec v; Begin v KUpd] /\ rest = []) ->
  (forall v, Dec v ∈ rest -> False) ->
  (forall v, unanswered (elog s') v -> waking s' v \/ (unanswered (elog s) v /\
     (0 < act s v -> 0 < act s' v \/ exists k, Begin v k ∈ new ++ rest) /\
     (o = Cas v -> 0 < act s' v \/ Cas v ∈ new) /\ (forall k, o = Begin v k -> False))) ->
  wake s'.
Proof.
  intros HW Ho Ht' Hone Hact Hq Hm Hd Hr Htold.
  assert (Ht : (t < n)%nat) by (apply (w_mine _ HW t o); rewrite Ho; apply elem_of_list_here).
  constructor.
  - intros v. pose proof (w_act _ HW v) as H1. pose proof (sum_change s s' t _ v Ht Ht') as H2. pose proof (Hact v) as H3.
    rewrite Ho, tokens_app in H2. simpl in H2. lia.
  - done.
  - done.
  - intros k o' Hin. rewrite Ht' in Hin. destruct (decide (k = t)) as [->|Hne]; us; [|by apply (w_mine _ HW)].
    split; [done|]. apply elem_of_app in Hin. destruct Hin as [Hin|Hin]; [by apply Hm|].
    apply (w_mine _ HW t o'). rewrite Ho. by apply elem_of_list_further.
  - intros k v Hin. rewrite Ht' in *. destruct (decide (k = t)) as [->|Hne]; us; [|by apply (w_dec _ HW)].
    apply elem_of_app in Hin. destruct Hin as [Hin|Hin]; [|exfalso; by apply (Hr v)].
    destruct (Hd v Hin) as [-> ->]. done.
  - intros v Hu. destruct (Htold v Hu) as [?|(Hu0 & Ha & Hc & Hb)]; [done|].
    destruct (w_told _ HW v Hu0) as [Hact0|(k & Hk & Hw)].
    + destruct (Ha Hact0) as [?|(kd & Hin)]; [by left|]. right. exists t. split; [done|]. right. exists kd. by rewrite Ht', upd_eq.
    + destruct (decide (k = t)) as [->|Hne].
      * rewrite Ho in Hw. destruct Hw as [Hw|[kd Hw]]; apply elem_of_cons in Hw; destruct Hw as [Hw|Hw].
        -- destruct (Hc (eq_sym Hw)) as [?|?]; [by left|right]. exists t. split; [done|]. left. rewrite Ht', upd_eq. apply elem_of_app. by left.
        -- right. exists t. split; [done|]. left. rewrite Ht', upd_eq. apply elem_of_app. by right.
        -- exfalso. by apply (Hb kd).
        -- right. exists t. split; [done|]. right. exists kd. rewrite Ht', upd_eq. apply elem_of_app. by right.
      * right. exists k. split; [done|]. rewrite Ht', upd_ne by done. done.
Qed.

Lemma wake_exec_op s t o rest : wake s -> todo s t = o :: rest -> wake (exec_op a owner s t o rest).
Proof.
  intros HW Ho.
  assert (Hdr : forall v, Dec v ∈ rest -> False).
  { intros v Hv. pose proof (w_dec _ HW t v) as Hd. rewrite Ho in Hd.
    specialize (Hd ltac:(by apply elem_of_list_further)). injection Hd as -> ->.
    apply elem_of_list_singleton in Hv. discriminate. }
  assert (Ht : (t < n)%nat) by (apply (w_mine _ HW t o); rewrite Ho; apply elem_of_list_here).
  assert (Hmo : mine t o) by (apply (w_mine _ HW t o); rewrite Ho; apply elem_of_list_here).
  pose proof (w_one _ HW) as Hone. pose proof (w_queue _ HW) as Hq.
  destruct o as [src d m|d|d|v|v k|v k i got|l|v m]; cbn [exec_op].
  - destruct (merge a m src d (box s d)) as [b new]. destruct new.
    + apply (wake_step s _ t _ rest [Cas d] HW Ho); cbn [act queue todo elog]; try done.
      * by intros o' ->%elem_of_list_singleton.
      * intros v H%elem_of_list_singleton. discriminate.
      * intros v Hu. destruct (unanswered_app_told _ _ _ Hu) as [->|Hu']; [left|right].
        -- right. exists t. split; [done|]. left. cbn [todo]. rewrite upd_eq. apply elem_of_list_here.
        -- split_and!; try done. by left.
    + apply (wake_step s _ t _ rest [] HW Ho); cbn [act queue todo elog]; try done.
      * by intros o' ?%elem_of_nil.
      * by intros v ?%elem_of_nil.
      * intros v Hu. right. split_and!; try done. by left.
  - destruct (Nat.eqb_spec (act s d) 0) as [Hz|Hz].
    + apply (wake_step s _ t _ rest [Put d] HW Ho); cbn [act queue todo elog]; try done.
      * intros v. destruct (decide (v = d)) as [->|Hne]; us; [lia|done].
      * intros v. simpl. destruct (Nat.eqb_spec d v) as [->|Hne]; us; lia.
      * by intros o' ->%elem_of_list_singleton.
      * intros v H%elem_of_list_singleton. discriminate.
      * intros v Hu. right. split_and!; try done.
        -- intros Hp. left. destruct (decide (v = d)) as [->|Hne]; us; [lia|done].
        -- intros [= ->]. left. us. lia.
    + apply (wake_step s _ t _ rest [] HW Ho); cbn [act queue todo elog]; try done.
      * by intros o' ?%elem_of_nil.
      * by intros v ?%elem_of_nil.
      * intros v Hu. right. split_and!; try done; [by left|]. intros [= ->]. left. lia.
  - apply (wake_step s _ t _ rest [] HW Ho); cbn [act queue todo elog]; try done.
    + intros v. simpl. destruct (decide (owner v = owner d)) as [Heq|Hne].
      * rewrite Heq. us. rewrite occ_app. simpl. lia.
      * us. destruct (Nat.eqb_spec d v) as [->|]; [done|lia].
    + intros k v Hin. destruct (decide (k = owner d)) as [->|Hne]; us; [|by apply Hq].
      apply elem_of_app in Hin. destruct Hin as [Hin|Hin%elem_of_list_singleton]; [by apply Hq|by subst].
    + by intros o' ?%elem_of_nil.
    + by intros v ?%elem_of_nil.
    + intros v Hu. right. split_and!; try done. by left.
  - pose proof (w_dec _ HW t v ltac:(rewrite Ho; apply elem_of_list_here)) as Hd. rewrite Ho in Hd. injection Hd as ->.
    assert (Hav : act s v = 1).
    { pose proof (w_act _ HW v) as H1. pose proof (sumt_ge (fun t => tokens v (todo s t)) n t Ht) as H2. simpl in H2. rewrite Ho in H2. simpl in H2.
      rewrite Nat.eqb_refl in H2. specialize (Hone v). lia. }
    apply (wake_step s _ t _ [Begin v KUpd] [] HW Ho); cbn [act queue todo elog]; try done.
    + intros w. destruct (decide (w = v)) as [->|Hne]; us; [lia|done].
    + intros w. simpl. destruct (Nat.eqb_spec v w) as [->|Hne]; us; lia.
    + by intros o' ?%elem_of_nil.
    + by intros w ?%elem_of_nil.
    + intros w Hu. right. split_and!; try done. intros Hp. destruct (decide (w = v)) as [->|Hne]; us; [|by left].
      right. exists KUpd. apply elem_of_list_here.
  - apply (wake_step s _ t _ rest [Scan v k 0 []] HW Ho); cbn [act queue todo elog]; try done.
    + by intros o' ->%elem_of_list_singleton.
    + intros w H%elem_of_list_singleton. discriminate.
    + intros w Hu. destruct (unanswered_app_began _ _ _ Hu) as [Hne Hu']. right. split_and!; try done; [by left|].
      intros k' [= -> _]. done.
  - destruct (box s v !! i) as [c|].
    + destruct (take a c) as [c' x]. apply (wake_step s _ t _ rest [Scan v k (S i) (got ++ [x])] HW Ho); cbn [act queue todo elog]; try done.
      * by intros o' ->%elem_of_list_singleton.
      * intros w H%elem_of_list_singleton. discriminate.
      * intros w Hu. right. split_and!; try done. by left.
    + destruct (react a v k (prop s v) (edges s v) got) as [[p ms] ms'].
      apply (wake_step s _ t _ rest (map (fun '(d, m) => Merge v d m) ms ++ [Else (map (fun '(d, m) => (v, d, m)) ms')]) HW Ho); cbn [act queue todo elog]; try done.
      * intros j. by rewrite <- app_assoc.
      * intros w. rewrite tokens_app, tokens_merges. simpl. lia.
      * intros o' [Hin|Hin%elem_of_list_singleton]%elem_of_app; [|by subst].
        apply elem_of_list_fmap in Hin. destruct Hin as ([d m] & -> & _). done.
      * intros w [Hin|Hin%elem_of_list_singleton]%elem_of_app; [|discriminate].
        apply elem_of_list_fmap in Hin. destruct Hin as ([d m] & ? & _). discriminate.
      * intros w Hu. right. split_and!; try done. by left.
  - destruct (sent s t =? 0)%nat.
    + apply (wake_step s _ t _ rest (map (fun '(v, d, m) => Merge v d m) l) HW Ho); cbn [act queue todo elog]; try done.
      * intros w. rewrite tokens_merges'. simpl. lia.
      * intros o' Hin. apply elem_of_list_fmap in Hin. destruct Hin as ([[? d] m] & -> & _). done.
      * intros w Hin. apply elem_of_list_fmap in Hin. destruct Hin as ([[? d] m] & ? & _). discriminate.
      * intros w Hu. right. split_and!; try done. by left.
    + apply (wake_step s _ t _ rest [] HW Ho); cbn [act queue todo elog]; try done.
      * by intros o' ?%elem_of_nil.
      * by intros w ?%elem_of_nil.
      * intros w Hu. right. split_and!; try done. by left.
  - destruct (merge a m v v (box s v)) as [b new]. destruct new.
    + apply (wake_step s _ t _ rest [Begin v KUpd] HW Ho); cbn [act queue todo elog]; try done.
      * by intros o' ->%elem_of_list_singleton.
      * intros w H%elem_of_list_singleton. discriminate.
      * intros w Hu. destruct (unanswered_app_told _ _ _ Hu) as [->|Hu']; [left|right].
        -- right. exists t. split; [done|]. right. exists KUpd. cbn [todo]. rewrite upd_eq. apply elem_of_list_here.
        -- split_and!; try done. by left.
    + apply (wake_step s _ t _ rest [] HW Ho); cbn [act queue todo elog]; try done.
      * by intros o' ?%elem_of_nil.
      * by intros w ?%elem_of_nil.
      * intros w Hu. right. split_and!; try done. by left.
Qed.

(** A thread with nothing to do starts a task. *)
Lemma wake_start_task (s s0 : est a) t l : wake s -> todo s t = [] -> todo s0 = todo s -> act s0 = act s -> elog s0 = elog s ->
  (t < n)%nat -> (forall v, occ v (queue s0 (owner v)) + tokens v l = occ v (queue s (owner v))) ->
  (forall k v, v ∈ queue s0 k -> owner v = k) ->
  (forall o, o ∈ l -> mine t o) -> (forall v, Dec v ∈ l -> l = [Dec v; Begin v KUpd]) -> wake (start_task a s0 t l).
Proof.
  intros HW Ht0 Et Ea El Ht Hocc Hq Hm Hd. constructor; cbn [start_task act queue todo elog]; rewrite ?Et, ?Ea, ?El.
  - intros v. pose proof (sum_change s (start_task a s0 t l) t l v Ht) as Hs. cbn [start_task todo] in Hs. rewrite Et in Hs.
    specialize (Hs ltac:(done)). rewrite Ht0 in Hs. simpl in Hs. pose proof (w_act _ HW v). specialize (Hocc v).
    lia.
  - apply (w_one _ HW).
  - done.
  - intros k o Hin. destruct (decide (k = t)) as [->|Hne]; us; [by auto|]. by apply (w_mine _ HW).
  - intros k v Hin. destruct (decide (k = t)) as [->|Hne]; us; [by apply Hd|]. by apply (w_dec _ HW).
  - intros v Hu. destruct (w_told _ HW v Hu) as [?|(k & Hk & Hw)]; [left; cbn; by rewrite Ea|right].
    exists k. split; [done|]. cbn [start_task todo]. rewrite Et. destruct (decide (k = t)) as [->|Hne]; us; [|done].
    rewrite Ht0 in Hw. destruct Hw as [Hw|[? Hw]]; by apply elem_of_nil in Hw.
Qed.

Lemma wake_estep s t c : (forall v, owner v < n)%nat -> wake s -> wake (estep a owner s t c).
Proof.
  intros Hown HW. unfold estep. destruct (todo s t) as [|o rest] eqn:Ht0.
  - destruct c; try done.
    + destruct (queue s t) as [|v q] eqn:Hq; [done|].
      assert (Hvt : owner v = t) by (apply (w_queue _ HW); rewrite Hq; apply elem_of_list_here).
      apply (wake_start_task s); try done; cbn [queue].
      * rewrite <- Hvt. apply Hown.
      * intros w. destruct (decide (owner w = t)) as [Hw|Hw]; us.
        -- rewrite Hw, Hq. us. simpl. lia.
        -- simpl. destruct (Nat.eqb_spec v w) as [->|]; [done|lia].
      * intros k w Hin. destruct (decide (k = t)) as [->|Hne]; us; [|by apply (w_queue _ HW)].
        apply (w_queue _ HW). rewrite Hq. by apply elem_of_list_further.
      * intros o [->|[->|Hin%elem_of_nil]%elem_of_cons]%elem_of_cons; done.
      * intros w [[= ->]|[[=]|Hin%elem_of_nil]%elem_of_cons]%elem_of_cons; done.
    + destruct (Nat.eqb_spec (owner v) t) as [Hv|]; [|done]. apply (wake_start_task s); try done; cbn [set_edges queue].
      * rewrite <- Hv. apply Hown.
      * apply (w_queue _ HW).
      * by intros o ->%elem_of_list_singleton.
      * intros w H%elem_of_list_singleton. discriminate.
    + destruct (Nat.eqb_spec (owner v) t) as [Hv|]; [|done]. apply (wake_start_task s); try done; cbn [set_edges queue].
      * rewrite <- Hv. apply Hown.
      * apply (w_queue _ HW).
      * by intros o ->%elem_of_list_singleton.
      * intros w H%elem_of_list_singleton. discriminate.
    + destruct (Nat.eqb_spec (owner v) t) as [Hv|]; [|done]. apply (wake_start_task s); try done; cbn [queue].
      * rewrite <- Hv. apply Hown.
      * apply (w_queue _ HW).
      * by intros o ->%elem_of_list_singleton.
      * intros w H%elem_of_list_singleton. discriminate.
  - destruct c; try done. by apply wake_exec_op.
Qed.

Lemma wake_erun sched : forall s, (forall v, owner v < n)%nat -> wake s -> wake (erun a owner s sched).
Proof. induction sched as [|[t c] l IH]; intros s Hown HW; [done|]. cbn. apply IH; [done|]. by apply wake_estep. Qed.
End proofs.
