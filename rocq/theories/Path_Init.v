(** The initial mail of the source. *)
From Verif Require Import Base Engine_Spec Engine_Model Engine_Proofs Engine_Shape Window_Spec Window_Model Window_Proofs
  Path_Spec Path_Model Path_Local Path_Proofs Path_Run.
Open Scope nat_scope.

Section init.
Context (owner : nat -> nat) (n : nat) (src : nat).
Notation est := (est tpaths).
Notation pinv := (pinv owner n src).
Definition has_init (s : est) (k : nat) : Prop := exists v m, Init (a := tpaths) v m ∈ todo s k.
Lemma todo_other s t c k : k <> t -> todo (tstep owner src s t c) k = todo s k.
Proof.
  intros Hk. destruct c as [| | |v es|v l]; cbn [tstep]; unfold estep.
  - destruct (todo s t) as [|o rest]; [done|]. destruct o as [u d m|d|d|v|v kd|v kd i got|l|v m]; cbn [exec_op].
    + destruct (merge _ _ _ _ _) as [? []]; cbn; by us.
    + destruct (act s d =? 0); cbn; by us.
    + cbn; by us.
    + cbn; by us.
    + cbn; by us.
    + destruct (box s v !! i); [destruct (take _ _)|destruct (react _ _ _ _ _ _) as [[? ?] ?]]; cbn; by us.
    + cbn; by us.
    + destruct (merge _ _ _ _ _) as [? []]; cbn; by us.
  - destruct (todo s t); [|done]. destruct (queue s t); [done|]. cbn; by us.
  - destruct (todo s t); [|done]. destruct (_ =? _); [|done]. cbn; by us.
  - destruct (todo s t); [|done]. destruct (_ =? _); [|done]. cbn; by us.
  - destruct (todo s t); [|done]. destruct (_ =? _); [|done]. cbn; by us.
Qed.
Lemma shape_init t k l v m : shape tpaths owner t k l -> Init (a := tpaths) v m ∈ l -> l = [Init (a := tpaths) v m] /\ owner v = t.
Proof.
  assert (Hsop : forall w l', Forall (sop tpaths w) l' -> Init (a := tpaths) v m ∈ l' -> False).
  { intros w l' Hl H. rewrite list.Forall_forall in Hl. by apply Hl in H. }
  destruct 1 as [k|w Hw|w m' Hw|w kd Hw|w kd i got Hw Hg|w k l x Hw Hl|w k l Hw Hl]; intros H.
  - by apply elem_of_nil in H.
  - repeat (apply elem_of_cons in H; destruct H as [H|H]; [done|]). by apply elem_of_nil in H.
  - apply elem_of_list_singleton in H. by injection H as -> ->.
  - by apply elem_of_list_singleton in H.
  - by apply elem_of_list_singleton in H.
  - apply elem_of_app in H. destruct H as [H|H%elem_of_list_singleton]; [|done]. exfalso. by eapply Hsop.
  - exfalso. by eapply Hsop.
Qed.
Lemma has_init_one past s k : pinv past s -> has_init s k -> todo s k = [Init (a := tpaths) src MInit] /\ owner src = k.
Proof.
  intros Hs (v & m & H). destruct (p_init _ _ _ _ _ Hs k v m H) as [-> ->].
  by apply (shape_init _ _ _ _ _ (p_shape _ _ _ _ _ Hs k)).
Qed.

(** The first cell of the mailbox of the source is written by the initial mail only. *)
Lemma head_step past s t c : pinv past s ->
  bx (tstep owner src s t c) src !! 0 = bx s src !! 0 \/ (c = TRun /\ has_init s t /\ bx (tstep owner src s t c) src !! 0 = Some whole).
Proof.
  intros Hs. destruct c as [| | |v es|v l]; cbn [tstep]; unfold estep.
  - destruct (todo s t) as [|o rest] eqn:Et; [by left|]. destruct o as [u d m|d|d|v|v kd|v kd i got|l|v m]; cbn [exec_op].
    + left. destruct (p_msg _ _ _ _ _ Hs t u d m) as (_ & p & x & ts & en & -> & _). { rewrite Et. left. apply elem_of_list_here. }
      destruct (merge tpaths (MOffer p x) u d (box s d)) as [b new] eqn:Em.
      change (tp_merge (MOffer p x) (bx s d) = (b, new)) in Em. change (cell_t tpaths) with path in b.
      destruct (p_head _ _ _ _ _ Hs d) as (h & sl & Eb & _).
      destruct (merge_offer _ _ _ _ _ Em) as (_ & M2 & _); [by rewrite Eb|]. unfold bx. cbn [box].
      destruct (decide (src = d)) as [<-|Hd]; us; [exact M2|done].
    + left. by destruct (act s d =? 0).
    + by left.
    + by left.
    + by left.
    + left. destruct (box s v !! i) as [c|] eqn:Ec.
      * cbn [take tpaths]. unfold bx. cbn [box]. destruct (decide (src = v)) as [<-|Hv]; us; [|done].
        change (cell_t tpaths) with path in *. by rewrite list_insert_id.
      * by destruct (react _ _ _ _ _ _) as [[? ?] ?].
    + by left.
    + right. assert (Hi : has_init s t). { exists v, m. rewrite Et. apply elem_of_list_here. }
      destruct (p_init _ _ _ _ _ Hs t v m) as [-> ->]. { rewrite Et. apply elem_of_list_here. }
      split; [done|]. split; [done|]. destruct (p_head _ _ _ _ _ Hs src) as (h & sl & Eb & _). unfold bx in *. rewrite Eb. cbn. by us.
  - left. destruct (todo s t); [|done]. by destruct (queue s t).
  - left. destruct (todo s t); [|done]. by destruct (_ =? _).
  - left. destruct (todo s t); [|done]. by destruct (_ =? _).
  - left. destruct (todo s t); [|done]. by destruct (_ =? _).
Qed.
(** A mail that has been handed over is on its way or has been taken. *)
Definition started (s : est) : Prop := has_init s (owner src) \/ bx s src !! 0 = Some whole.
Lemma started_step past s t c : pinv past s -> started s -> started (tstep owner src s t c).
Proof.
  intros Hs [Hi|Hw].
  - destruct (has_init_one past s _ Hs Hi) as [E _]. destruct (decide (t = owner src)) as [->|Ht].
    + destruct c as [| | |v es|v l].
      * right. cbn [tstep]. unfold estep. rewrite E. cbn [exec_op].
        destruct (p_head _ _ _ _ _ Hs src) as (h & sl & Eb & _). unfold bx in *. rewrite Eb. cbn. by us.
      * left. cbn [tstep]. unfold estep. rewrite E. exact Hi.
      * left. cbn [tstep]. unfold estep. rewrite E. exact Hi.
      * left. cbn [tstep]. unfold estep. rewrite E. exact Hi.
      * left. cbn [tstep]. rewrite E. exact Hi.
    + left. unfold has_init. by rewrite todo_other by congruence.
  - right. destruct (head_step past s t c Hs) as [->|(_ & _ & H)]; done.
Qed.
(** Without an initial mail. *)
Lemma has_init_step past s t c k : pinv past s -> c <> TInit -> has_init (tstep owner src s t c) k -> has_init s k.
Proof.
  intros Hs Hc Hi. destruct (decide (k = t)) as [->|Hk]; [|unfold has_init in *; by rewrite todo_other in Hi].
  destruct c as [| | |v es|v l]; cbn [tstep] in Hi; unfold estep in Hi.
  - destruct (todo s t) as [|o rest] eqn:Et; [done|]. pose proof (p_shape _ _ _ _ _ Hs t) as Hsh. rewrite Et in Hsh.
    assert (Hr : forall v m, Init (a := tpaths) v m ∈ rest -> has_init s t).
    { intros v m H. exists v, m. rewrite Et. by apply elem_of_list_further. }
    destruct Hi as (v0 & m0 & Hi).
    destruct o as [u d m|d|d|v|v kd|v kd i got|l|v m]; cbn [exec_op] in Hi.
    + destruct (merge _ _ _ _ _) as [? []]; cbn [todo] in Hi; rewrite upd_eq in Hi; [|by eapply Hr].
      apply elem_of_cons in Hi. destruct Hi as [Hi|Hi]; [done|by eapply Hr].
    + destruct (act s d =? 0); cbn [todo] in Hi; rewrite upd_eq in Hi; [|by eapply Hr].
      apply elem_of_cons in Hi. destruct Hi as [Hi|Hi]; [done|by eapply Hr].
    + cbn [todo] in Hi; rewrite upd_eq in Hi. by eapply Hr.
    + cbn [todo] in Hi; rewrite upd_eq in Hi. by eapply Hr.
    + cbn [todo] in Hi; rewrite upd_eq in Hi. apply elem_of_cons in Hi. destruct Hi as [Hi|Hi]; [done|by eapply Hr].
    + destruct (box s v !! i); [destruct (take _ _)|destruct (react _ _ _ _ _ _) as [[? ms] ?]]; cbn [todo] in Hi; rewrite upd_eq in Hi.
      * apply elem_of_cons in Hi. destruct Hi as [Hi|Hi]; [done|by eapply Hr].
      * apply elem_of_app in Hi. destruct Hi as [Hi|Hi].
        -- apply elem_of_list_fmap in Hi. by destruct Hi as ([? ?] & Hi & _).
        -- apply elem_of_cons in Hi. destruct Hi as [Hi|Hi]; [done|by eapply Hr].
    + cbn [todo] in Hi; rewrite upd_eq in Hi. destruct (sent s t =? 0); [|by eapply Hr]. apply elem_of_app in Hi. destruct Hi as [Hi|Hi]; [|by eapply Hr].
      apply elem_of_list_fmap in Hi. by destruct Hi as ([[? ?] ?] & Hi & _).
    + exists v, m. rewrite Et. apply elem_of_list_here.
  - destruct (todo s t) eqn:Et; [|done]. destruct (queue s t); [done|]. destruct Hi as (v0 & m0 & Hi).
    cbn [todo start_task] in Hi; rewrite upd_eq in Hi. repeat (apply elem_of_cons in Hi; destruct Hi as [Hi|Hi]; [done|]). by apply elem_of_nil in Hi.
  - done.
  - destruct (todo s t) eqn:Et; [|done]. destruct (_ =? _); [|done]. destruct Hi as (v0 & m0 & Hi).
    cbn [todo start_task] in Hi; rewrite upd_eq in Hi. by apply elem_of_list_singleton in Hi.
  - destruct (todo s t) eqn:Et; [|done]. destruct (_ =? _); [|done]. destruct Hi as (v0 & m0 & Hi).
    cbn [todo start_task] in Hi; rewrite upd_eq in Hi. by apply elem_of_list_singleton in Hi.
Qed.
End init.

(** What is required of the initial edges and of the stream. *)
Definition sound (es : nat -> list (nat * tedge)) (sched : list (nat * tchoice)) : Prop :=
  slots_once (tever es sched) /\ by_time (tever es sched) /\ slots_by_time (tever es sched) /\ times_below INFINITY (tever es sched) /\
  (forall u d ts en p, (d, (ts, en, p)) ∈ es u -> (ts <= extent en)%N) /\
  Forall (fun '(_, c) => ends_later (tever es sched) c) sched.
Lemma sound_prefix es sched x : sound es (sched ++ [x]) -> sound es sched.
Proof.
  intros (HU & HS & HT & HI & H0 & HE).
  assert (Hin : forall u e, e ∈ tever es sched u -> e ∈ tever es (sched ++ [x]) u).
  { intros u e H. rewrite tever_app. apply elem_of_app. by left. }
  split_and!.
  - intros u1 u2 i1 i2 d a1 a2 p H1 H2. apply (HU u1 u2 i1 i2 d a1 a2 p); rewrite tever_app; by apply lookup_app_l_Some.
  - intros u. eapply sub_sorted; [|apply HS]. rewrite tever_app. by apply sublist_inserts_r.
  - intros u1 u2 d a1 a2 p1 p2 H1 H2. apply (HT u1 u2 d a1 a2 p1 p2); by apply Hin.
  - intros u d a p H. by eapply HI, Hin.
  - done.
  - apply list.Forall_app in HE. destruct HE as [HE _]. eapply List.Forall_impl; [|exact HE]. intros [t' [| | |v es'|v l]]; try done.
    cbn. intros H d p en ts H1 H2. eapply H; [exact H1|by apply Hin].
Qed.
Section run.
Context (owner : nat -> nat) (n : nat) (Hown : forall v, owner v < n) (src : nat) (b : nat -> nat) (es : nat -> list (nat * tedge)).
Notation run := (tpath_run owner src (tpath_start b es)).
Lemma run_snoc sched t c : run (sched ++ [(t, c)]) = tstep owner src (run sched) t c.
Proof. unfold tpath_run. by rewrite fold_left_app. Qed.
Lemma pinv_sound sched : sound es sched -> pinv owner n src (tever es sched) (run sched).
Proof. intros (HU & HS & HT & HI & H0 & HE). by apply pinv_run. Qed.

(** The thread of the source sends the initial mail at some point of the run. *)
Definition mailed (sched : list (nat * tchoice)) : Prop :=
  exists s1 s2, sched = s1 ++ (owner src, TInit) :: s2 /\ todo (run s1) (owner src) = [].
Lemma mailed_started sched : sound es sched -> mailed sched -> started owner src (run sched).
Proof.
  induction sched as [|[t c] sched IH] using rev_ind; intros Hs (s1 & s2 & E & Ht); [by destruct s1|].
  pose proof (sound_prefix _ _ _ Hs) as Hs1. rewrite run_snoc. destruct s2 as [|y s2] using rev_ind.
  - apply app_inj_tail in E. destruct E as [-> E]. injection E as -> ->. left. unfold has_init. exists src, MInit.
    cbn [tstep]. unfold estep. rewrite Ht, Nat.eqb_refl. cbn. rewrite upd_eq. apply elem_of_list_here.
  - clear IHs2. rewrite app_comm_cons, app_assoc in E. apply app_inj_tail in E. destruct E as [E _].
    eapply started_step; [by apply pinv_sound|]. apply IH; [done|]. by exists s1, s2.
Qed.
Lemma unmailed sched : sound es sched -> (forall t, (t, TInit) ∉ sched) -> bx (run sched) src !! 0 = Some no_path /\ forall k, ~ has_init (run sched) k.
Proof.
  induction sched as [|[t c] sched IH] using rev_ind; intros Hs Hn.
  - split; [done|]. intros k (v & m & H). by apply elem_of_nil in H.
  - pose proof (sound_prefix _ _ _ Hs) as Hs1. rewrite run_snoc. destruct IH as [H1 H2]; [done| |].
    { intros t' H. apply (Hn t'). apply elem_of_app. by left. }
    assert (Hc : c <> TInit). { intros ->. apply (Hn t). apply elem_of_app. right. apply elem_of_list_here. }
    pose proof (pinv_sound _ Hs1) as Hp. split.
    + destruct (head_step owner n src _ _ t c Hp) as [->|(_ & H & _)]; [done|]. by apply H2 in H.
    + intros k H. apply (H2 k). by eapply has_init_step.
Qed.
End run.
