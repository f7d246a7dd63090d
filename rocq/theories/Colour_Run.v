(** The invariant along a whole run. *)
From Verif Require Import Base Bitmap_Spec Bitmap_Model Bitmap_Proofs Engine_Spec Engine_Model Engine_Proofs Engine_Shape
  Colour_Spec Colour_Model Colour_Best Colour_Proofs.
Open Scope nat_scope.

Lemma masked_false_sublist {A} (l : list A) g : sublist (masked false l g) l.
Proof.
  revert g. induction l as [|x l IH]; intros [|b g]; cbn; try done.
  destruct b; cbn; [by apply sublist_cons|by apply sublist_skip].
Qed.
Lemma masked_true_in {A} (l : list A) g x : x ∈ masked true l g -> x ∈ l.
Proof.
  revert g. induction l as [|y l IH]; intros [|b g]; cbn; try by intros ?%elem_of_nil.
  destruct b; cbn.
  - intros [->|H]%elem_of_cons; [apply elem_of_list_here|apply elem_of_list_further; eauto].
  - intros H. apply elem_of_list_further. eauto.
Qed.
Lemma masked_disjoint {A} (l : list A) g x : NoDup l -> x ∈ masked true l g -> x ∉ masked false l g.
Proof.
  revert g. induction l as [|y l IH]; intros [|b g] Hd; cbn; try by intros ?%elem_of_nil.
  apply list.NoDup_cons in Hd. destruct Hd as [Hy Hd]. destruct b; cbn.
  - intros [->|H]%elem_of_cons.
    + intros H. apply Hy. eapply elem_of_submseteq; [exact H|]. apply sublist_submseteq, masked_false_sublist.
    + by apply IH.
  - intros H [->|H2]%elem_of_cons; [by apply masked_true_in in H|]. by eapply IH.
Qed.

Lemma sub_NoDup {A} (l1 l2 : list A) : sublist l1 l2 -> NoDup l2 -> NoDup l1.
Proof.
  induction 1 as [|x l1 l2 H IH|x l1 l2 H IH]; intros Hd; [done|..]; apply list.NoDup_cons in Hd; destruct Hd as [H1 H2]; [|by apply IH].
  apply list.NoDup_cons. split; [|by apply IH]. intros Hx. apply H1. eapply elem_of_submseteq; [exact Hx|]. by apply sublist_submseteq.
Qed.

Section run.
Context (owner : nat -> nat) (n : nat) (Hown : forall v, owner v < n) (K : nat) (HK : (N.of_nat K < 2 ^ 31 - 1)%N).
Notation est := (est colouring).
Notation cinv := (cinv owner n K).
Notation colr s v := (fst (prop s v)).

Lemma cinv_mono past past' s : cinv past s -> (forall u, sublist (past u) (past' u)) -> cinv past' s.
Proof.
  intros [A1 A2 A3 A4 A5 A6 A7 A8 A9 A10 A11 A12] H.
  assert (Hin : forall u x, x ∈ past u -> x ∈ past' u).
  { intros u x Hx. eapply elem_of_submseteq; [exact Hx|]. by apply sublist_submseteq. }
  constructor; try done.
  - intros u. etrans; [apply A3|apply H].
  - intros t u v c p Hm. destruct (A10 t u v c p Hm) as (H1 & H2 & H3 & H4). split_and!; auto.
  - intros t u gone Hd. destruct (A11 t u gone Hd) as (H1 & H2). split; [done|]. intros x Hx. destruct (H2 x Hx). split; auto.
Qed.

Lemma no_tell (es : list (nat * nat)) k u v c p : will_tell [] k es u v c p -> False.
Proof. intros [H|[(_ & x & H & _)|(st & [H|(i & got & H)] & _)]]; [by apply elem_of_nil in H|done..]. Qed.

Lemma step_pop past s t v q : cinv past s -> todo s t = [] -> queue s t = v :: q ->
  let s' := start_task colouring (Est (box s) (act s) (upd (queue s) t q) (prop s) (edges s) (todo s) (sent s) (elog s)) t [Dec v; Begin v KUpd] in
  shaped colouring owner s' -> wake colouring owner n s' -> cinv past s'.
Proof.
  intros Hs Et Eq s' Hsh Hw. eapply (quiet owner n Hown K HK past s); try done; cbn.
  - intros k Hk. by us.
  - by rewrite Et.
  - left. by split.
  - intros u w c p [H|(x & H & _)]; do 2 (apply elem_of_cons in H; destruct H as [H|H]; [done|]); by apply elem_of_nil in H.
  - intros u gone [H|(x & y & H)]; do 2 (apply elem_of_cons in H; destruct H as [H|H]; [done|]); by apply elem_of_nil in H.
  - rewrite Et. by intros u w c p _ _ ?%no_tell.
Qed.
Lemma step_init past s t v m : cinv past s -> todo s t = [] ->
  let s' := start_task colouring s t [Init (a := colouring) v m] in
  shaped colouring owner s' -> wake colouring owner n s' -> cinv past s'.
Proof.
  intros Hs Et s' Hsh Hw. eapply (quiet owner n Hown K HK past s); try done; cbn.
  - intros k Hk. by us.
  - by rewrite Et.
  - left. by split.
  - intros u w c p [H|(x & H & _)]; by apply elem_of_list_singleton in H.
  - intros u gone [H|(x & y & H)]; by apply elem_of_list_singleton in H.
  - rewrite Et. by intros u w c p _ _ ?%no_tell.
Qed.

(** Edges of [v] change while its thread has nothing else to do. *)
Lemma step_edges past past' s t v new kd : cinv past s -> todo s t = [] -> owner v = t ->
  (forall u, sublist (past u) (past' u)) -> sublist new (past' v) ->
  (forall w p, (w, p) ∈ new -> (w, p) ∈ edges s v \/ exists st, kd = KAdd st /\ (w, p) ∈ skipn st new) ->
  (forall gone, kd = KDel gone -> forall x, x ∈ gone -> x ∈ past' v /\ x ∉ new) ->
  let s' := start_task colouring (set_edges colouring s v new) t [Begin (a := colouring) v kd] in
  shaped colouring owner s' -> wake colouring owner n s' -> cinv past' s'.
Proof.
  intros Hs Et Ev Hp Hnew Hin Hgone s' Hsh Hw. apply (cinv_mono past past') in Hs; [|done].
  assert (Hsc : forall w, scanning owner s w -> scanning owner s' w).
  { intros w (k1 & i1 & got1 & E). exists k1, i1, got1. cbn. destruct (decide (owner w = t)) as [Ew|Ew]; us; [|done].
    by rewrite Ew, Et in E. }
  destruct Hs as [A1 A2 A3 A4 A5 A6 A7 A8 A9 A10 A11 A12]. constructor; try done.
  - intros u. cbn. unfold upd. destruct (Nat.eqb_spec u v) as [->|]; [done|apply A3].
  - intros u Hu. destruct (A7 u Hu) as [?|?]; auto.
  - intros w j x H1 H2 H3. destruct (A8 w j x H1 H2 H3) as [?|?]; auto.
  - intros w k1 i1 got1 E. cbn in E. destruct (decide (owner w = t)) as [Ew|Ew]; us; [by rewrite Ew, upd_eq in E|by apply (A9 w k1 i1 got1)].
  - intros j u w c p H. cbn in H. destruct (decide (j = t)) as [->|Hj]; us.
    + destruct H as [H|(x & H & _)]; by apply elem_of_list_singleton in H.
    + destruct (A10 j u w c p H) as (H1 & H2 & H3 & H4). split_and!; try done. cbn. rewrite upd_ne; [done|]. congruence.
  - intros j u gone H. cbn in H. destruct (decide (j = t)) as [->|Hj]; us.
    + destruct H as [H|(? & ? & H)]; apply elem_of_list_singleton in H; [|done]. injection H as -> Hk.
      split; [done|]. cbn. rewrite upd_eq. apply Hgone. by symmetry.
    + destruct (A11 j u gone H) as (H1 & H2). split; [done|]. cbn. rewrite upd_ne; [done|]. congruence.
  - intros u w p H1 H2 H3. cbn in H1. change (box s' w) with (box s w). change (prop s') with (prop s).
    assert (Hold : (w, p) ∈ edges s u -> colr s u = EMPTY_VAL \/ box s w !! p = Some (N.lor (colr s u) MSB) \/
      will_tell (todo s' (owner u)) (sent s' (owner u)) (edges s' u) u w (colr s u) p).
    { intros Hin0. destruct (A12 u w p Hin0 H2 H3) as [H|[H|H]]; [by left|by right; left|right; right].
      destruct (decide (owner u = t)) as [Eu|Eu]; [rewrite Eu, Et in H; by apply no_tell in H|].
      cbn. us. rewrite ?upd_ne by congruence. exact H. }
    destruct (decide (u = v)) as [->|Huv]; us; [|by apply Hold].
    destruct (Hin w p H1) as [H|(st & -> & Hst)]; [by apply Hold|]. right; right.
    rewrite Ev. cbn. rewrite !upd_eq. right; right. exists st. split; [by left|done].
Qed.

Lemma ever_app es0 sched x u : ever es0 (sched ++ [x]) u = ever es0 sched u ++ added [x] u.
Proof. unfold ever, added. rewrite map_app, concat_app. by rewrite app_assoc. Qed.

Lemma unique_NoDup past u : slots_unique past -> NoDup (past u).
Proof. intros H. apply list.NoDup_alt. intros i j x H1 H2. by destruct (H u u i j x H1 H2). Qed.

Lemma step_all past past' s t c : cinv past s -> (forall u, past' u = past u ++ added [(t, c)] u) ->
  slots_unique past' -> (forall u v p, (v, p) ∈ past' u -> p < K) -> cinv past' (estep colouring owner s t c).
Proof.
  intros Hs Hp HU HP. pose proof (shaped_estep colouring owner s t c (c_shape _ _ _ _ _ Hs) (w_queue _ _ _ _ (c_wake _ _ _ _ _ Hs))) as Hsh.
  pose proof (wake_estep colouring owner n s t c Hown (c_wake _ _ _ _ _ Hs)) as Hw.
  assert (Hsub : forall u, sublist (past u) (past' u)).
  { intros u. rewrite Hp. apply sublist_inserts_r. done. }
  pose proof (cinv_mono _ _ _ Hs Hsub) as Hs'.
  revert Hsh Hw. unfold estep. destruct (todo s t) as [|o rest] eqn:Et.
  - destruct c as [| |v es|v gone|v m]; try done.
    + destruct (queue s t) as [|v q] eqn:Eq; [done|]. by apply step_pop.
    + destruct (Nat.eqb_spec (owner v) t) as [Ev|]; [|done]. eapply (step_edges past past'); try done.
      * rewrite Hp. unfold added. cbn. rewrite Nat.eqb_refl, app_nil_r. apply sublist_app; [apply Hs|done].
      * intros w p [H|H]%elem_of_app; [by left|right]. exists (length (edges s v)). split; [done|].
        by rewrite drop_app.
    + destruct (Nat.eqb_spec (owner v) t) as [Ev|]; [|done]. eapply (step_edges past past'); try done.
      * etrans; [apply masked_false_sublist|]. apply Hs'.
      * intros w p H. left. eapply elem_of_submseteq; [exact H|]. apply sublist_submseteq, masked_false_sublist.
      * intros gone' [= <-] x Hx. split; [|eapply masked_disjoint; [|exact Hx]].
        -- eapply (edge_past owner n K past'); [done|]. by eapply masked_true_in.
        -- eapply sub_NoDup; [apply Hs'|]. by apply unique_NoDup.
    + destruct (Nat.eqb_spec (owner v) t) as [Ev|]; [|done]. by apply step_init.
  - destruct c; try done. destruct o as [src d m|d|d|v|v k|v k i got|l|v m].
    + intros Hsh Hw. by eapply (step_merge owner n Hown K HK past' HU HP).
    + intros Hsh Hw. by eapply (step_other owner n Hown K HK past').
    + intros Hsh Hw. by eapply (step_other owner n Hown K HK past').
    + intros Hsh Hw. by eapply (step_other owner n Hown K HK past').
    + intros Hsh Hw. by eapply (step_other owner n Hown K HK past').
    + intros Hsh Hw. destruct (box s v !! i) as [c|] eqn:Ec.
      * by eapply (step_read owner n Hown K HK past' HP).
      * by eapply (step_react owner n Hown K HK past' HP).
    + intros Hsh Hw. by eapply (step_other owner n Hown K HK past').
    + intros Hsh Hw. by eapply (step_other owner n Hown K HK past').
Qed.

Context (b0 : nat -> list N) (es0 : nat -> list (nat * nat)).
Hypothesis Hb0 : forall v c, c ∈ b0 v -> c = EMPTY_VAL.
Hypothesis Hl0 : forall v, length (b0 v) <= K.

Lemma cinv_start : cinv es0 (estart colouring b0 (fun _ => new_prop) es0).
Proof.
  constructor; cbn; try done.
  - apply shaped_start.
  - apply wake_start.
  - intros u. eexists. apply grow_inv; [apply bm_inv_empty|done].
  - intros u. by left.
  - intros u _. left. by intros ?%elem_of_nil.
  - intros v j c Hc Hm. apply elem_of_list_lookup_2, Hb0 in Hc. by subst c.
  - intros t u v c p [H|(x & H & _)]; by apply elem_of_nil in H.
  - intros t u gone [H|(x & y & H)]; by apply elem_of_nil in H.
  - intros u v p _ _ _. by left.
Qed.

Lemma cinv_run sched : slots_unique (ever es0 sched) -> (forall u v p, (v, p) ∈ ever es0 sched u -> p < K) ->
  cinv (ever es0 sched) (erun colouring owner (estart colouring b0 (fun _ => new_prop) es0) sched).
Proof.
  induction sched as [|[t c] sched IH] using rev_ind; intros HU HP.
  - cbn. eapply cinv_mono; [apply cinv_start|]. intros u. unfold ever, added. cbn. by rewrite app_nil_r.
  - unfold erun. rewrite fold_left_app. cbn. fold (erun colouring owner (estart colouring b0 (fun _ => new_prop) es0) sched).
    eapply step_all; [apply IH| |done..].
    + intros u1 u2 i1 i2 x H1 H2. apply (HU u1 u2 i1 i2 x); rewrite ever_app; by apply lookup_app_l_Some.
    + intros u v p H. apply (HP u v p). rewrite ever_app. apply elem_of_app. by left.
    + intros u. apply ever_app.
Qed.
End run.

(** Mailboxes grow to the positions of the edges only. *)
Section bound.
Context (owner : nat -> nat) (n : nat) (Hown : forall v, owner v < n) (K : nat) (HK : (N.of_nat K < 2 ^ 31 - 1)%N).
Notation est := (est colouring).
Context (f : nat -> nat).
Definition fits (s : est) : Prop := forall v, length (box s v) <= f v.

Lemma fits_step past s t c : cinv owner n K past s -> (forall u v p, (v, p) ∈ past u -> p < f v) -> fits s ->
  fits (estep colouring owner s t c).
Proof.
  intros Hs HP Hf. unfold estep. destruct (todo s t) as [|o rest] eqn:Et.
  - destruct c as [| |v es|v gone|v m]; try done; [by destruct (queue s t)|by destruct (owner v =? t)..].
  - destruct c; try done. destruct o as [src d [c p]|d|d|v|v k|v k i got|l|v m]; cbn [exec_op]; try done.
    + destruct (merge colouring (c, p) src d (box s d)) as [b new] eqn:Em. intros w. cbn. cbn [merge colouring] in Em.
      destruct (decide (w = d)) as [->|Hw]; us; [|apply Hf].
      destruct (merge_len _ _ _ _ _ _ Em) as [_ L2]. cbn [snd] in L2.
      destruct (c_msg _ _ _ past s Hs t src d c p) as (_ & Hp & _). { rewrite Et. left. apply elem_of_list_here. }
      pose proof (HP _ _ _ Hp). pose proof (Hf d). change (cell_t colouring) with N in *. lia.
    + by destruct (act s d =? 0).
    + destruct (box s v !! i) as [c|] eqn:Ec; cbn.
      * intros w. cbn. destruct (decide (w = v)) as [->|Hw]; us; [rewrite insert_length|]; apply Hf.
      * destruct (col_react v k (prop s v) (edges s v) got) as [[p ms] ms']. exact Hf.
    + destruct (merge colouring m v v (box s v)) as [b new] eqn:Em. intros w. cbn. apply merge_self in Em. destruct Em as [-> _].
      destruct (decide (w = v)) as [->|Hw]; us; apply Hf.
Qed.
Lemma fits_run b0 es0 sched : (forall v c, c ∈ b0 v -> c = EMPTY_VAL) -> (forall v, length (b0 v) <= K) ->
  slots_unique (ever es0 sched) -> (forall u v p, (v, p) ∈ ever es0 sched u -> p < K) ->
  (forall u v p, (v, p) ∈ ever es0 sched u -> p < f v) -> (forall v, length (b0 v) <= f v) ->
  fits (erun colouring owner (estart colouring b0 (fun _ => new_prop) es0) sched).
Proof.
  intros Hb Hl. induction sched as [|[t c] sched IH] using rev_ind; intros HU HP Hp Hf; [done|].
  assert (HU' : slots_unique (ever es0 sched)).
  { intros u1 u2 i1 i2 x H1 H2. apply (HU u1 u2 i1 i2 x); rewrite ever_app; by apply lookup_app_l_Some. }
  assert (HP' : forall u v p, (v, p) ∈ ever es0 sched u -> p < K /\ p < f v).
  { intros u v p H. split; [apply (HP u v p)|apply (Hp u v p)]; rewrite ever_app; apply elem_of_app; by left. }
  unfold erun. rewrite fold_left_app. cbn. fold (erun colouring owner (estart colouring b0 (fun _ => new_prop) es0) sched).
  eapply (fits_step (ever es0 sched)).
  - apply (cinv_run owner n Hown K HK b0 es0 Hb Hl sched HU'). intros u v p H. by apply (HP' u v p).
  - intros u v p H. by apply (HP' u v p).
  - apply IH; try done; intros u v p H; by apply (HP' u v p).
Qed.
End bound.

(** A vertex that was given edges after the start is visited. *)
Section touched.
Context (a : alg) (owner : nat -> nat) (es0 : nat -> list (nat * edge_t a)).
Definition touched (s : est a) : Prop :=
  forall u, edges s u <> [] -> es0 u <> [] \/ Began u ∈ elog s \/ exists k, Begin u k ∈ todo s (owner u).
Lemma touched_step s t c : touched s -> touched (estep a owner s t c).
Proof.
  intros Ht. unfold estep. destruct (todo s t) as [|o rest] eqn:Et.
  - destruct c as [| |v es|v gone|v m]; try done.
    + destruct (queue s t) as [|v q]; [done|]. intros u Hu. destruct (Ht u Hu) as [H|[H|(k & H)]]; [by left|by right; left|].
      right; right. exists k. cbn. rewrite upd_ne; [done|]. intros E. by rewrite E, Et in H; apply elem_of_nil in H.
    + destruct (Nat.eqb_spec (owner v) t) as [Ev|]; [|done]. intros u Hu. cbn in *. destruct (decide (u = v)) as [->|Hne]; us.
      { right; right. exists (KAdd (length (edges s v))). rewrite Ev. us. by apply elem_of_list_singleton. }
      destruct (Ht u Hu) as [H|[H|(k & H)]]; [by left|by right; left|].
      right; right. exists k. rewrite upd_ne; [done|]. intros E. by rewrite E, Et in H; apply elem_of_nil in H.
    + destruct (Nat.eqb_spec (owner v) t) as [Ev|]; [|done]. intros u Hu. cbn in *. destruct (decide (u = v)) as [->|Hne]; us.
      { right; right. exists (KDel (masked true (edges s v) gone)). rewrite Ev. us. by apply elem_of_list_singleton. }
      destruct (Ht u Hu) as [H|[H|(k & H)]]; [by left|by right; left|].
      right; right. exists k. rewrite upd_ne; [done|]. intros E. by rewrite E, Et in H; apply elem_of_nil in H.
    + destruct (Nat.eqb_spec (owner v) t) as [Ev|]; [|done]. intros u Hu. destruct (Ht u Hu) as [H|[H|(k & H)]]; [by left|by right; left|].
      right; right. exists k. cbn. rewrite upd_ne; [done|]. intros E. by rewrite E, Et in H; apply elem_of_nil in H.
  - destruct c; try done.
    assert (H : edges (exec_op a owner s t o rest) = edges s /\
      (exists l, elog (exec_op a owner s t o rest) = elog s ++ l /\ match o with Begin v _ => Began v ∈ l | _ => True end) /\
      exists l, todo (exec_op a owner s t o rest) = upd (todo s) t l /\ forall o', o' ∈ rest -> o' ∈ l).
    { destruct o as [src d m|d|d|v|v k|v k i got|l|v m]; cbn [exec_op].
      - destruct (merge a m src d (box s d)) as [b []]; cbn; split_and!; try done; eexists; (split; [done || by rewrite app_nil_r|]); try done.
        intros o' H. by apply elem_of_list_further.
      - destruct (act s d =? 0); cbn; split_and!; try done; eexists; (split; [done || by rewrite app_nil_r|]); try done.
        intros o' H. by apply elem_of_list_further.
      - cbn; split_and!; try done; eexists; (split; [done || by rewrite app_nil_r|]); done.
      - cbn; split_and!; try done; eexists; (split; [done || by rewrite app_nil_r|]); done.
      - cbn; split_and!; try done; eexists; (split; [done|]); [by apply elem_of_list_singleton|].
        intros o' H. by apply elem_of_list_further.
      - destruct (box s v !! i) as [c|]; [destruct (take a c) as [c' x]|destruct (react a v k (prop s v) (edges s v) got) as [[p ms] ms']];
          cbn; split_and!; try done; eexists; (split; [done || by rewrite app_nil_r|]); try done.
        + intros o' H. by apply elem_of_list_further.
        + intros o' H. apply elem_of_app. right. by apply elem_of_list_further.
      - cbn; split_and!; try done; eexists; (split; [done || by rewrite app_nil_r|]); try done.
        destruct (sent s t =? 0); [|done]. intros o' H. apply elem_of_app. by right.
      - destruct (merge a m v v (box s v)) as [b []]; cbn; split_and!; try done; eexists; (split; [done || by rewrite app_nil_r|]); try done.
        intros o' H. by apply elem_of_list_further. }
    destruct H as (E1 & (l & E2 & Ho) & l' & E3 & Hl). intros u. rewrite E1, E2, E3. intros Hu.
    destruct (Ht u Hu) as [H|[H|(k & H)]]; [by left|right; left; apply elem_of_app; by left|].
    destruct (decide (owner u = t)) as [Eu|Eu]; [|right; right; exists k; by us].
    rewrite Eu, Et in H. apply elem_of_cons in H. destruct H as [<-|H].
    + right; left. apply elem_of_app. by right.
    + right; right. exists k. rewrite Eu. us. by apply Hl.
Qed.
Lemma touched_run b p sched : touched (erun a owner (estart a b p es0) sched).
Proof.
  induction sched as [|[t c] sched IH] using rev_ind; [intros u Hu; by left|].
  unfold erun. rewrite fold_left_app. cbn. fold (erun a owner (estart a b p es0) sched). by apply touched_step.
Qed.
End touched.
