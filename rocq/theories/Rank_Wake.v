(** When a PageRank mailbox over the threshold is noticed. *)
From Verif Require Import Base RBO_Spec QcUtil Engine_Spec Engine_Model Engine_Proofs Engine_Shape Min_Proofs Rank_Spec Rank_Model Rank_Proofs Rank_Run.
From Coq Require Import QArith Qcanon.
Open Scope nat_scope.

Lemma qltb_spec a b : qltb a b = true <-> (a < b)%Qc.
Proof. unfold qltb. destruct (Qclt_le_dec a b) as [H|H]; [done|]. split; [done|]. intros H'. exfalso. by apply Qcle_not_lt in H. Qed.
Lemma qltb_false a b : qltb a b = false <-> (b <= a)%Qc.
Proof. unfold qltb. destruct (Qclt_le_dec a b) as [H|H]; [|done]. split; [done|]. intros H'. exfalso. by apply Qcle_not_lt in H'. Qed.
Lemma qabs_0 : qabs 0%Qc = 0%Qc.
Proof. unfold qabs. destruct (Qclt_le_dec 0 0); [|done]. by apply Qclt_not_eq in q. Qed.
Lemma eps_pos : (0 < EPS)%Qc. Proof. done. Qed.

Section wake.
Context (owner : nat -> nat) (n : nat) (Hown : forall v, owner v < n) (N : nat).
Notation est := (est ranking).
Notation rinv := (rinv owner n N).

Definition loud (s : est) (v : nat) : Prop := exists y, y ∈ box s v /\ (EPS < qabs y)%Qc.
Definition pre (s : est) (v : nat) : Prop := exists k got, Scan v k 0 got ∈ todo s (owner v).
(** No mailbox holds exactly the threshold. *)
Definition inexact (s : est) : Prop := forall v y, y ∈ box s v -> qabs y <> EPS.
Definition heard (s : est) : Prop := forall v, loud s v -> unanswered (elog s) v \/ pre s v.
Definition small (s : est) : Prop := forall v, (qabs (fst (prop s v)) <= EPS)%Qc.

Lemma pre_keep s s' t o rest l0 v : todo s t = o :: rest -> todo s' = upd (todo s) t (l0 ++ rest) -> (forall k got, o <> Scan v k 0 got) -> pre s v -> pre s' v.
Proof.
  intros Et Et' Ho (k & got & H). exists k, got. rewrite Et'. destruct (decide (owner v = t)) as [E|E]; us; [|done]. rewrite E in *. rewrite upd_eq.
  rewrite Et in H. apply elem_of_cons in H. destruct H as [H|H]; [by symmetry in H; apply Ho in H|]. apply elem_of_app. by right.
Qed.

Lemma merged_heard s s' t o rest l0 d m y new : inexact s -> heard s -> todo s t = o :: rest -> todo s' = upd (todo s) t (l0 ++ rest) ->
  (forall v k got, o <> Scan v k 0 got) -> box s d = [y] -> rank_merge m [y] = ([(y + m)%Qc], new) ->
  box s' = upd (box s) d [(y + m)%Qc] -> elog s' = (if new then elog s ++ [Told d] else elog s) -> heard s'.
Proof.
  intros Hex Hh Et Et' Ho Hy Hm Eb El v (z & Hz & Hl). rewrite Eb in Hz.
  assert (Hkeep : unanswered (elog s) v \/ pre s v -> unanswered (elog s') v \/ pre s' v).
  { intros [H|H]; [left|right; by eapply pre_keep]. rewrite El. destruct new; [by apply unanswered_told|done]. }
  destruct (decide (v = d)) as [->|Hne]; us; [|apply Hkeep, Hh; by exists z].
  try rewrite upd_eq in Hz. apply elem_of_list_singleton in Hz. subst z. injection Hm as Hm. destruct new; [left; rewrite El; apply unanswered_told_here|].
  apply andb_false_iff in Hm. destruct Hm as [Hm|Hm]; apply qltb_false in Hm.
  - apply Hkeep, Hh. exists y. rewrite Hy. split; [apply elem_of_list_here|]. apply Qcle_lt_or_eq in Hm. destruct Hm as [Hm|Hm]; [done|].
    exfalso. apply (Hex d y); [rewrite Hy; apply elem_of_list_here|done].
  - exfalso. by apply Qcle_not_lt in Hm.
Qed.

Lemma plain_heard s s' t o rest l0 : heard s -> todo s t = o :: rest -> todo s' = upd (todo s) t (l0 ++ rest) ->
  (forall v k got, o <> Scan v k 0 got) -> box s' = box s -> elog s' = elog s -> heard s'.
Proof.
  intros Hh Et Et' Ho Eb El v (z & Hz & Hl). rewrite Eb in Hz. rewrite El. destruct (Hh v) as [H|H]; [by exists z|by left|right]. by eapply pre_keep.
Qed.
Lemma start_heard s s' t l : heard s -> todo s t = [] -> todo s' = upd (todo s) t l -> box s' = box s -> elog s' = elog s -> heard s'.
Proof.
  intros Hh Et Et' Eb El v (z & Hz & Hl). rewrite Eb in Hz. rewrite El. destruct (Hh v) as [H|(k & got & H)]; [by exists z|by left|right].
  exists k, got. rewrite Et'. destruct (decide (owner v = t)) as [E|E]; us; [|done]. rewrite E, Et in H. by apply elem_of_nil in H.
Qed.

Lemma heard_step s t c : rinv s -> inexact s -> heard s -> heard (estep ranking owner s t c).
Proof.
  intros Hs Hex Hh. unfold estep. destruct (todo s t) as [|o rest] eqn:Et.
  - destruct c as [| |v es|v gone|v m]; try done.
    + destruct (queue s t); [done|]. by eapply start_heard.
    + destruct (owner v =? t); [|done]. by eapply start_heard.
    + destruct (owner v =? t); [|done]. by eapply start_heard.
    + destruct (owner v =? t); [|done]. by eapply start_heard.
  - destruct c as [| |v es|v gone|v m]; try done.
    assert (Hmerge : forall d, exists y, box s d = [y]).
    { intros d. pose proof (r_box _ _ _ _ Hs d) as Hl. destruct (box s d) as [|y [|? ?]]; try done. by exists y. }
    destruct o as [src d m|d|d|v|v k|v k i got|l|v m]; cbn [exec_op].
    + destruct (Hmerge d) as [y Hy]. rewrite Hy. destruct (merge ranking m src d [y]) as [b new] eqn:E.
      assert (Eb : b = [(y + m)%Qc]) by (by injection E). subst b.
      eapply (merged_heard s _ t (Merge src d m) rest (if new then [Cas (a := ranking) d] else []) d m y new); try done. cbn. by destruct new.
    + destruct (act s d =? 0); [by eapply (plain_heard s _ t _ rest [Put (a := ranking) d])|by eapply (plain_heard s _ t _ rest [])].
    + by eapply (plain_heard s _ t _ rest []).
    + by eapply (plain_heard s _ t _ rest []).
    + intros w (z & Hz & Hl). cbn in Hz. destruct (w_mine _ _ _ _ (r_wake _ _ _ _ Hs) t (Begin v k)) as [_ Ev]; [rewrite Et; apply elem_of_list_here|]. cbn in Ev.
      destruct (decide (w = v)) as [->|Hne].
      * right. exists k, []. cbn. rewrite Ev, upd_eq. apply elem_of_list_here.
      * destruct (Hh w) as [H|H]; [by exists z|left; by apply unanswered_began|right]. by eapply (pre_keep s _ t (Begin v k) rest [Scan (a := ranking) v k 0 []]).
    + destruct (Hmerge v) as [y Hy]. destruct (box s v !! i) as [y'|] eqn:Ei.
      * rewrite Hy in Ei. destruct i as [|i]; [|done]. cbn [take ranking]. intros w (z & Hz & Hl). cbn in Hz.
        destruct (decide (w = v)) as [->|Hne].
        -- exfalso. rewrite upd_eq, Hy in Hz. cbn in Hz. apply elem_of_list_singleton in Hz. subst z. rewrite qabs_0 in Hl. revert Hl. by vm_compute.
        -- rewrite upd_ne in Hz by done. destruct (Hh w) as [H|H]; [by exists z|by left|right].
           eapply (pre_keep s _ t (Scan v k 0 got) rest [Scan (a := ranking) v k 1 (got ++ [y'])]); try done. intros k' got' [=]. congruence.
      * destruct (react ranking v k (prop s v) (edges s v) got) as [[p ms] ms'].
        eapply (plain_heard s _ t _ rest (map (fun '(d, m) => Merge (a := ranking) v d m) ms ++ [Else (map (fun '(d, m) => (v, d, m)) ms')])); try done.
        -- cbn. by rewrite <- app_assoc.
        -- intros w k' got' [= -> -> -> ->]. by rewrite Hy in Ei.
    + destruct (sent s t =? 0).
      * by eapply (plain_heard s _ t _ rest (map (fun '(v, d, m) => Merge (a := ranking) v d m) l)).
      * by eapply (plain_heard s _ t _ rest []).
    + destruct (Hmerge v) as [y Hy]. rewrite Hy. destruct (merge ranking m v v [y]) as [b new] eqn:E.
      assert (Eb : b = [(y + m)%Qc]) by (by injection E). subst b.
      eapply (merged_heard s _ t (Init v m) rest (if new then [Begin (a := ranking) v KUpd] else []) v m y new); try done. cbn. by destruct new.
Qed.

Lemma small_step s t c : small s -> small (estep ranking owner s t c).
Proof.
  intros Hs. unfold estep. destruct (todo s t) as [|o rest].
  - destruct c as [| |v es|v gone|v m]; try done; [by destruct (queue s t)|by destruct (owner v =? t)..].
  - destruct c as [| |v es|v gone|v m]; try done. destruct o as [src d m|d|d|v|v k|v k i got|l|v m]; cbn [exec_op]; try done.
    + by destruct (merge ranking m src d (box s d)).
    + by destruct (act s d =? 0).
    + destruct (box s v !! i); [done|]. destruct (react ranking v k (prop s v) (edges s v) got) as [[p ms] ms'] eqn:E. intros w. cbn.
      unfold upd. destruct (Nat.eqb_spec w v) as [->|]; [|apply Hs]. cbn [react ranking] in E. injection E as E <-.
      assert (H0 : (qabs 0 <= EPS)%Qc) by (rewrite qabs_0; by vm_compute).
      destruct k; [|by injection E as <- <-..]. unfold rank_update in E. destruct (qltb _ _) eqn:El; injection E as <- <-; [done|]. by apply qltb_false in El.
    + by destruct (merge ranking m v v (box s v)).
Qed.

Lemma wake_run sched : forall s, rinv s -> heard s -> small s -> (forall t c, (t, c) ∈ sched -> low N c) ->
  (forall pre post, sched = pre ++ post -> inexact (erun ranking owner s pre)) ->
  heard (erun ranking owner s sched) /\ small (erun ranking owner s sched).
Proof.
  induction sched as [|[t c] sched IH]; intros s Hs Hh Hsm Hlow Hex; [done|].
  apply (IH (estep ranking owner s t c)).
  - apply balance_step; [done..|]. apply (Hlow t), elem_of_list_here.
  - apply heard_step; [done| |done]. apply (Hex [] ((t, c) :: sched) eq_refl).
  - by apply small_step.
  - intros t' c' H. apply (Hlow t'). by apply elem_of_list_further.
  - intros p q ->. apply (Hex ((t, c) :: p) q eq_refl).
Qed.
End wake.
