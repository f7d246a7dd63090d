(** Queues with little room. *)
From Verif Require Import Base Engine_Spec Engine_Model Engine_Proofs Full_Spec Full_Model.
From Verif Require Term_Model.
Open Scope nat_scope.

Section full.
Context {W X : Type} (wstep : W -> nat -> X -> W) (trm : W -> Term_Model.st) (lwork : W -> nat -> X -> list (nat * Term_Model.choice)).
Context (cap : N).
Notation fstep := (fstep wstep trm lwork cap).
Notation frun := (frun wstep trm lwork cap).
Notation target := (target trm lwork).
Definition prun (w : W) (l : list (nat * X)) : W := fold_left (fun w '(t, x) => wstep w t x) l w.

Lemma frun_app s l l' : frun s (l ++ l') = frun (frun s l) l'.
Proof. unfold Full_Model.frun. by rewrite fold_left_app. Qed.
Lemma plains_app l l' : plains (X := X) (l ++ l') = plains l ++ plains l'.
Proof. unfold plains. by rewrite flat_map_app. Qed.
Lemma plains_concat ls : plains (X := X) (concat ls) = concat (map plains ls).
Proof. induction ls as [|l ls IH]; [done|]. cbn [concat map]. by rewrite plains_app, IH. Qed.

(** As long as there is room, the loops do what they do without limits. *)
Section room.
Context (inv : W -> Prop) (Hinv : forall w t x, inv w -> inv (wstep w t x)).
Context (Hsend : forall w t x u, inv w -> target w t x = Some u -> Term_Model.queue (trm (wstep w t x)) u = (Term_Model.queue (trm w) u + 1)%N).
Lemma room sched : forall s, inv (lp s) ->
  (forall pre post u, plains sched = pre ++ post -> (Term_Model.queue (trm (prun (lp s) pre)) u <= cap)%N) ->
  lp (frun s sched) = prun (lp s) (plains sched).
Proof.
  induction sched as [|[t [x|]] l IH]; intros s HI Hq; [done| |].
  - change (plains ((t, Plain x) :: l)) with ((t, x) :: plains l) in *. cbn [Full_Model.frun fold_left prun].
    fold (frun (fstep s t (Plain x)) l). fold (prun (wstep (lp s) t x) (plains l)).
    assert (E : lp (fstep s t (Plain x)) = wstep (lp s) t x).
    { unfold Full_Model.fstep. destruct (full trm lwork cap s t x) eqn:Ef; [|done]. exfalso. unfold full in Ef.
      destruct (target (lp s) t x) as [u|] eqn:Et; [|done]. apply N.leb_le in Ef. unfold ring in Ef.
      pose proof (Hsend (lp s) t x u HI Et) as Hs. pose proof (Hq [(t, x)] (plains l) u eq_refl) as H1. cbn in H1. lia. }
    rewrite IH; [by rewrite E|rewrite E; by apply Hinv|]. intros pre post u Ep. rewrite E. apply (Hq ((t, x) :: pre) post u). by rewrite Ep.
  - change (plains ((t, Spill) :: l)) with (plains l) in *. cbn [Full_Model.frun fold_left]. fold (frun (fstep s t Spill) l).
    assert (E : lp (fstep s t Spill) = lp s) by (unfold Full_Model.fstep; by destruct (_ && _)).
    rewrite IH; rewrite E; done.
Qed.
End room.

(** Threads that wait for each other. *)
Section jam.
(** [waits w t u]: thread [t] has nothing else to do than to send to [u]. *)
Context (waits : W -> nat -> nat -> Prop).
Context (Hself : forall w t u x, waits w t u -> target w t x = Some u \/ wstep w t x = w /\ target w t x = None).
Context (Hrecv : forall w t u, waits w t u -> receiving trm w t = false).
Context (Hother : forall w t u t' x, waits w t u -> t' <> t -> waits (wstep w t' x) t u).
Context (Hqueue : forall w t t' x, t' <> t -> (Term_Model.queue (trm w) t <= Term_Model.queue (trm (wstep w t' x)) t)%N).
Definition jammed (T : list nat) (s : fullst) : Prop := forall t, t ∈ T -> exists u, u ∈ T /\ waits (lp s) t u /\ (cap <= ring trm s u)%N.

Lemma jam_step T s t x : jammed T s -> jammed T (fstep s t x).
Proof.
  intros HJ. destruct (decide (t ∈ T)) as [Ht|Ht].
  - destruct (HJ t Ht) as (u & Hu & Hw & Hf). assert (E : fstep s t x = s); [|by rewrite E]. destruct x as [x|]; unfold Full_Model.fstep.
    + unfold full. destruct (Hself _ _ _ x Hw) as [E|[E1 E2]].
      * rewrite E. apply N.leb_le in Hf. by rewrite Hf.
      * rewrite E2, E1. unfold pulls. rewrite N.ltb_irrefl. by destruct s.
    + by rewrite (Hrecv _ _ _ Hw).
  - intros t0 Ht0. destruct (HJ t0 Ht0) as (u & Hu & Hw & Hf). exists u. split; [done|].
    assert (t <> t0) by (intros ->; done). assert (t <> u) by (intros ->; done). destruct x as [x|]; unfold Full_Model.fstep.
    + destruct (full _ _ _ _ _ _); [done|]. cbn [lp]. split; [by apply Hother|]. unfold ring in *. cbn [lp buf].
      assert (E : (if pulls trm (lp s) (wstep (lp s) t x) t then upd (buf s) t (buf s t - 1)%N else buf s) u = buf s u) by (destruct (pulls _ _ _ _); [by rewrite upd_ne|done]).
      rewrite E. pose proof (Hqueue (lp s) u t x ltac:(done)). lia.
    + destruct (_ && _); [|done]. split; [done|]. unfold ring in *. cbn [lp buf]. by rewrite upd_ne.
Qed.
Lemma jam_run T sched : forall s, jammed T s -> jammed T (frun s sched).
Proof. induction sched as [|[t x] l IH]; intros s HJ; [done|]. cbn. apply IH. by apply jam_step. Qed.
End jam.
End full.

(** The mailbox engine: who can be in a queue. *)
Section box.
Context (a : alg) (owner : nat -> nat) (n : nat) (N : nat).
(** Messages go along edges. *)
Definition along_edges : Prop := forall v k p es cs p' ms ms' d m, react a v k p es cs = (p', ms, ms') -> (d, m) ∈ ms ++ ms' ->
  d ∈ map fst es \/ exists l, k = KDel l /\ d ∈ map fst l.
Context (Ha : along_edges).
Definition kind_low (k : kind (edge_t a)) : Prop := match k with KDel l => forall d, d ∈ map fst l -> d < N | _ => True end.
Definition op_low (o : op a) : Prop :=
  match o with
  | Merge _ d _ | Cas d | Put d => d < N
  | Begin _ k | Scan _ k _ _ => kind_low k
  | Else l => forall v d m, (v, d, m) ∈ l -> d < N
  | Dec _ | Init _ _ => True
  end.
Record low (s : est a) : Prop := Low {
  l_edges : forall u d, d ∈ map fst (edges s u) -> d < N;
  l_todo : forall t o, o ∈ todo s t -> op_low o;
  l_queue : forall t v, v ∈ queue s t -> v < N }.
Definition change_low (c : choice a) : Prop := match c with AddEdges _ l => forall d, d ∈ map fst l -> d < N | _ => True end.

Lemma low_todo (s s' : est a) t l : low s -> edges s' = edges s -> (forall u v, v ∈ queue s' u -> v < N) -> todo s' = upd (todo s) t l -> (forall o, o ∈ l -> op_low o) -> low s'.
Proof.
  intros [L1 L2 L3] E1 E2 E3 Hl. constructor.
  - intros u d. rewrite E1. apply L1.
  - intros u o. rewrite E3. destruct (decide (u = t)) as [Eu|Hne]; [subst u; rewrite upd_eq; apply Hl|rewrite upd_ne by done; apply L2].
  - apply E2.
Qed.
Lemma masked_in {A} b (l : list A) : forall gone x, x ∈ masked b l gone -> x ∈ l.
Proof.
  induction l as [|y l IH]; intros [|g gone] x; cbn; try done; [by destruct b|by destruct b; [intros H; apply elem_of_nil in H|]|].
  destruct (eqb g b); rewrite ?elem_of_cons; [intros [->|H]; [by left|right; by apply (IH gone)]|right; by apply (IH gone)].
Qed.
Lemma masked_low b (l : list (nat * edge_t a)) gone d : d ∈ map fst (masked b l gone) -> d ∈ map fst l.
Proof. rewrite !elem_of_list_fmap. intros (x & E & H). exists x. split; [done|]. by apply masked_in in H. Qed.

Ltac fin := first [eassumption | match goal with H : forall o1, op_low o1 -> _ |- _ => apply H; eassumption end | match goal with H : forall o1, op_low o1 -> _ |- _ => by apply H end].
Lemma low_exec s t o rest : low s -> todo s t = o :: rest -> low (exec_op a owner s t o rest).
Proof.
  intros HL Et. pose proof (l_todo _ HL t) as Hops. rewrite Et in Hops.
  assert (Ho : op_low o) by apply Hops, elem_of_list_here. assert (Hr : forall o', o' ∈ rest -> op_low o') by (intros o' H; by apply Hops, elem_of_list_further).
  assert (Hc : forall o1, op_low o1 -> forall o', o' ∈ o1 :: rest -> op_low o') by (intros o1 H1 o' H; apply elem_of_cons in H as [->|H]; auto).
  destruct o as [src d m|d|d|v|v k|v k i got|l|v m]; cbn [exec_op].
  - destruct (merge a m src d (box s d)) as [b new]. destruct new; (eapply (low_todo s _ t); [done|done|apply HL|done|]); fin.
  - case_match; (eapply (low_todo s _ t); [done|done|apply HL|done|]); fin.
  - eapply (low_todo s _ t); [done|done| |done|done]. cbn. intros u v. destruct (decide (u = owner d)) as [Eu|Hne].
    + rewrite Eu, upd_eq. rewrite elem_of_app, elem_of_list_singleton. intros [H| ->]; [by apply (l_queue _ HL (owner d))|done].
    + rewrite upd_ne by done. apply HL.
  - eapply (low_todo s _ t); [done|done|apply HL|done|fin].
  - eapply (low_todo s _ t); [done|done|apply HL|done|fin].
  - destruct (box s v !! i) as [c|] eqn:Eb.
    + destruct (take a c) as [c' x]. eapply (low_todo s _ t); [done|done|apply HL|done|fin].
    + destruct (react a v k (prop s v) (edges s v) got) as [[p ms] ms'] eqn:Er. eapply (low_todo s _ t); [done|done|apply HL|done|].
      assert (Hd : forall d m, (d, m) ∈ ms ++ ms' -> d < N).
      { intros d m Hin. destruct (Ha _ _ _ _ _ _ _ _ d m Er Hin) as [H|(l & -> & H)]; [by apply (l_edges _ HL v)|by apply Ho]. }
      intros o'. rewrite elem_of_app, elem_of_cons. intros [H|[->|H]]; [| |auto].
      * apply elem_of_list_fmap in H as ([d m] & -> & H). apply (Hd d m). apply elem_of_app. by left.
      * intros v' d m H. apply elem_of_list_fmap in H as ([d' m'] & [= -> -> ->] & H). apply (Hd d' m'). apply elem_of_app. by right.
  - eapply (low_todo s _ t); [done|done|apply HL|done|]. destruct (sent s t =? 0); [|fin]. intros o'. rewrite elem_of_app. intros [H|H]; [|auto].
    apply elem_of_list_fmap in H as ([[v d] m] & -> & H). by apply (Ho v d m).
  - destruct (merge a m v v (box s v)) as [b new]. destruct new; (eapply (low_todo s _ t); [done|done|apply HL|done|]); fin.
Qed.
Lemma low_step s t c : low s -> change_low c -> low (estep a owner s t c).
Proof.
  intros HL Hc. unfold estep. destruct (todo s t) as [|o rest] eqn:Et; [|destruct c; try done; by apply low_exec].
  assert (H1 : forall o1 o', op_low o1 -> o' ∈ [o1] -> op_low o') by (intros o1 o' H Hin; apply elem_of_list_singleton in Hin as ->; done).
  destruct c as [| |v es|v gone|v m]; [done| | | |].
  - destruct (queue s t) as [|v q] eqn:Eq; [done|]. eapply (low_todo s _ t); [done|done| |done|].
    + cbn. intros u w. destruct (decide (u = t)) as [Eu|Hne]; [rewrite Eu, upd_eq|rewrite upd_ne by done; apply HL]. intros H. apply (l_queue _ HL t). rewrite Eq. by apply elem_of_list_further.
    + intros o'. rewrite !elem_of_cons, elem_of_nil. by intros [->|[->|[]]].
  - case_match; [|done]. constructor; cbn.
    + intros u d. destruct (decide (u = v)) as [Eu|Hne]; [rewrite Eu, upd_eq|rewrite upd_ne by done; apply HL]. rewrite map_app, elem_of_app. intros [H'|H']; [by apply (l_edges _ HL v)|by apply Hc].
    + intros u o. destruct (decide (u = t)) as [Eu|Hne]; [rewrite Eu, upd_eq; by apply H1|rewrite upd_ne by done; apply HL].
    + apply HL.
  - case_match; [|done]. constructor; cbn.
    + intros u d. destruct (decide (u = v)) as [Eu|Hne]; [rewrite Eu, upd_eq|rewrite upd_ne by done; apply HL]. intros H'. apply (l_edges _ HL v). by apply masked_low in H'.
    + intros u o. destruct (decide (u = t)) as [Eu|Hne]; [rewrite Eu, upd_eq|rewrite upd_ne by done; apply HL]. apply H1. intros d Hd. apply (l_edges _ HL v). by apply masked_low in Hd.
    + apply HL.
  - case_match; [|done]. eapply (low_todo s _ t); [done|done|apply HL|done|]. intros o'. by apply H1.
Qed.
Lemma low_run l : forall s, low s -> (forall t c, (t, c) ∈ l -> change_low c) -> low (erun a owner s l).
Proof.
  induction l as [|[t c] l IH]; intros s HL Hl; [done|]. unfold erun. cbn [fold_left]. fold (erun a owner (estep a owner s t c) l).
  apply IH; [apply low_step; [done|]; apply (Hl t c), elem_of_list_here|]. intros t' c' H. by apply (Hl t' c'), elem_of_list_further.
Qed.
Lemma low_start b p es : (forall u d, d ∈ map fst (es u) -> d < N) -> low (estart a b p es).
Proof. intros H. constructor; cbn; [done|intros t o Hin; by apply elem_of_nil in Hin..]. Qed.

(** No vertex is in a queue twice. *)
Lemma queue_residents s t : wake a owner n s -> low s -> length (queue s t) <= residents owner N t.
Proof.
  intros HW HL. unfold residents. apply NoDup_incl_length.
  - apply NoDup_ListNoDup. assert (Ho : forall v, v ∈ queue s t -> occ v (queue s t) <= 1).
    { intros v Hv. pose proof (w_queue _ _ _ _ HW t v Hv) as E. pose proof (w_act _ _ _ _ HW v) as H1. pose proof (w_one _ _ _ _ HW v). rewrite E in H1. lia. }
    revert Ho. generalize (queue s t) as q. induction q as [|v q IH]; intros Ho; constructor.
    + intros H. specialize (Ho v ltac:(apply elem_of_list_here)). cbn in Ho. rewrite Nat.eqb_refl in Ho. apply occ_in in H. lia.
    + apply IH. intros w Hw. specialize (Ho w ltac:(by apply elem_of_list_further)). cbn in Ho. lia.
  - intros v Hv. apply elem_of_list_In in Hv. apply filter_In. split; [apply in_seq; pose proof (l_queue _ HL t v Hv); lia|]. apply Nat.eqb_eq. by apply (w_queue _ _ _ _ HW).
Qed.
End box.
