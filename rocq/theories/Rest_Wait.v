(** The colouring with wait counts comes to rest: every vertex sends its colour once. *)
From Verif Require Import Base Engine_Spec Engine_Model Engine_Proofs Engine_Shape Engine_Told Engine_Props Rest_Spec Rest_Proofs Rest_Work Rest_Prio.
From Verif Require Import Bitmap_Spec Bitmap_Model Bitmap_Proofs Colour_Spec Colour_Model Colour_Best Colour_Proofs Colour_Run Rest_Colour Wait_Spec Wait_Model Wait_Proofs Wait_Steps Wait_Run Wait_Props.
Open Scope nat_scope.

Section wait.
Context (owner : nat -> nat) (n : nat) (Hown : forall v, owner v < n).
Context (es : nat -> list (nat * nat)) (b : nat -> nat) (HU : slots_unique es) (HB : balanced es).
Context (Hpos : forall u v p, (v, p) ∈ es u -> p < b v) (Hsize : forall v, (N.of_nat (b v) < 2 ^ 31 - 1)%N).
Context (top : nat) (Hlow : forall u, top <= u -> es u = []) (M K : nat) (HM : forall u, length (es u) <= M) (HK : forall v, b v <= K).
Notation winv := (winv owner n es b).
Notation est := (est waiting).
Notation colr s v := (fst (prop (a := waiting) s v)).

Lemma script_len s d c p : length (script s d c p) <= 4.
Proof. unfold script. destruct (_ || _); cbn; lia. Qed.
Lemma scripts_len v (ms : list (nat * (N * nat))) : length (flat_map (fun '(d, (c, pos)) => map (pair d) (script v d c pos)) ms) <= 4 * length ms.
Proof.
  induction ms as [|[d [c p]] ms IH]; [done|]. cbn [flat_map length]. rewrite app_length, map_length. pose proof (script_len v d c p). lia.
Qed.

(** A reaction colours the vertex, or does nothing. *)
Lemma wait_reacts s t v k i got rest : winv s -> todo s t = Scan (a := waiting) v k i got :: rest -> box s v !! i = None ->
  let '(p', ms) := wait_react v (prop s v) (edges s v) got in
  fst p' <> EMPTY_VAL /\ length ms <= 4 * M /\ (colr s v <> EMPTY_VAL -> ms = []) /\ (v >= top -> ms = []).
Proof.
  intros Hs Et Eb. destruct (scan_head owner n es b s t v k i got rest Hs Et) as (-> & -> & Ev).
  assert (Hg : length got <= S (b v)). { destruct (v_scan _ _ _ _ _ Hs v k (length got) got) as [H _]; [by rewrite Ev|done]. }
  destruct (v_bm _ _ _ _ _ Hs v) as (S0 & HS). unfold wait_react.
  set (ns := map fst (tail got)).
  assert (Hns : length ns <= b v) by (unfold ns; rewrite map_length; clear -Hg; destruct got; cbn in *; [lia|apply le_S_n; exact Hg]).
  pose proof (Hsize v) as Hsv.
  destruct (on_update (mail_retrieve ns (prop s v)) (edges s v)) as [p' ms] eqn:Eu.
  pose proof (update_ok ns (prop s v) S0 (edges s v) HS ltac:(lia) p' ms Eu) as (U1 & U2 & U3 & U4).
  assert (Hlen : length ms <= length (es v)). { rewrite <- (v_edges _ _ _ _ _ Hs v). destruct U4 as [[_ ->]| ->]; cbn; [lia|by rewrite map_length]. }
  assert (Hne : fst p' <> EMPTY_VAL) by (rewrite empty_val; lia).
  change (map fst (list.tail got)) with ns. rewrite Eu. split_and!; [done| | |].
  - pose proof (scripts_len v ms). specialize (HM v). lia.
  - intros Hc. enough (ms = []) by (by subst).
    assert (Hs' : winv (estep waiting owner s t Run)) by (apply winv_step; done).
    unfold estep in Hs'. rewrite Et in Hs'. cbn [exec_op] in Hs'. rewrite Eb in Hs'. cbn [react waiting] in Hs'. unfold wait_react in Hs'. change (map fst (list.tail got)) with ns in Hs'. rewrite Eu in Hs'.
    pose proof (v_prop _ _ _ _ _ Hs' v) as HP. cbn [prop] in HP. rewrite upd_eq in HP. destruct (HP Hne) as (_ & P1 & _). destruct (v_prop _ _ _ _ _ Hs v Hc) as (_ & P2 & _).
    assert (Hsame : fst p' = colr s v).
    { eapply smallest_unique; [|exact P1|exact P2]. intros x. unfold before. split; intros (u & q & H1 & H2 & ->); exists u, q; (split_and!; [done..|]);
        (assert (u <> v) by (intros ->; by rewrite prio_irrefl in H2)); by us. }
    unfold on_update in Eu. destruct (N.eqb_spec (fst (mail_retrieve ns (prop s v))) (first_unused (snd (mail_retrieve ns (prop s v))))) as [E|E]; [by injection Eu|].
    injection Eu as <- _. cbn [fst] in *. unfold mail_retrieve at 1 in E. cbn [fst] in E. destruct (existsb _ ns) eqn:Ex; [|by destruct E].
    exfalso. apply existsb_exists in Ex as (c & Hin & Hx). rewrite !andb_true_iff in Hx. destruct Hx as [[Hx1 _] Hx2]. apply N.eqb_eq in Hx2.
    apply elem_of_list_In in Hin. apply (picks_ne ns _ c U1 U3 Hin). rewrite Hx2. symmetry. exact Hsame.
  - intros Hv. rewrite (Hlow v) in Hlen by lia. cbn in Hlen. destruct ms; [done|cbn in Hlen; lia].
Qed.

Notation rc := (fun _ : kind nat => 1).
Notation wm := (Rest_Work.wq waiting rc (S K) + 3).
Notation wi := (1 + Rest_Work.wbegin waiting rc (S K) KUpd).
Definition empties (s : est) : nat := sumt (fun v => if (colr s v =? EMPTY_VAL)%N then 1 else 0) top.
Definition left_over (s : est) : nat := empties s * (wm * (4 * M) + 2) + Rest_Work.work waiting n wm rc wi (S K) s.
Lemma empties_same (s s' : est) : (forall v, prop s' v = prop s v) -> empties s' = empties s.
Proof. intros H. unfold empties. apply sumt_ext. intros v _. by rewrite H. Qed.
Lemma acts_static c : c ∈ acts waiting -> static_choice c.
Proof. unfold acts. rewrite !elem_of_cons, elem_of_nil. by intros [->|[->|[]]]. Qed.
Lemma left_step s t c : winv s -> c ∈ acts waiting -> can waiting s t c = true -> left_over (estep waiting owner s t c) < left_over s.
Proof.
  intros Hs Hc Hcan. unfold left_over.
  assert (HT : threads waiting n s) by (apply (shaped_threads owner); [done|apply Hs|apply (w_queue _ _ _ _ (v_wake _ _ _ _ _ Hs))]).
  assert (Hlen : forall v, length (box s v) <= S K) by (intros v; rewrite (v_len _ _ _ _ _ Hs v); specialize (HK v); lia).
  (** Colours do not get lost. *)
  assert (He : forall v k i got rest, todo s t = Scan (a := waiting) v k i got :: rest -> box s v !! i = None -> c = Run ->
    empties (estep waiting owner s t c) <= empties s /\ (v < top -> colr s v = EMPTY_VAL -> empties (estep waiting owner s t c) < empties s)).
  { intros v k i got rest Et Eb ->. pose proof (wait_reacts s t v k i got rest Hs Et Eb) as HR. unfold estep. rewrite Et. cbn [exec_op]. rewrite Eb. cbn [react waiting].
    destruct (wait_react v (prop s v) (edges s v) got) as [p' ms]. destruct HR as (R1 & _). unfold empties. destruct (decide (v < top)) as [Hv|Hv].
    - cbn [prop]. pose proof (sumt_change (fun w => if (fst (upd (prop s) v p' w) =? EMPTY_VAL)%N then 1 else 0)
        (fun w => if (colr s w =? EMPTY_VAL)%N then 1 else 0) top v Hv) as H. cbn beta in H. rewrite upd_eq in H.
      specialize (H ltac:(intros w _ Hne; by us)). apply N.eqb_neq in R1. rewrite R1 in H. split; [lia|]. intros _ E. rewrite E in H. rewrite N.eqb_refl in H. lia.
    - split; [|lia]. apply Nat.eq_le_incl. apply sumt_ext. intros w Hw. cbn [prop]. by us. }
  assert (Hsame : (forall v k i got rest, todo s t = Scan (a := waiting) v k i got :: rest -> box s v !! i = None -> c <> Run) -> empties (estep waiting owner s t c) = empties s).
  { intros Hn. apply empties_same. intros v. unfold acts in Hc. rewrite !elem_of_cons, elem_of_nil in Hc. destruct Hc as [->|[->|[]]]; unfold estep.
    - destruct (todo s t) as [|o rest] eqn:Et; [done|]. unfold exec_op. destruct o as [u d m|d|d|u|u k|u k i got|l|u m]; try done.
      + by destruct (merge waiting m u d (box s d)).
      + by destruct (act s d =? 0).
      + destruct (box s u !! i) eqn:Eb; [by destruct (take waiting c)|]. by destruct (Hn u k i got rest eq_refl Eb).
      + by destruct (merge waiting m u u (box s u)).
    - destruct (todo s t); [|done]. by destruct (queue s t). }
  destruct (Rest_Work.work_step waiting owner n Hown wm rc wi (S K) s t c ltac:(lia) ltac:(lia) HT Hlen Hc Hcan) as [H|[H|[H|H]]].
  - assert (He0 : empties (estep waiting owner s t c) <= empties s); [|apply (Nat.mul_le_mono_r _ _ (wm * (4 * M) + 2)) in He0; lia].
    destruct (todo s t) as [|o rest] eqn:Et; [rewrite Hsame; [done|]; intros; congruence|].
    destruct o as [u d m|d|d|u|u k|u k i got|l|u m]; try (rewrite Hsame; [done|]; intros; congruence).
    destruct (box s u !! i) eqn:Eb; [rewrite Hsame; [done|]; intros ? ? ? ? ? [= -> -> -> -> ->]; congruence|].
    unfold acts in Hc. rewrite !elem_of_cons, elem_of_nil in Hc. destruct Hc as [->|[->|[]]]; [|rewrite Hsame; [done|]; intros; done].
    by apply (He u k i got rest).
  - destruct H as (v & d & m & rest & Et & -> & Hn & Hw). rewrite Hsame by (intros; congruence). lia.
  - destruct H as (v & m & rest & Et & -> & Hn & Hw). rewrite Hsame by (intros; congruence). lia.
  - destruct H as (v & k & i & got & rest & Et & -> & Hn & Hw). destruct (He v k i got rest Et Hn eq_refl) as [E1 E2]. cbn [react waiting] in Hw.
    pose proof (wait_reacts s t v k i got rest Hs Et Hn) as HR. destruct (wait_react v (prop s v) (edges s v) got) as [p' ms]. destruct HR as (R1 & R2 & R3 & R4).
    destruct (decide (ms = [])) as [->|Hms]; [cbn [length] in Hw; apply (Nat.mul_le_mono_r _ _ (wm * (4 * M) + 2)) in E1; lia|].
    assert (Hv : v < top). { destruct (decide (v < top)); [done|]. destruct Hms. apply R4. lia. }
    assert (Hce : colr s v = EMPTY_VAL). { destruct (decide (colr s v = EMPTY_VAL)); [done|]. by destruct Hms; apply R3. }
    specialize (E2 Hv Hce). cbn [length] in Hw. apply (Nat.mul_le_mono_r _ _ (wm * (4 * M) + 2)) in E2.
    assert (wm * (length ms + 0) <= wm * (4 * M)) by (apply Nat.mul_le_mono_l; lia). change (msg_t waiting) with wmsg in *. lia.
Qed.
Lemma wait_settles_M s : winv s -> finite waiting owner s /\ settles (erun waiting owner) (acts waiting) n idle s.
Proof.
  intros Hs. apply (settles_acc waiting owner n winv).
  - intros s' H. apply (shaped_threads owner); [done|apply H|apply (w_queue _ _ _ _ (v_wake _ _ _ _ _ H))].
  - intros s' t c H Hc. apply winv_step; try done. by apply acts_static.
  - done.
  - assert (G : forall k s, left_over s < k -> Acc (next waiting owner winv) s).
    { induction k as [|k IH]; intros s' Hk; [lia|]. constructor. intros s'' (t & c & I1 & Hc & Hcan & ->). apply IH.
      pose proof (left_step s' t c I1 Hc Hcan). lia. }
    by apply (G (S (left_over s))), Nat.lt_succ_diag_r.
Qed.
End wait.
