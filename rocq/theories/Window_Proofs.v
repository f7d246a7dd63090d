From Verif Require Import Base Heap_Model Heap_Proofs Window_Spec Window_Model.
Open Scope N_scope.

Definition se (p : path) : window := (p_start p, p_end p).
Notation ses l := (map se l).
Definition live (slots : list path) : list path := List.filter (fun p => negb (p_start p =? INFINITY)) slots.
Definition wf (p : path) : Prop := p_start p <= p_end p.
Definition starts_le (x : N) (l : list path) : Prop := Forall (fun p => p_start p <= x) l.
Definition srt (l : list path) : Prop := StronglySorted (fun p q => p_start p <= p_start q) l.

Definition like (l l' : list path) : Prop :=
  forall t, (Exists (fun p => covers t (se p)) l <-> Exists (fun p => covers t (se p)) l') /\
            (Exists (fun p => passes t (se p)) l <-> Exists (fun p => passes t (se p)) l').
Lemma like_refl l : like l l.
Proof. done. Qed.
Lemma like_trans l1 l2 l3 : like l1 l2 -> like l2 l3 -> like l1 l3.
Proof. intros H1 H2 t. destruct (H1 t), (H2 t). split; etransitivity; eauto. Qed.
Lemma like_app l1 l2 l3 l4 : like l1 l2 -> like l3 l4 -> like (l1 ++ l3) (l2 ++ l4).
Proof.
  intros H1 H2 t. destruct (H1 t) as [A1 A2], (H2 t) as [B1 B2]. split; rewrite !List.Exists_app; tauto.
Qed.
Lemma like_cons p l1 l2 : like l1 l2 -> like (p :: l1) (p :: l2).
Proof. apply (like_app [p] [p]). apply like_refl. Qed.
Lemma like_same l l' : like l l' -> same_times (ses l) (ses l').
Proof.
  intros H t. destruct (H t) as [H1 H2].
  assert (E : forall f l, (exists w, w ∈ ses l /\ f w) <-> Exists (fun p => f (se p)) l).
  { intros f k. rewrite <- (list.Exists_exists f). apply list.Exists_fmap. }
  by rewrite !E.
Qed.

Ltac ns := repeat match goal with
  | H : _ && _ = true |- _ => apply andb_true_iff in H; destruct H
  | H : (_ =? _) = true |- _ => apply N.eqb_eq in H
  | H : (_ =? _) = false |- _ => apply N.eqb_neq in H
  | H : (_ <=? _) = true |- _ => apply N.leb_le in H
  | H : (_ <? _) = true |- _ => apply N.ltb_lt in H
  | H : (_ <=? _) = false |- _ => apply N.leb_gt in H
  | H : (_ <? _) = false |- _ => apply N.ltb_ge in H
  end.
Ltac nb := repeat match goal with
  | H : _ && _ = false |- _ => apply andb_false_iff in H
  | H : _ \/ _ |- _ => destruct H
  end; ns.

(** The first pass. *)
Lemma fit_some i pq pq' : fit i pq = Some pq' -> starts_le (p_start i) pq -> Forall wf pq -> wf i ->
  map p_start pq' = map p_start pq /\ Forall wf pq' /\ like pq' (pq ++ [i]).
Proof.
  revert pq'. induction pq as [|w pq IH]; intros pq' E Hs Hw Hi; [done|].
  apply list.Forall_cons in Hs, Hw. destruct Hs as [Hs1 Hs], Hw as [Hw1 Hw]. cbn [fit] in E. cbn in Hs1. unfold wf in *.
  assert (one : forall w', p_start w' = p_start w -> p_start w' <= p_end w' ->
    (forall t, (covers t (se w') <-> covers t (se w) \/ covers t (se i)) /\ (passes t (se w') <-> passes t (se w) \/ passes t (se i))) ->
    map p_start (w' :: pq) = map p_start (w :: pq) /\ Forall wf (w' :: pq) /\ like (w' :: pq) ((w :: pq) ++ [i])).
  { intros w' E1 E2 E3. split; [cbn; by rewrite E1|]. split; [by constructor|].
    intros t. destruct (E3 t). cbn. rewrite !List.Exists_cons, !List.Exists_app, !List.Exists_cons, !List.Exists_nil. tauto. }
  destruct ((p_start i =? p_start w) && (p_end i =? p_end w)) eqn:C1.
  { injection E as <-. ns. apply one; cbn; [done|done|]. unfold covers, passes, se; cbn; intros; split; lia. }
  destruct ((p_start i <=? p_start w) && (p_end w <=? p_end i)) eqn:C2.
  { injection E as <-. ns. apply one; [lia|done|]. unfold covers, passes, se; cbn; intros; split; lia. }
  destruct ((p_start w <? p_start i) && (p_start i <=? p_end w) && (p_end i <=? p_end w)) eqn:C3.
  { injection E as <-. ns. apply one; [lia|done|]. unfold covers, passes, se; cbn; intros; split; lia. }
  destruct ((p_start w <? p_start i) && (p_start i <? p_end w) && (p_end w <? p_end i)) eqn:C4.
  { injection E as <-. ns. apply one; cbn; [lia|lia|]. unfold covers, passes, se; cbn; intros; split; lia. }
  destruct (fit i pq) as [l|]; [|done]. injection E as <-. destruct (IH l) as (E1 & E2 & E3); try done.
  split; [cbn; by rewrite E1|]. split; [by constructor|]. by apply like_cons.
Qed.

Lemma push_last pq i : starts_le (p_start i) pq -> push less pq i = pq ++ [i].
Proof.
  intros H. unfold push. rewrite app_length. cbn [length]. replace (length pq + 1)%nat with (S (length pq)) by lia.
  cbn [up]. replace (S (length pq) - 1)%nat with (length pq) by lia.
  destruct ((length pq - 1) / 2 =? length pq)%nat eqn:E; [done|]. cbn [orb].
  assert (L : less_at less (pq ++ [i]) (length pq) ((length pq - 1) / 2) = false); [|by rewrite L].
  unfold less_at. rewrite list_lookup_middle by done.
  apply Nat.eqb_neq in E. pose proof (Nat.div_le_upper_bound (length pq - 1) 2 (length pq)) as Hd.
  rewrite lookup_app_l by lia. destruct (pq !! _) as [b|] eqn:Eb; [|done].
  apply N.ltb_ge. unfold starts_le in H. rewrite list.Forall_forall in H. eapply H, elem_of_list_lookup_2, Eb.
Qed.

Lemma srt_snoc l p : srt l -> starts_le (p_start p) l -> srt (l ++ [p]).
Proof.
  unfold srt. induction l as [|q l IH]; intros H1 H2; cbn; [by constructor|].
  apply StronglySorted_inv in H1. apply list.Forall_cons in H2. destruct H1 as [H1 H1'], H2 as [H2 H2'].
  constructor; [by apply IH|]. apply list.Forall_app. split; [done|]. by constructor.
Qed.
Lemma srt_starts l l' : map p_start l = map p_start l' -> srt l -> srt l'.
Proof.
  unfold srt. revert l'. induction l as [|p l IH]; intros [|p' l'] E H; try done.
  injection E as E1 E2. apply StronglySorted_inv in H. destruct H as [H1 H2]. constructor; [by apply IH|].
  rewrite <- E1. clear -E2 H2. revert l' E2. induction l as [|q l IH]; intros [|q' l'] E; try done.
  injection E as E1 E. apply list.Forall_cons in H2. destruct H2. constructor; [congruence|auto].
Qed.
Lemma starts_le_starts x l l' : map p_start l = map p_start l' -> starts_le x l -> starts_le x l'.
Proof.
  unfold starts_le. revert l'. induction l as [|p l IH]; intros [|p' l'] E H; try done.
  injection E as E1 E. apply list.Forall_cons in H. destruct H. constructor; [congruence|auto].
Qed.
Lemma starts_le_mono x y l : x <= y -> starts_le x l -> starts_le y l.
Proof. intros H H1. eapply List.Forall_impl; [|exact H1]. intros p. cbn. lia. Qed.

Lemma gather_all slots pq : Forall wf pq -> srt pq ->
  Forall wf (live slots) -> srt (live slots) -> (forall p q, p ∈ pq -> q ∈ live slots -> p_start p <= p_start q) ->
  let pq' := fold_left gather1 slots pq in Forall wf pq' /\ srt pq' /\ like pq' (pq ++ live slots).
Proof.
  revert pq. induction slots as [|i slots IH]; intros pq W S W' S' L; cbn.
  { rewrite app_nil_r. by repeat split. }
  cbn in W', S', L. unfold gather1 at 2 4 6. destruct (p_start i =? INFINITY) eqn:Ei; cbn in W', S', L |- *; [by apply IH|].
  apply StronglySorted_inv in S'. apply list.Forall_cons in W'. destruct S' as [S1 S2], W' as [W1 W2].
  assert (Hle : starts_le (p_start i) pq).
  { apply list.Forall_forall. intros p Hp. apply L; [done|]. apply elem_of_list_here. }
  assert (H2 : forall q, q ∈ live slots -> p_start i <= p_start q). { rewrite list.Forall_forall in S2. done. }
  assert (Hfit : let pq1 := match pq with [] => push less pq i | _ => match fit i pq with Some pq' => pq' | None => push less pq i end end in
    Forall wf pq1 /\ srt pq1 /\ like pq1 (pq ++ [i]) /\ starts_le (p_start i) pq1).
  { assert (Hpush : Forall wf (push less pq i) /\ srt (push less pq i) /\ like (push less pq i) (pq ++ [i]) /\ starts_le (p_start i) (push less pq i)).
    { rewrite push_last by done. split; [apply list.Forall_app; split; [done|by constructor]|]. split; [by apply srt_snoc|]. split; [done|].
      apply list.Forall_app. split; [done|]. constructor; [lia|constructor]. }
    destruct pq as [|w pq]; [done|]. destruct (fit i (w :: pq)) as [pq1|] eqn:Ef; [|done].
    destruct (fit_some _ _ _ Ef Hle W W1) as (E1 & E2 & E3). split; [done|]. split; [by eapply srt_starts|].
    split; [done|]. by eapply starts_le_starts. }
  revert Hfit. generalize (match pq with [] => push less pq i | _ => match fit i pq with Some pq' => pq' | None => push less pq i end end).
  intros pq1 (P1 & P2 & P3 & P4).
  destruct (IH pq1) as (Q1 & Q2 & Q3); try done.
  { intros p q Hp Hq. unfold starts_le in P4. rewrite list.Forall_forall in P4. specialize (P4 p Hp). specialize (H2 q Hq). cbn in P4. lia. }
  split; [done|]. split; [done|]. eapply like_trans; [exact Q3|].
  fold (live slots). rewrite cons_middle, app_assoc. by apply like_app.
Qed.
Lemma gather_ok slots : Forall wf (live slots) -> srt (live slots) ->
  Forall wf (gather slots) /\ srt (gather slots) /\ like (gather slots) (live slots).
Proof.
  intros H1 H2. destruct (gather_all slots []) as (A & B & C); try done; [constructor|].
  by intros p q ?%elem_of_nil.
Qed.

(** The second pass. *)
Definition sep (l : list path) : Prop :=
  StronglySorted (fun p q => p_start p <= p_end p /\ p_end p <= p_start q) l.
Lemma sep_snoc l p q : sep (l ++ [p]) -> p_start p <= p_end p -> p_end p <= p_start q -> sep ((l ++ [p]) ++ [q]).
Proof.
  intros H Hp Hq. unfold sep in *. induction l as [|x l IH]; cbn in *; [by repeat constructor|].
  apply StronglySorted_inv in H. destruct H as [H1 H2]. constructor; [by apply IH|].
  apply list.Forall_app. split; [done|]. constructor; [|constructor].
  apply list.Forall_app in H2. destruct H2 as [_ H2]. apply Forall_inv in H2. lia.
Qed.
Lemma sep_last l p p' : sep (l ++ [p]) -> p_start p' = p_start p -> sep (l ++ [p']).
Proof.
  intros H E. unfold sep in *. induction l as [|x l IH]; cbn in *; [by repeat constructor|].
  apply StronglySorted_inv in H. destruct H as [H1 H2]. constructor; [by apply IH|].
  apply list.Forall_app in H2. destruct H2 as [H3 H2]. apply list.Forall_app. split; [done|]. constructor; [|constructor].
  apply Forall_inv in H2. lia.
Qed.

Definition agree_upto (ws next : list path) (k : nat) : Prop :=
  forall i w, (i < k)%nat -> next !! i = Some w -> differs_at ws i w = false.

Lemma combine_ok ws done prev ch pq : sep (done ++ [prev]) -> Forall wf (done ++ [prev]) -> Forall wf pq -> srt (prev :: pq) ->
  (ch = false <-> agree_upto ws done (length done)) ->
  exists next ch', combine ws done prev ch pq = Some (next, ch') /\ sep next /\ Forall wf next /\ like next ((done ++ [prev]) ++ pq) /\
    next <> [] /\ (ch' = false <-> agree_upto ws next (length next - 1)).
Proof.
  revert done prev ch. induction pq as [|n pq IH]; intros done prev ch S W Wq Sq Hch; cbn [combine].
  { exists (done ++ [prev]), ch. rewrite app_nil_r. split_and!; try done; [by destruct done|].
    rewrite app_length. cbn [length]. replace (length done + 1 - 1)%nat with (length done) by lia. rewrite Hch.
    split; intros H i w Hi E; apply (H i w Hi); [by rewrite lookup_app_l in E|by rewrite lookup_app_l]. }
  apply list.Forall_cons in Wq. destruct Wq as [Wn Wq]. apply StronglySorted_inv in Sq. destruct Sq as [Sq Sp].
  apply list.Forall_cons in Sp. destruct Sp as [Sn Sp]. cbn in Sn.
  assert (Wp : wf prev). { apply list.Forall_app in W. destruct W as [_ W]. by apply Forall_inv in W. }
  unfold wf in Wp, Wn.
  destruct (p_start n <? p_start prev) eqn:C0; [ns; lia|].
  assert (one : forall prev', p_start prev' = p_start prev -> p_start prev' <= p_end prev' ->
    (forall t, (covers t (se prev') <-> covers t (se prev) \/ covers t (se n)) /\ (passes t (se prev') <-> passes t (se prev) \/ passes t (se n))) ->
    exists next ch', combine ws done prev' ch pq = Some (next, ch') /\ sep next /\ Forall wf next /\ like next ((done ++ [prev]) ++ n :: pq) /\
      next <> [] /\ (ch' = false <-> agree_upto ws next (length next - 1))).
  { intros prev' E1 E2 E3. edestruct (IH done prev' ch) as (next & ch' & R1 & R2 & R3 & R4 & R5 & R6); try done.
    - by eapply sep_last.
    - apply list.Forall_app in W. destruct W as [W _]. apply list.Forall_app. split; [done|]. by constructor.
    - apply StronglySorted_inv in Sq. destruct Sq as [Sq _]. constructor; [done|]. by rewrite E1.
    - exists next, ch'. split_and!; try done. eapply like_trans; [exact R4|]. rewrite <- !app_assoc. apply like_app; [done|].
      intros t. destruct (E3 t). cbn. rewrite !List.Exists_cons. tauto. }
  destruct ((p_start n =? p_start prev) && (p_end n =? p_end prev)) eqn:C1.
  { ns. apply one; cbn; [done|done|]. unfold covers, passes, se; cbn; intros; split; lia. }
  destruct ((p_start n =? p_start prev) && (p_end prev <? p_end n)) eqn:C2.
  { ns. apply one; cbn; [done|lia|]. unfold covers, passes, se; cbn; intros; split; lia. }
  destruct ((p_start n <? p_end prev) && (p_end n <=? p_end prev)) eqn:C3.
  { ns. apply one; cbn; [done|lia|]. unfold covers, passes, se; cbn; intros; split; lia. }
  destruct ((p_start prev <=? p_start n) && (p_start n <? p_end prev) && (p_end prev <? p_end n)) eqn:C4.
  { ns. apply one; cbn; [done|lia|]. unfold covers, passes, se; cbn; intros; split; lia. }
  assert (Hap : p_end prev <= p_start n). { nb; lia. }
  edestruct (IH (done ++ [prev]) n (ch || differs_at ws (length done) prev)) as (next & ch' & R1 & R2 & R3 & R4 & R5 & R6); try done.
  - by apply sep_snoc.
  - apply list.Forall_app. split; [done|]. by constructor.
  - rewrite orb_false_iff, Hch. rewrite app_length. cbn [length]. split.
    + intros [H1 H2] i w Hi E. destruct (decide (i < length done)%nat) as [Hd|Hd].
      * apply (H1 i w Hd). by rewrite lookup_app_l in E.
      * assert (i = length done) as -> by lia. rewrite list_lookup_middle in E by done. by injection E as <-.
    + intros H. split.
      * intros i w Hi E. apply (H i w); [lia|]. by rewrite lookup_app_l.
      * apply (H (length done) prev); [lia|]. by rewrite list_lookup_middle.
  - exists next, ch'. split_and!; try done. rewrite <- app_assoc in R4. exact R4.
Qed.

Lemma differs_false ws i w : differs_at ws i w = false <-> ses ws !! i = Some (se w).
Proof.
  unfold differs_at. rewrite list_lookup_fmap. destruct (ws !! i) as [w'|]; cbn; [|done].
  unfold differ, se. rewrite negb_false_iff, andb_true_iff, !N.eqb_eq. split; [by intros [-> ->]|by intros [= -> ->]].
Qed.
Lemma final_ok ws next ch : (ch = false <-> agree_upto ws next (length next - 1)) ->
  final_check ws next ch = false <-> ses ws = ses next.
Proof.
  intros Hch. unfold final_check. rewrite !orb_false_iff, Hch, negb_false_iff, Nat.eqb_eq. split.
  - intros [[H1 H2] H3]. apply list_eq_same_length with (n := length next); rewrite ?map_length; [done..|].
    intros i x y Hi E1 E2. rewrite list_lookup_fmap in E2. destruct (next !! i) as [w|] eqn:Ew; [|done]. injection E2 as <-.
    destruct (decide (i < length next - 1)%nat) as [Hl|Hl].
    + specialize (H1 i w Hl Ew). apply differs_false in H1. congruence.
    + assert (i = length next - 1)%nat as -> by lia.
      assert (El : list.last next = Some w). { rewrite last_lookup. by replace (Init.Nat.pred (length next)) with (length next - 1)%nat by lia. }
      rewrite El in H3. apply differs_false in H3. congruence.
  - intros E. assert (El : length ws = length next). { rewrite <- (map_length se ws), E. apply map_length. }
    assert (A : forall i w, next !! i = Some w -> differs_at ws i w = false).
    { intros i w Ew. apply differs_false. rewrite E. rewrite list_lookup_fmap. by rewrite Ew. }
    split; [split; [|done]|].
    + intros i w _ Ew. by apply A.
    + destruct (list.last next) as [w|] eqn:Ew; [|done]. rewrite last_lookup in Ew. apply A.
      by replace (length next - 1)%nat with (Init.Nat.pred (length next)) by lia.
Qed.

(** Without any order of the offers: what is computed is right, but the second pass may abort. *)
Lemma like_perm l l' : l ≡ₚ l' -> like l l'.
Proof. intros H t. split; by rewrite H. Qed.
Lemma fit_like i pq pq' : fit i pq = Some pq' -> Forall wf pq -> wf i -> Forall wf pq' /\ like pq' (pq ++ [i]).
Proof.
  revert pq'. induction pq as [|w pq IH]; intros pq' E Hw Hi; [done|].
  apply list.Forall_cons in Hw. destruct Hw as [Hw1 Hw]. cbn [fit] in E. unfold wf in *.
  assert (one : forall w', p_start w' <= p_end w' ->
    (forall t, (covers t (se w') <-> covers t (se w) \/ covers t (se i)) /\ (passes t (se w') <-> passes t (se w) \/ passes t (se i))) ->
    Forall wf (w' :: pq) /\ like (w' :: pq) ((w :: pq) ++ [i])).
  { intros w' E2 E3. split; [by constructor|].
    intros t. destruct (E3 t). cbn. rewrite !List.Exists_cons, !List.Exists_app, !List.Exists_cons, !List.Exists_nil. tauto. }
  destruct ((p_start i =? p_start w) && (p_end i =? p_end w)) eqn:C1.
  { injection E as <-. ns. apply one; cbn; [done|]. unfold covers, passes, se; cbn; intros; split; lia. }
  destruct ((p_start i <=? p_start w) && (p_end w <=? p_end i)) eqn:C2.
  { injection E as <-. ns. apply one; [done|]. unfold covers, passes, se; cbn; intros; split; lia. }
  destruct ((p_start w <? p_start i) && (p_start i <=? p_end w) && (p_end i <=? p_end w)) eqn:C3.
  { injection E as <-. ns. apply one; [done|]. unfold covers, passes, se; cbn; intros; split; lia. }
  destruct ((p_start w <? p_start i) && (p_start i <? p_end w) && (p_end w <? p_end i)) eqn:C4.
  { injection E as <-. ns. apply one; cbn; [lia|]. unfold covers, passes, se; cbn; intros; split; lia. }
  destruct (fit i pq) as [l|]; [|done]. injection E as <-. destruct (IH l) as (E2 & E3); try done.
  split; [by constructor|]. by apply like_cons.
Qed.
Lemma push_perm pq i : push less pq i ≡ₚ pq ++ [i].
Proof. unfold push. by rewrite up_perm. Qed.
Lemma gather_like slots : Forall wf (live slots) -> Forall wf (gather slots) /\ like (gather slots) (live slots).
Proof.
  unfold gather. assert (G : forall slots pq, Forall wf pq -> Forall wf (live slots) ->
    Forall wf (fold_left gather1 slots pq) /\ like (fold_left gather1 slots pq) (pq ++ live slots)).
  { clear. induction slots as [|i slots IH]; intros pq W W'; cbn [fold_left]; [by rewrite app_nil_r|].
    cbn [live List.filter] in W'. fold (live slots) in W'. unfold live. cbn [List.filter]. fold (live slots).
    unfold gather1 at 2 4. destruct (p_start i =? INFINITY) eqn:Ei; cbn [negb] in W' |- *; [by apply IH|].
    apply list.Forall_cons in W'. destruct W' as [W1 W'].
    assert (Hp : Forall wf (push less pq i) /\ like (push less pq i) (pq ++ [i])).
    { split; [|by apply like_perm, push_perm]. rewrite push_perm. apply list.Forall_app. split; [done|]. by constructor. }
    assert (Hq : let pq1 := match pq with [] => push less pq i | _ => match fit i pq with Some pq' => pq' | None => push less pq i end end in
      Forall wf pq1 /\ like pq1 (pq ++ [i])).
    { destruct pq as [|w pq]; [done|]. destruct (fit i (w :: pq)) as [pq1|] eqn:Ef; [|done]. by apply fit_like. }
    revert Hq. generalize (match pq with [] => push less pq i | _ => match fit i pq with Some pq' => pq' | None => push less pq i end end).
    intros pq1 (P1 & P2). destruct (IH pq1 P1 W') as [Q1 Q2]. split; [done|]. eapply like_trans; [exact Q2|].
    rewrite cons_middle, app_assoc. by apply like_app. }
  intros W. by apply G.
Qed.
Lemma combine_some ws dn prev ch pq next ch' : combine ws dn prev ch pq = Some (next, ch') ->
  sep (dn ++ [prev]) -> Forall wf (dn ++ [prev]) -> Forall wf pq -> sep next /\ Forall wf next /\ like next ((dn ++ [prev]) ++ pq).
Proof.
  revert dn prev ch. induction pq as [|n pq IH]; intros dn prev ch E S W Wq; cbn [combine] in E.
  { injection E as <- _. by rewrite app_nil_r. }
  apply list.Forall_cons in Wq. destruct Wq as [Wn Wq].
  assert (Wp : wf prev). { apply list.Forall_app in W. destruct W as [_ W]. by apply Forall_inv in W. }
  unfold wf in Wp, Wn.
  destruct (p_start n <? p_start prev) eqn:C0; [done|].
  assert (one : forall prev', combine ws dn prev' ch pq = Some (next, ch') -> p_start prev' = p_start prev -> p_start prev' <= p_end prev' ->
    (forall t, (covers t (se prev') <-> covers t (se prev) \/ covers t (se n)) /\ (passes t (se prev') <-> passes t (se prev) \/ passes t (se n))) ->
    sep next /\ Forall wf next /\ like next ((dn ++ [prev]) ++ n :: pq)).
  { intros prev' E0 E1 E2 E3. destruct (IH dn prev' ch E0) as (R2 & R3 & R4); try done.
    - by eapply sep_last.
    - apply list.Forall_app in W. destruct W as [W _]. apply list.Forall_app. split; [done|]. by constructor.
    - split_and!; try done. eapply like_trans; [exact R4|]. rewrite <- !app_assoc. apply like_app; [done|].
      intros t. destruct (E3 t). cbn. rewrite !List.Exists_cons. tauto. }
  ns.
  destruct ((p_start n =? p_start prev) && (p_end n =? p_end prev)) eqn:C1.
  { ns. eapply one; [exact E|..]; cbn; [done|done|]. unfold covers, passes, se; cbn; intros; split; lia. }
  destruct ((p_start n =? p_start prev) && (p_end prev <? p_end n)) eqn:C2.
  { ns. eapply one; [exact E|..]; cbn; [done|lia|]. unfold covers, passes, se; cbn; intros; split; lia. }
  destruct ((p_start n <? p_end prev) && (p_end n <=? p_end prev)) eqn:C3.
  { ns. eapply one; [exact E|..]; cbn; [done|lia|]. unfold covers, passes, se; cbn; intros; split; lia. }
  destruct ((p_start prev <=? p_start n) && (p_start n <? p_end prev) && (p_end prev <? p_end n)) eqn:C4.
  { ns. eapply one; [exact E|..]; cbn; [done|lia|]. unfold covers, passes, se; cbn; intros; split; lia. }
  assert (Hap : p_end prev <= p_start n). { nb; lia. }
  destruct (IH _ _ _ E) as (R2 & R3 & R4); try done.
  - by apply sep_snoc.
  - apply list.Forall_app. split; [done|]. by constructor.
  - split_and!; try done. rewrite <- app_assoc in R4. exact R4.
Qed.
Lemma retrieve_some new slots p q : se new <> (0, INFINITY) -> Forall wf (live slots) -> mail_retrieve new slots p = Some q ->
  sep (nexts q) /\ Forall wf (nexts q) /\ like (nexts q) (live slots).
Proof.
  intros Hn W. unfold mail_retrieve. destruct ((p_start new =? 0) && (p_end new =? INFINITY)) eqn:E.
  { ns. exfalso. apply Hn. unfold se. congruence. }
  destruct (gather_like slots W) as (G1 & G3). destruct (gather slots) as [|w pq] eqn:Eg.
  - intros [= <-]. split_and!; try done; constructor.
  - apply list.Forall_cons in G1. destruct G1 as [Gw G1]. destruct (combine _ _ _ _ _) as [[next ch]|] eqn:Ec; [|done]. intros [= <-].
    apply combine_some in Ec; [|by repeat constructor|by repeat constructor|done]. destruct Ec as (R2 & R3 & R4). cbn.
    split_and!; try done. by eapply like_trans.
Qed.

(** MailRetrieve of a vertex that is not the source. *)
Lemma retrieve_ok new slots p : se new <> (0, INFINITY) -> Forall wf (live slots) -> srt (live slots) ->
  exists next ch, mail_retrieve new slots p = Some (TProp (wins p) next ch) /\ sep next /\ Forall wf next /\
    like next (live slots) /\ (ch = false <-> ses (wins p) = ses next).
Proof.
  intros Hn W S. unfold mail_retrieve. destruct ((p_start new =? 0) && (p_end new =? INFINITY)) eqn:E.
  { ns. exfalso. apply Hn. unfold se. congruence. }
  destruct (gather_ok slots W S) as (G1 & G2 & G3). destruct (gather slots) as [|w pq] eqn:Eg.
  - exists [], (final_check (wins p) [] false). split_and!; try done; [constructor..|].
    apply final_ok. split; [|done]. intros _ i x Hi Hx. by rewrite lookup_nil in Hx.
  - apply list.Forall_cons in G1. destruct G1 as [Gw G1].
    destruct (combine_ok (wins p) [] w false pq) as (next & ch & R1 & R2 & R3 & R4 & R5 & R6); try done.
    + by repeat constructor.
    + by repeat constructor.
    + rewrite R1. exists next, (final_check (wins p) next ch). split_and!; try done.
      * by eapply like_trans.
      * by apply final_ok.
Qed.

(** Start and end of the result only depend on start and end of the slots. *)
Lemma fit_se i i' pq pq' : se i = se i' -> ses pq = ses pq' -> option_map (map se) (fit i pq) = option_map (map se) (fit i' pq').
Proof.
  intros Ei. revert pq'. induction pq as [|w pq IH]; intros [|w' pq'] E; try done.
  injection E as Ew1 Ew2 E. injection Ei as E1 E2. cbn [fit]. rewrite <- Ew1, <- Ew2, <- E1, <- E2.
  repeat match goal with |- context [if ?c then _ else _] => destruct c end; cbn;
    try (by rewrite ?E; unfold se; cbn; congruence).
  specialize (IH pq' E). destruct (fit i pq), (fit i' pq'); cbn in *; try done. injection IH as ->. do 2 f_equal. unfold se. congruence.
Qed.
Lemma up_se fuel h h' j : ses h = ses h' -> ses (up less fuel h j) = ses (up less fuel h' j).
Proof.
  revert h h' j. induction fuel as [|fuel IH]; intros h h' j E; cbn [up]; [done|].
  assert (L : forall i, option_map se (h !! i) = option_map se (h' !! i)).
  { intros i. change (se <$> h !! i = se <$> h' !! i). rewrite <- !list_lookup_fmap. f_equal. exact E. }
  assert (El : less_at less h j ((j - 1) / 2) = less_at less h' j ((j - 1) / 2)).
  { unfold less_at, less. pose proof (L j) as L1. pose proof (L ((j - 1) / 2)%nat) as L2.
    destruct (h !! j), (h' !! j), (h !! ((j - 1) / 2)%nat), (h' !! ((j - 1) / 2)%nat); cbn in *; try done.
    unfold se in *. congruence. }
  rewrite El. destruct (_ || _); [done|]. apply IH. unfold swap.
  pose proof (L j) as L1. pose proof (L ((j - 1) / 2)%nat) as L2.
  destruct (h !! j), (h' !! j), (h !! ((j - 1) / 2)%nat), (h' !! ((j - 1) / 2)%nat); cbn in *; try done.
  change (ses ?l) with (se <$> l) in *. rewrite !list_fmap_insert. congruence.
Qed.
Lemma push_se i i' pq pq' : se i = se i' -> ses pq = ses pq' -> ses (push less pq i) = ses (push less pq' i').
Proof.
  intros Ei E. unfold push. assert (El : length pq = length pq'). { by rewrite <- (map_length se pq), E, map_length. }
  rewrite !app_length, El. cbn [length]. apply up_se. rewrite !map_app. cbn. congruence.
Qed.
Lemma gather_se slots slots' : ses slots = ses slots' -> ses (gather slots) = ses (gather slots').
Proof.
  unfold gather. assert (G : forall l l' pq pq', ses l = ses l' -> ses pq = ses pq' -> ses (fold_left gather1 l pq) = ses (fold_left gather1 l' pq')).
  { induction l as [|i l IH]; intros [|i' l'] pq pq' E Eq; try done. cbn in E. injection E as E1 E2 E. cbn [fold_left]. apply IH; [done|].
    assert (Ei : se i = se i') by (unfold se; congruence).
    unfold gather1. rewrite <- E1. destruct (_ =? _); [done|].
    destruct pq as [|w pq], pq' as [|w' pq']; try done; [by apply push_se|].
    pose proof (fit_se i i' _ _ Ei Eq) as Hf. destruct (fit i (w :: pq)), (fit i' (w' :: pq')); try done; [by injection Hf|by apply push_se]. }
  intros E. by apply G.
Qed.
Lemma combine_se ws dn dn' prev prev' ch ch' pq pq' : ses dn = ses dn' -> se prev = se prev' -> ses pq = ses pq' ->
  option_map (fun '(l, _) => ses l) (combine ws dn prev ch pq) = option_map (fun '(l, _) => ses l) (combine ws dn' prev' ch' pq').
Proof.
  revert dn dn' prev prev' ch ch' pq'. induction pq as [|n pq IH]; intros dn dn' prev prev' ch ch' [|n' pq'] Ed Ep E; try discriminate E.
  - cbn. f_equal. rewrite !map_app. cbn. congruence.
  - cbn in E. injection E as E1 E2 E. pose proof Ep as Ep0. injection Ep as P1 P2. cbn [combine]. rewrite <- E1, <- E2, <- P1, <- P2.
    repeat match goal with |- context [if ?c then _ else _] => destruct c end; [done|..]; apply IH; try done; unfold se in *; cbn; try congruence.
    rewrite !map_app. cbn. congruence.
Qed.
(** The windows of a mailbox. *)
Definition times_of (new : path) (slots : list path) : list window :=
  if (p_start new =? 0) && (p_end new =? INFINITY) then [(0, INFINITY)]
  else match mail_retrieve no_path slots (TProp [] [] false) with Some p => ses (nexts p) | None => [] end.
Lemma times_of_se new new' slots slots' : se new = se new' -> ses slots = ses slots' -> times_of new slots = times_of new' slots'.
Proof.
  intros En E. unfold times_of. injection En as -> ->. destruct (_ && _); [done|]. unfold mail_retrieve.
  change ((p_start no_path =? 0) && (p_end no_path =? INFINITY)) with false. cbn [wins]. pose proof (gather_se _ _ E) as Eg.
  destruct (gather slots) as [|w pq], (gather slots') as [|w' pq']; try done. cbn in Eg. injection Eg as E1 E2 Eg.
  pose proof (combine_se [] [] [] w w' false false pq pq' eq_refl) as Hc.
  destruct (combine [] [] w false pq) as [[l c]|], (combine [] [] w' false pq') as [[l' c']|]; cbn in *;
    specialize (Hc ltac:(unfold se; congruence) Eg); congruence.
Qed.
Lemma retrieve_times new slots p q : se new <> (0, INFINITY) -> mail_retrieve new slots p = Some q -> ses (nexts q) = times_of new slots.
Proof.
  intros Hn. unfold times_of, mail_retrieve at 1. destruct ((p_start new =? 0) && (p_end new =? INFINITY)) eqn:E.
  { ns. exfalso. apply Hn. unfold se. congruence. }
  unfold mail_retrieve. change ((p_start no_path =? 0) && (p_end no_path =? INFINITY)) with false. cbn [wins].
  destruct (gather slots) as [|w pq]; [by intros [= <-]|].
  assert (Hc : forall ws ws' dn ch ch' prev pq, option_map fst (combine ws dn prev ch pq) = option_map fst (combine ws' dn prev ch' pq)).
  { clear. intros ws ws' dn ch ch' prev pq. revert dn ch ch' prev. induction pq as [|n pq IH]; intros dn ch ch' prev; [done|].
    cbn [combine]. repeat match goal with |- context [if ?c then _ else _] => destruct c end; done || apply IH. }
  specialize (Hc (wins p) [] [] false false w pq).
  destruct (combine (wins p) [] w false pq) as [[l c]|], (combine [] [] w false pq) as [[l' c']|]; cbn in *; try done.
  intros [= <-]. cbn. congruence.
Qed.

(** Lists of windows that are apart and not empty are determined by their times. *)
Lemma apart_unique l l' : apart l -> apart l' -> Forall (fun w => fst w < snd w) l -> Forall (fun w => fst w < snd w) l' ->
  same_times l l' -> l = l'.
Proof.
  intros [_ S] [_ S']. revert l' S'. induction l as [|[a b] l IH]; intros [|[a' b'] l'] S' F F' H; [done|..].
  - apply list.Forall_cons in F'. destruct F' as [F' _]. cbn in F'. destruct (H a') as [[_ H1] _].
    destruct H1 as (w & Hw & _); [|by apply elem_of_nil in Hw]. exists (a', b'). split; [apply elem_of_list_here|split; cbn; lia].
  - apply list.Forall_cons in F. destruct F as [F _]. cbn in F. destruct (H a) as [[H1 _] _].
    destruct H1 as (w & Hw & _); [|by apply elem_of_nil in Hw]. exists (a, b). split; [apply elem_of_list_here|split; cbn; lia].
  - apply list.Forall_cons in F, F'. apply StronglySorted_inv in S, S'.
    destruct F as [F1 F], F' as [F1' F'], S as [S S1], S' as [S' S1']. cbn in F1, F1'.
    rewrite list.Forall_forall in S1, S1'. cbn in S1, S1'.
    assert (Ea : a = a').
    { destruct (H a) as [[H1 _] _], (H a') as [[_ H2] _].
      destruct H1 as ([x y] & Hw & C1). { exists (a, b). split; [apply elem_of_list_here|split; cbn; lia]. }
      destruct H2 as ([x' y'] & Hw' & C2). { exists (a', b'). split; [apply elem_of_list_here|split; cbn; lia]. }
      destruct C1, C2. cbn in *. apply elem_of_cons in Hw, Hw'.
      assert (a' <= a). { destruct Hw as [[= -> ->]|Hw]; [done|]. apply S1' in Hw. cbn in Hw. lia. }
      assert (a <= a'). { destruct Hw' as [[= -> ->]|Hw']; [done|]. apply S1 in Hw'. cbn in Hw'. lia. }
      lia. }
    subst a'.
    assert (Eb : b = b').
    { destruct (N.lt_trichotomy b b') as [Hb|[Hb|Hb]]; [exfalso|done|exfalso].
      - destruct (H b) as [_ [_ H2]]. destruct H2 as ([x y] & Hw & C1 & C2). { exists (a, b'). split; [apply elem_of_list_here|split; cbn; lia]. }
        cbn in *. apply elem_of_cons in Hw. destruct Hw as [[= -> ->]|Hw]; [lia|]. apply S1 in Hw. cbn in Hw. lia.
      - destruct (H b') as [_ [H2 _]]. destruct H2 as ([x y] & Hw & C1 & C2). { exists (a, b). split; [apply elem_of_list_here|split; cbn; lia]. }
        cbn in *. apply elem_of_cons in Hw. destruct Hw as [[= -> ->]|Hw]; [lia|]. apply S1' in Hw. cbn in Hw. lia. }
    subst b'. f_equal. apply IH; try done. intros t. destruct (H t) as [[H1 H2] [H3 H4]].
    assert (tail : forall (f : N -> window -> Prop) k k' , (forall w, f t w -> covers t w) ->
      (forall x, x ∈ k -> b <= fst x) ->
      ((exists w, w ∈ (a, b) :: k /\ f t w) -> (exists w, w ∈ (a, b) :: k' /\ f t w)) ->
      (exists w, w ∈ k /\ f t w) -> (exists w, w ∈ k' /\ f t w)).
    { intros f k k' Hf Hk Hi (w & Hw & Hfw). destruct Hi as (w' & Hw' & Hfw').
      { exists w. split; [by apply elem_of_list_further|done]. }
      apply elem_of_cons in Hw'. destruct Hw' as [->|Hw']; [|by exists w'].
      specialize (Hk w Hw). apply Hf in Hfw, Hfw'. destruct Hfw, Hfw'. cbn in *. lia. }
    assert (B1 : forall x, x ∈ l -> b <= fst x) by (intros x Hx; exact (proj2 (S1 x Hx))).
    assert (B2 : forall x, x ∈ l' -> b <= fst x) by (intros x Hx; exact (proj2 (S1' x Hx))).
    assert (P : forall w, passes t w -> covers t w) by (intros w [? ?]; split; lia).
    split; split; eapply tail; eauto.
Qed.

(** The offer for an edge. *)
Definition open_at (ts : N) (ws : list path) : bool := existsb (fun w => (p_start w <? ts) && (ts <? p_end w)) ws.
Definition offer_se (ws : list path) (ts en : N) : window := if open_at ts ws then (ts, extent en) else se no_path.
Definition gone_by (ts : N) (ws : list path) : Prop := Forall (fun w => p_end w <= ts) ws.

Lemma search_ok ts en ws i offer first o f : search ts en ws i offer first = (o, f) -> sep ws -> Forall wf ws -> ts <> INFINITY ->
  (se offer = se no_path \/ se offer = (ts, extent en)) ->
  se o = (if p_start offer =? INFINITY then offer_se ws ts en else (ts, extent en)) /\
  (f = first \/ (p_start offer = INFINITY /\ i <= f < i + length ws)%nat /\ gone_by ts (firstn (f - i) ws)).
Proof.
  intros E S W Ht. revert i offer first E. induction ws as [|w ws IH]; intros i offer first E Ho; cbn [search] in E.
  { injection E as <- <-. split; [|by left]. unfold offer_se. cbn [open_at existsb].
    destruct Ho as [H|H]; [|]; injection H as H1 H2; unfold se; rewrite H1, H2; [done|].
    by rewrite (proj2 (N.eqb_neq _ _) Ht). }
  apply StronglySorted_inv in S. apply list.Forall_cons in W. destruct S as [S S1], W as [W1 W].
  assert (Hlater : ts <= p_start w -> open_at ts ws = false).
  { intros H. unfold open_at. apply not_true_iff_false. rewrite existsb_exists. intros (x & Hx & Hb).
    apply elem_of_list_In in Hx. rewrite list.Forall_forall in S1. specialize (S1 x Hx). cbn in S1. ns. lia. }
  destruct (p_end w <=? ts) eqn:C1.
  { destruct (IH S W (Datatypes.S i) offer first E Ho) as [I1 I2]. ns. split.
    - rewrite I1. unfold offer_se. cbn [open_at existsb]. fold (open_at ts ws).
      by rewrite (proj2 (N.ltb_ge _ _) C1), andb_false_r.
    - destruct I2 as [I2|[[I2 I2'] I3]]; [by left|right]. cbn [length]. split; [split; [done|lia]|].
      replace (f - i)%nat with (Datatypes.S (f - Datatypes.S i)) by lia. cbn [firstn]. by constructor. }
  destruct (ts <=? p_start w) eqn:C2.
  { injection E as <- <-. ns. split; [|by left]. unfold offer_se. cbn [open_at existsb]. fold (open_at ts ws).
    rewrite (Hlater C2), (proj2 (N.ltb_ge _ _) C2). cbn [andb orb].
    destruct Ho as [H|H]; injection H as H1 H2; unfold se; rewrite H1, H2; [done|].
    by rewrite (proj2 (N.eqb_neq _ _) Ht). }
  ns. assert (Hop : offer_se (w :: ws) ts en = (ts, extent en)).
  { unfold offer_se. cbn [open_at existsb]. by rewrite (proj2 (N.ltb_lt _ _) C2), (proj2 (N.ltb_lt _ _) C1). }
  rewrite Hop. destruct (p_start offer =? INFINITY) eqn:C3.
  - destruct (IH S W (Datatypes.S i) _ i E) as [I1 I2]; [by right|]. cbn [p_start] in I1. rewrite (proj2 (N.eqb_neq _ _) Ht) in I1.
    split; [done|]. right. destruct I2 as [->|[[I2 _] _]]; [|cbn in I2; congruence]. ns. split; [split; [done|cbn; lia]|].
    rewrite Nat.sub_diag. constructor.
  - destruct (IH S W (Datatypes.S i) _ first E) as [I1 I2].
    { right. destruct Ho as [H|H]; injection H as H1 H2; unfold se; cbn; rewrite H1, H2; [|done].
      rewrite H1 in C3. by apply N.eqb_neq in C3. }
    cbn [p_start] in I1, I2. rewrite C3 in I1. split; [done|]. left. destruct I2 as [I2|[[I2 _] _]]; [done|]. ns. congruence.
Qed.
Lemma sep_skipn k l : sep l -> sep (skipn k l).
Proof. revert k. induction l as [|x l IH]; intros [|k] H; cbn; try done. apply IH. apply StronglySorted_inv in H. apply H. Qed.
Lemma find_offer_ok ts en ws from o f : find_offer ts en ws from = (o, f) -> sep ws -> Forall wf ws -> ts <> INFINITY ->
  gone_by ts (firstn from ws) -> se o = offer_se ws ts en /\ gone_by ts (firstn f ws).
Proof.
  intros E S W Ht G. unfold find_offer in E. destruct (search_ok _ _ _ _ _ _ _ _ E) as [H1 H2]; try done.
  - by apply sep_skipn.
  - by apply list.Forall_drop.
  - by left.
  - change (p_start no_path =? INFINITY) with true in H1. cbv iota in H1. split.
    + rewrite H1. unfold offer_se. rewrite <- (firstn_skipn from ws) at 2. unfold open_at. rewrite existsb_app.
      assert (Z : existsb (fun w => (p_start w <? ts) && (ts <? p_end w)) (firstn from ws) = false); [|by rewrite Z].
      apply not_true_iff_false. rewrite existsb_exists. intros (x & Hx & Hb). apply elem_of_list_In in Hx.
      unfold gone_by in G. rewrite list.Forall_forall in G. specialize (G x Hx). cbn in G. ns. lia.
    + destruct H2 as [->|[[_ H2] H3]]; [done|]. replace f with (from + (f - from))%nat by lia.
      rewrite <- take_take_drop. apply list.Forall_app. by split.
Qed.
Lemma gone_by_mono ts ts' l : ts <= ts' -> gone_by ts l -> gone_by ts' l.
Proof. intros H H1. eapply List.Forall_impl; [|exact H1]. cbn. intros w. lia. Qed.

Lemma sep_apart l : sep l -> Forall wf l -> apart (ses l).
Proof.
  intros S W. split.
  - apply list.Forall_forall. intros w Hw. apply elem_of_list_fmap in Hw. destruct Hw as (p & -> & Hp). rewrite list.Forall_forall in W. by apply W.
  - induction l as [|p l IH]; cbn; [constructor|]. apply StronglySorted_inv in S. apply list.Forall_cons in W. destruct S as [S S1], W as [_ W].
    constructor; [by apply IH|]. apply list.Forall_forall. intros w Hw. apply elem_of_list_fmap in Hw. destruct Hw as (q & -> & Hq).
    rewrite list.Forall_forall in S1. by apply S1.
Qed.
