(** Proofs about FunStatistics. *)
From Verif Require Import Base Fun_Spec Fun_Model.
Open Scope N_scope.

Lemma gmax_max x y : gmax x y = N.max x y.
Proof. unfold gmax. destruct (N.ltb_spec x y); lia. Qed.
Lemma gmin_min x y : gmin x y = N.min x y.
Proof. unfold gmin. destruct (N.ltb_spec y x); lia. Qed.
Lemma fold_gmax l x : (fold_left gmax l x = x \/ In (fold_left gmax l x) l) /\ x <= fold_left gmax l x /\ forall y, In y l -> y <= fold_left gmax l x.
Proof.
  revert x. induction l as [|a l IH]; intros x; simpl; [split; [auto|split; [lia|done]]|]. destruct (IH (gmax x a)) as (H1 & H2 & H3).
  rewrite gmax_max in *. split; [|split; [lia|intros y [<-|Hy]; [lia|auto]]].
  destruct H1 as [H1|H1]; [|auto]. rewrite H1. destruct (N.max_spec x a) as [[_ ->]|[_ ->]]; auto.
Qed.
Lemma fold_gmin l x : (fold_left gmin l x = x \/ In (fold_left gmin l x) l) /\ fold_left gmin l x <= x /\ forall y, In y l -> fold_left gmin l x <= y.
Proof.
  revert x. induction l as [|a l IH]; intros x; simpl; [split; [auto|split; [lia|done]]|]. destruct (IH (gmin x a)) as (H1 & H2 & H3).
  rewrite gmin_min in *. split; [|split; [lia|intros y [<-|Hy]; [lia|auto]]].
  destruct H1 as [H1|H1]; [|auto]. rewrite H1. destruct (N.min_spec x a) as [[_ ->]|[_ ->]]; auto.
Qed.
Lemma max_slice_spec l m : max_slice l = Some m <-> In m l /\ forall y, In y l -> y <= m.
Proof.
  assert (G : forall l, l <> [] -> exists m, max_slice l = Some m /\ In m l /\ forall y, In y l -> y <= m).
  { intros [|x l'] H; [done|]. eexists. split; [reflexivity|]. destruct (fold_gmax (x :: l') x) as (H1 & H2 & H3).
    split; [|done]. destruct H1 as [->|H1]; [by left|done]. }
  split.
  - intros H. destruct (G l) as (m' & E & H'); [by destruct l|]. rewrite E in H. injection H as <-. done.
  - intros [H1 H2]. destruct (G l) as (m' & -> & H1' & H2'); [by destruct l|]. f_equal. apply N.le_antisymm; auto.
Qed.
Lemma min_slice_spec l m : min_slice l = Some m <-> In m l /\ forall y, In y l -> m <= y.
Proof.
  assert (G : forall l, l <> [] -> exists m, min_slice l = Some m /\ In m l /\ forall y, In y l -> m <= y).
  { intros [|x l'] H; [done|]. eexists. split; [reflexivity|]. destruct (fold_gmin (x :: l') x) as (H1 & H2 & H3).
    split; [|done]. destruct H1 as [->|H1]; [by left|done]. }
  split.
  - intros H. destruct (G l) as (m' & E & H'); [by destruct l|]. rewrite E in H. injection H as <-. done.
  - intros [H1 H2]. destruct (G l) as (m' & -> & H1' & H2'); [by destruct l|]. f_equal. apply N.le_antisymm; auto.
Qed.

(** Counting. *)
Section count.
  Context {A : Type}.
  Lemma number_app (p : A -> Prop) l1 l2 n1 n2 : number p l1 n1 -> number p l2 n2 -> number p (l1 ++ l2) (n1 + n2).
  Proof.
    induction 1; intros H2; simpl; [by rewrite N.add_0_l| |].
    - replace (n + 1 + n2) with (n + n2 + 1) by lia. constructor; auto.
    - constructor; auto.
  Qed.
  Lemma number_fun (p : A -> Prop) l n m : number p l n -> number p l m -> n = m.
  Proof. intros H. revert m. induction H; intros m H'; inversion H'; subst; try done; [f_equal; auto|auto]. Qed.
  Lemma number_le (p q : A -> Prop) l n m : (forall x, p x -> q x) -> number p l n -> number q l m -> n <= m.
  Proof.
    intros Hpq H. revert m. induction H; intros m H'; inversion H'; subst.
    - lia.
    - specialize (IHnumber _ ltac:(eassumption)). lia.
    - exfalso. auto.
    - specialize (IHnumber _ ltac:(eassumption)). lia.
    - auto.
  Qed.
  (** A fold that adds one for each element satisfying [p]. *)
  Lemma number_fold {B} (st : B -> A -> B) (f : B -> N) (p : A -> Prop) :
    (forall b x, (p x /\ f (st b x) = f b + 1) \/ (~ p x /\ f (st b x) = f b)) ->
    forall l b, exists n, number p l n /\ f (fold_left st l b) = f b + n.
  Proof.
    intros H. induction l as [|x l IH]; intros b; simpl; [exists 0; split; [constructor|lia]|].
    destruct (IH (st b x)) as (n & Hn & E). destruct (H b x) as [[Hp Ex]|[Hp Ex]].
    - exists (n + 1). split; [by constructor|]. lia.
    - exists n. split; [by constructor|]. lia.
  Qed.
End count.

Section pass1.
  Context (ae : N).
  Lemma seen_dec v : (ae <? tcreate v) = false <-> seen ae v.
  Proof. unfold seen. rewrite N.ltb_ge. done. Qed.
  Lemma active_dec v : existsb (fun e => e =? 0) (tends v) = true <-> active v.
  Proof.
    unfold active. rewrite existsb_exists. split; [intros (x & Hx & E); apply N.eqb_eq in E; by subst|intros H; exists 0; done].
  Qed.
  Lemma visitable_dec v : (match twins v with [] => false | _ => true end && existsb (fun w => snd (fst w) =? max64) (twins v))%bool = true <-> visitable v.
  Proof.
    unfold visitable. rewrite andb_true_iff, existsb_exists. split.
    - intros [_ ([[s e] h] & Hx & E)]. simpl in E. apply N.eqb_eq in E. subst e. by exists s, h.
    - intros (s & h & H). split; [by destruct (twins v)|]. exists (s, 2 ^ 64 - 1, h). split; [done|]. done.
  Qed.
  Lemma visited_dec v : match twins v with [] => false | _ => true end = true <-> visited v.
  Proof. unfold visited. destruct (twins v); [|done]. split; [done|]. intros H. by destruct H. Qed.

  Lemma step1_count (f : acc1 -> N) (b : tv -> bool) (p : tv -> Prop) :
    (forall v, b v = true <-> p v) ->
    (forall a v, (ae <? tcreate v) = false -> f (step1 ae a v) = f a + (if b v then 1 else 0)) ->
    forall a v, ((seen ae v /\ p v) /\ f (step1 ae a v) = f a + 1) \/ (~ (seen ae v /\ p v) /\ f (step1 ae a v) = f a).
  Proof.
    intros Hb Hf a v. destruct (ae <? tcreate v) eqn:Es.
    - right. split; [|unfold step1; by rewrite Es]. intros [H _]. apply seen_dec in H. congruence.
    - rewrite (Hf a v Es). pose proof (proj1 (seen_dec v) Es) as Hs. destruct (b v) eqn:Eb.
      + left. split; [|lia]. split; [done|]. by apply Hb.
      + right. split; [|lia]. intros [_ H]. apply Hb in H. congruence.
  Qed.
  Lemma sum_threads (f : acc1 -> N) (p : tv -> Prop) : f (Acc1 0 0 0 0 0 0) = 0 ->
    (forall a v, (p v /\ f (step1 ae a v) = f a + 1) \/ (~ p v /\ f (step1 ae a v) = f a)) ->
    forall threads, number p (concat threads) (fold_left (fun s a => s + f a) (map (pass1 ae) threads) 0).
  Proof.
    intros H0 Hf threads.
    assert (G : forall threads s, exists n, number p (concat threads) n /\ fold_left (fun s a => s + f a) (map (pass1 ae) threads) s = s + n).
    { clear threads. induction threads as [|t threads IH]; intros s; simpl; [exists 0; split; [constructor|lia]|].
      destruct (IH (s + f (pass1 ae t))) as (n & Hn & E). destruct (number_fold (step1 ae) f p Hf t (Acc1 0 0 0 0 0 0)) as (m & Hm & Em).
      exists (m + n). split; [by apply number_app|]. unfold pass1 in *. lia. }
    destruct (G threads 0) as (n & Hn & E). rewrite E, N.add_0_l. done.
  Qed.
  Lemma maxw_fold l a : (forall v, In v l -> seen ae v -> N.of_nat (length (twins v)) <= c_maxw (fold_left (step1 ae) l a)) /\
    c_maxw a <= c_maxw (fold_left (step1 ae) l a) /\
    (c_maxw (fold_left (step1 ae) l a) = c_maxw a \/ exists v, In v l /\ seen ae v /\ c_maxw (fold_left (step1 ae) l a) = N.of_nat (length (twins v))).
  Proof.
    revert a. induction l as [|v l IH]; intros a; simpl; [split; [done|split; [lia|by left]]|].
    destruct (IH (step1 ae a v)) as (H1 & H2 & H3).
    assert (Hs : c_maxw a <= c_maxw (step1 ae a v) /\ (seen ae v -> N.of_nat (length (twins v)) <= c_maxw (step1 ae a v)) /\
      (c_maxw (step1 ae a v) = c_maxw a \/ (seen ae v /\ c_maxw (step1 ae a v) = N.of_nat (length (twins v))))).
    { unfold step1. destruct (ae <? tcreate v) eqn:Es.
      - split; [lia|]. split; [|by left]. intros H. apply seen_dec in H. congruence.
      - cbn [c_maxw]. destruct (twins v) as [|w ws] eqn:Ew; [simpl; split; [lia|]; split; [lia|by left]|]. rewrite gmax_max.
        split; [lia|]. split; [lia|]. destruct (N.max_spec (c_maxw a) (N.of_nat (length (w :: ws)))) as [[_ E]|[_ E]]; [right|by left].
        split; [by apply seen_dec|done]. }
    destruct Hs as (S1 & S2 & S3). split; [|split; [lia|]].
    - intros u [<-|Hu] Hse; [specialize (S2 Hse); lia|auto].
    - destruct H3 as [H3|(u & Hu & Hse & E)]; [|right; exists u; auto]. rewrite H3. destruct S3 as [S3|[Hse S3]]; [by left|].
      right. exists v. split; [by left|]. split; [done|]. done.
  Qed.
End pass1.

Section pass2.
  Context (ae : N).
  Definition wstart (w : nat) (v : tv) : list N :=
    if ae <? tcreate v then [] else match nth_error (twins v) w with None => [] | Some (s, _, _) => [s] end.
  Lemma wstart_in w v s : In s (wstart w v) <-> seen ae v /\ exists e h, nth_error (twins v) w = Some (s, e, h).
  Proof.
    unfold wstart. rewrite <- seen_dec. destruct (ae <? tcreate v); [split; [done|]; by intros [? _]|].
    destruct (nth_error (twins v) w) as [[[s' e] h]|]; simpl; [|split; [done|]; by intros (_ & ? & ? & ?)].
    split; [intros [<-|[]]; eauto|]. intros (_ & e' & h' & [= -> _ _]). by left.
  Qed.
  Lemma step2_fold w l a :
    fold_left (step2 ae w) l a =
    Acc2 (fold_left gmax (flat_map (wstart w) l) (x_max a)) (fold_left gmin (List.filter (fun s => negb (s =? 0)) (flat_map (wstart w) l)) (x_min a))
         (x_all a ++ flat_map (wstart w) l).
  Proof.
    revert a. induction l as [|v l IH]; intros a; simpl; [rewrite app_nil_r; by destruct a|]. rewrite IH. clear IH.
    assert (E : step2 ae w a v = Acc2 (fold_left gmax (wstart w v) (x_max a)) (fold_left gmin (List.filter (fun s => negb (s =? 0)) (wstart w v)) (x_min a)) (x_all a ++ wstart w v)).
    { unfold step2, wstart. destruct (ae <? tcreate v); simpl; [rewrite app_nil_r; by destruct a|].
      destruct (nth_error (twins v) w) as [[[s e] h]|]; simpl; [|rewrite app_nil_r; by destruct a]. by destruct (s =? 0). }
    rewrite E. cbn [x_max x_min x_all]. rewrite filter_app, !fold_left_app, app_assoc. done.
  Qed.

  Definition startsw (threads : list (list tv)) (w : nat) : list N := flat_map (wstart w) (concat threads).
  Lemma startsw_in threads w s : In s (startsw threads w) <-> start ae (concat threads) w s.
  Proof.
    unfold startsw, start. rewrite in_flat_map. split.
    - intros (v & Hv & Hs). apply wstart_in in Hs as (H1 & e & h & H2). eauto 10.
    - intros (v & e & h & Hv & Hs & Hn). exists v. split; [done|]. apply wstart_in. eauto.
  Qed.

  (** The minima so far of the threads: each is 2^64-1 or a start of this thread; none is above a start. *)
  Definition mins_ok (threads : list (list tv)) (w : nat) (accs : list acc2) : Prop :=
    Forall2 (fun vs a => x_min a <= max64 /\ (x_min a = max64 \/ exists w', (w' < w)%nat /\ In (x_min a) (flat_map (wstart w') vs) /\ x_min a <> 0) /\
                         forall w' s, (w' < w)%nat -> In s (flat_map (wstart w') vs) -> s <> 0 -> x_min a <= s) threads accs.
  Definition clear (a : acc2) : Prop := x_max a = 0 /\ x_all a = [].

  Definition advance (w : nat) (threads : list (list tv)) (accs : list acc2) : list acc2 :=
    map (fun av => fold_left (step2 ae w) (snd av) (fst av)) (combine accs threads).
  Lemma advance_min threads w accs : mins_ok threads w accs -> mins_ok threads (S w) (advance w threads accs).
  Proof.
    unfold mins_ok, advance. induction 1 as [|vs a threads accs (H1 & H2 & H3) _ IH]; [constructor|]. simpl. constructor; [|done].
    rewrite step2_fold. cbn [x_min]. destruct (fold_gmin (List.filter (fun s => negb (s =? 0)) (flat_map (wstart w) vs)) (x_min a)) as (F1 & F2 & F3).
    set (m := fold_left gmin _ _) in *. split; [lia|]. split.
    - destruct F1 as [F1|F1].
      + rewrite F1. destruct H2 as [H2|(w' & Hw & H2)]; [by left|right]. exists w'. split; [lia|done].
      + right. exists w. apply filter_In in F1 as [F1 E]. split; [lia|]. split; [done|]. intros E0. rewrite E0 in E. done.
    - intros w' s Hw Hs Hne. destruct (decide (w' = w)) as [->|Hww].
      + apply F3, filter_In. split; [done|]. destruct (N.eqb_spec s 0); done.
      + transitivity (x_min a); [done|]. apply (H3 w' s); [lia|done|done].
  Qed.
  Lemma advance_max threads w accs : length accs = length threads -> Forall clear accs ->
    Forall2 (fun vs a => (x_max a = 0 \/ In (x_max a) (flat_map (wstart w) vs)) /\ forall s, In s (flat_map (wstart w) vs) -> s <= x_max a) threads (advance w threads accs) /\
    concat (map x_all (advance w threads accs)) = startsw threads w.
  Proof.
    revert accs. unfold startsw. induction threads as [|vs threads IH]; intros [|a accs] Hl Hc; try done; [split; [constructor|done]|]. simpl.
    apply list.Forall_cons in Hc as [(C1 & C2) Hc]. destruct (IH accs) as [I1 I2]; [simpl in Hl; lia|done|]. unfold advance in *. cbn [combine map fst snd].
    rewrite step2_fold, C1, C2. cbn [x_all concat map]. split.
    - constructor; [|done]. cbn [x_max]. destruct (fold_gmax (flat_map (wstart w) vs) 0) as (F1 & F2 & F3). split; [done|]. done.
    - rewrite flat_map_app. f_equal. exact I2.
  Qed.
  Lemma reset_ok threads w accs : mins_ok threads w accs -> mins_ok threads w (map reset accs) /\ Forall clear (map reset accs) /\ length (map reset accs) = length threads.
  Proof.
    intros H. split; [|split].
    - unfold mins_ok in *. induction H; simpl; constructor; auto.
    - apply list.Forall_forall. intros a Ha. apply elem_of_list_In, in_map_iff in Ha as (b & <- & _). done.
    - rewrite map_length. apply list.Forall2_length in H. done.
  Qed.

  Lemma rounds_spec threads n : threads <> [] -> forall w accs, mins_ok threads w accs -> Forall clear accs -> length accs = length threads ->
    forall i r, nth_error (rounds ae threads accs w n) i = Some r ->
    exists mx mn, r = (Some mx, Some mn, startsw threads (w + i)) /\
      largest 0 mx (start ae (concat threads) (w + i)) /\
      smallest max64 mn (fun s => s <> 0 /\ exists w', (w' <= w + i)%nat /\ start ae (concat threads) w' s).
  Proof.
    intros Hne. induction n as [|n IH]; intros w accs Hm Hc Hl i r Hr; [by destruct i|]. cbn [rounds] in Hr. fold (advance w threads accs) in Hr.
    pose proof (advance_min threads w accs Hm) as Hm'. destruct (advance_max threads w accs Hl Hc) as [Hx Ha].
    destruct (reset_ok threads (S w) _ Hm') as (R1 & R2 & R3). destruct i as [|i].
    - simpl in Hr. injection Hr as <-. unfold report. rewrite Ha, Nat.add_0_r.
      set (adv := advance w threads accs) in *.
      assert (Hlen : length adv = length threads) by (apply list.Forall2_length in Hx; done).
      assert (Hne' : adv <> []) by (destruct adv; [by destruct threads|done]).
      destruct (max_slice (map x_max adv)) as [mx|] eqn:Emx; [|by destruct adv]. destruct (min_slice (map x_min adv)) as [mn|] eqn:Emn; [|by destruct adv].
      exists mx, mn. split; [done|]. apply max_slice_spec in Emx as [X1 X2]. apply min_slice_spec in Emn as [N1 N2]. split; split.
      + apply in_map_iff in X1 as (a & <- & Hin). apply elem_of_list_In, elem_of_list_lookup in Hin as (j & Hj).
        destruct (Forall2_lookup_r _ _ _ _ _ Hx Hj) as (vs & Hvs & [[E|E] _]).
        * by right.
        * left. apply startsw_in. unfold startsw. apply in_flat_map in E as (v & Hv & E). apply in_flat_map. exists v. split; [|done].
          apply in_concat. exists vs. split; [|done]. apply elem_of_list_In, elem_of_list_lookup. eauto.
      + intros y Hy. apply startsw_in in Hy. unfold startsw in Hy. apply in_flat_map in Hy as (v & Hv & Hy).
        apply in_concat in Hv as (vs' & Hvs' & Hv). apply elem_of_list_In, elem_of_list_lookup in Hvs' as (j' & Hj').
        destruct (Forall2_lookup_l _ _ _ _ _ Hx Hj') as (a' & Ha' & [_ HH]).
        assert (y <= x_max a') by (apply HH, in_flat_map; eauto).
        assert (x_max a' <= mx) by (apply X2, in_map, elem_of_list_In, elem_of_list_lookup; eauto). lia.
      + apply in_map_iff in N1 as (a & <- & Hin). apply elem_of_list_In, elem_of_list_lookup in Hin as (j & Hj).
        destruct (Forall2_lookup_r _ _ _ _ _ Hm' Hj) as (vs & Hvs & (B1 & [E|(w' & Hw' & E & Hz)] & _)).
        * by right.
        * left. split; [done|]. exists w'. split; [lia|]. apply startsw_in. unfold startsw. apply in_flat_map in E as (v & Hv & E). apply in_flat_map. exists v. split; [|done].
          apply in_concat. exists vs. split; [|done]. apply elem_of_list_In, elem_of_list_lookup. eauto.
      + intros y (Hy0 & w' & Hw' & Hy). apply startsw_in in Hy. unfold startsw in Hy. apply in_flat_map in Hy as (v & Hv & Hy).
        apply in_concat in Hv as (vs' & Hvs' & Hv). apply elem_of_list_In, elem_of_list_lookup in Hvs' as (j' & Hj').
        destruct (Forall2_lookup_l _ _ _ _ _ Hm' Hj') as (a' & Ha' & (_ & _ & HH)).
        assert (x_min a' <= y) by (apply (HH w'); [lia|apply in_flat_map; eauto|done]).
        assert (mn <= x_min a') by (apply N2, in_map, elem_of_list_In, elem_of_list_lookup; eauto). lia.
    - simpl in Hr. destruct (IH (S w) _ R1 R2 R3 i r Hr) as (mx & mn & H). exists mx, mn. replace (w + S i)%nat with (S w + i)%nat by lia. exact H.
  Qed.
End pass2.
