(** Proofs about the graph statistics. *)
From Verif Require Import Base Helpers_Spec Stats_Spec Stats_Model.
From stdpp Require Import sorting.
Open Scope N_scope.

(** * Sums, maxima, medians *)
Lemma sum32_from l a : fold_left (fun a x => (a + x) mod w32) l a mod w32 = (a + fold_right N.add 0 l) mod w32.
Proof.
  revert a. induction l as [|x l IH]; intros a; cbn [fold_left fold_right]; [by rewrite N.add_0_r|].
  rewrite IH, N.add_assoc. rewrite N.add_mod_idemp_l by wordlia. done.
Qed.
Lemma sum32_val l : sum32 l = fold_right N.add 0 l mod w32.
Proof.
  assert (H : sum32 l mod w32 = fold_right N.add 0 l mod w32) by (unfold sum32; by rewrite sum32_from).
  rewrite <- H. symmetry. apply N.mod_small. unfold sum32. clear H. induction l as [|x l _] using rev_ind; [cbn; wordlia|].
  rewrite fold_left_app. cbn. apply N.mod_lt. wordlia.
Qed.
Lemma max_from l a x : x <= fold_left N.max l a <-> x <= a \/ (exists y, In y l /\ x <= y).
Proof.
  revert a. induction l as [|y l IH]; intros a; cbn [fold_left In].
  - split; [auto|]. intros [H|(y & [] & _)]; done.
  - rewrite IH. split.
    + intros [H|(z & H1 & H2)]; [|right; exists z; auto]. destruct (N.max_spec a y) as [[_ E]|[_ E]]; rewrite E in H; [right; exists y; auto|auto].
    + intros [H|(z & [-> |H1] & H2)]; [left; lia|left; lia|right; eauto].
Qed.
Lemma max_from_in l a : In (fold_left N.max l a) (a :: l).
Proof.
  revert a. induction l as [|y l IH]; intros a; [left; done|]. cbn [fold_left]. destruct (IH (N.max a y)) as [H|H]; [|right; right; done].
  rewrite <- H. destruct (N.max_spec a y) as [[_ ->]|[_ ->]]; [right; left; done|left; done].
Qed.
Lemma greatest_from0 l : greatest l (fold_left N.max l 0).
Proof.
  split; [intros x H; apply max_from; eauto|]. destruct (max_from_in l 0) as [H|H]; [|auto].
  destruct l as [|x l]; [auto|]. left. rewrite <- H. assert (x <= 0) by (rewrite H; apply max_from; right; exists x; split; [left|]; done). left. lia.
Qed.
Lemma greatest_fun l m m' : greatest l m -> greatest l m' -> m = m'.
Proof.
  intros [H1 H2] [H3 H4]. destruct H2 as [H2|[-> ->]]; [|destruct H4 as [[]|[_ ->]]; done].
  destruct H4 as [H4|[-> ->]]; [|destruct H2]. apply H1 in H4. apply H3 in H2. lia.
Qed.
Lemma greatest_perm l l' m : Permutation l l' -> greatest l m -> greatest l' m.
Proof.
  intros P [H1 H2]. split; [intros x H; apply H1; by rewrite P|]. destruct H2 as [H2|[-> ->]]; [left; by rewrite <- P|right].
  apply Permutation_nil in P. done.
Qed.
Lemma max_slice_concat (ls : list (list N)) ms : Forall2 greatest ls ms -> ms <> [] -> greatest (concat ls) (max_slice ms).
Proof.
  intros HF Hne. assert (E : max_slice ms = fold_left N.max ms 0).
  { apply N.le_antisymm.
    - destruct ms as [|m ms]; [done|]. unfold max_slice. cbn [hd]. apply max_from. destruct (max_from_in (m :: ms) m) as [H|H]; [|eauto].
      rewrite <- H. right. exists m. split; [left|]; done.
    - unfold max_slice. apply max_from. destruct (max_from_in ms 0) as [H|H]; [rewrite <- H; left; lia|eauto]. }
  rewrite E. clear E Hne. induction HF as [|l m ls ms Hl HF IH]; [split; [intros x []|auto]|].
  cbn [concat]. cbn [fold_left]. destruct IH as [I1 I2], Hl as [L1 L2]. split.
  - intros x H. apply in_app_iff in H as [H|H].
    + apply max_from. left. apply L1 in H. lia.
    + apply I1 in H. apply max_from in H as [H|H]; apply max_from; [left; lia|auto].
  - assert (E : fold_left N.max ms (N.max 0 m) = N.max m (fold_left N.max ms 0)).
    { apply N.le_antisymm.
      - destruct (max_from_in ms (N.max 0 m)) as [H|H]; [rewrite <- H; lia|].
        assert (fold_left N.max ms (N.max 0 m) <= fold_left N.max ms 0) by (apply max_from; eauto). lia.
      - apply N.max_lub; apply max_from; [left; lia|]. destruct (max_from_in ms 0) as [H|H]; [rewrite <- H; left; lia|right; eauto]. }
    rewrite E. destruct (N.max_spec m (fold_left N.max ms 0)) as [[Hlt ->]|[Hge ->]].
    + destruct I2 as [I2|[I2 I3]]; [left; apply in_app_iff; auto|lia].
    + destruct L2 as [L2|[-> ->]]; [left; apply in_app_iff; auto|]. destruct I2 as [I2|[I2 I3]]; [|right; cbn; auto].
      left. cbn. replace 0 with (fold_left N.max ms 0) by lia. done.
Qed.

Lemma msort_sorted (l : list N) : Sorted N.le (merge_sort N.le l).
Proof. apply Sorted_merge_sort. apply _. Qed.
Lemma kth_msort (l : list N) k : (k < length l)%nat -> kth (map Z.of_N l) k (Z.of_N (nth k (merge_sort N.le l) 0)).
Proof.
  intros Hk. exists (map Z.of_N (merge_sort N.le l)). split_and!.
  - apply Permutation_map. apply merge_sort_Permutation.
  - generalize (msort_sorted l). induction 1 as [|a s Hs IH Hd]; cbn; [constructor|]. constructor; [done|]. destruct Hd; cbn; constructor. lia.
  - rewrite nth_error_map, (nth_error_nth' _ 0); [done|]. erewrite Permutation_length; [exact Hk|apply merge_sort_Permutation].
Qed.
(** The sum of two entries at different places is no more than the sum of all. *)
Lemma nth_sum (l : list N) i j : (i < j)%nat -> nth i l 0 + nth j l 0 <= fold_right N.add 0 l.
Proof.
  assert (G : forall (l : list N) i, nth i l 0 <= fold_right N.add 0 l).
  { clear. induction l as [|x l IH]; intros [|i]; cbn; [lia|lia|lia|]. specialize (IH i). lia. }
  revert i j. induction l as [|x l IH]; intros i j H.
  - destruct i, j; cbn; lia.
  - destruct j as [|j]; [lia|]. destruct i as [|i]; cbn; [specialize (G l j); lia|]. specialize (IH i j ltac:(lia)). lia.
Qed.
Lemma sum_perm l l' : Permutation l l' -> fold_right N.add 0 l = fold_right N.add 0 l'.
Proof. induction 1; cbn; lia. Qed.
Lemma median_middle w l : fold_right N.add 0 l < w -> middle l (median_u w l).
Proof.
  intros Hw. destruct l as [|x [|y l']] eqn:El; [by left|right; left; by exists x|]. right. right. rewrite <- El. split; [rewrite El; cbn; lia|].
  assert (Hl : (2 <= length l)%nat) by (rewrite El; cbn; lia).
  assert (E : median_u w l = let c := merge_sort N.le l in let k := (length c / 2)%nat in
      if Nat.even (length c) then nth k c 0
      else if nth (k - 1) c 0 =? nth k c 0 then nth k c 0
      else ((nth (k - 1) c 0 + nth k c 0) mod w) / 2) by (rewrite El; done).
  rewrite <- El in Hw. rewrite E. clear x y l' El E. cbv zeta.
  assert (Ec : length (merge_sort N.le l) = length l) by (apply Permutation_length, merge_sort_Permutation).
  rewrite Ec. set (k := (length l / 2)%nat).
  exists (nth (k - 1) (merge_sort N.le l) 0), (nth k (merge_sort N.le l) 0).
  split; [apply kth_msort; lia|]. split; [apply kth_msort; lia|].
  destruct (Nat.even (length l)); [done|].
  assert (Hs : nth (k - 1) (merge_sort N.le l) 0 + nth k (merge_sort N.le l) 0 < w).
  { eapply N.le_lt_trans; [apply nth_sum; lia|]. erewrite sum_perm; [exact Hw|apply merge_sort_Permutation]. }
  destruct (N.eqb_spec (nth (k - 1) (merge_sort N.le l) 0) (nth k (merge_sort N.le l) 0)) as [Ee|_].
  - rewrite Ee. lia.
  - rewrite N.mod_small by done. done.
Qed.
Lemma middle_perm l l' m : Permutation l l' -> middle l m -> middle l' m.
Proof.
  intros P H. destruct H as [(-> & ->)|[(x & -> & ->)|(H1 & lo & hi & H2 & H3 & ->)]].
  - left. apply Permutation_nil in P. done.
  - right. left. apply Permutation_length_1_inv in P. eauto.
  - right. right. rewrite <- (Permutation_length P). split; [done|]. exists lo, hi.
    assert (K : forall k x, kth (map Z.of_N l) k x -> kth (map Z.of_N l') k x).
    { intros k x (s & Ps & Hs). exists s. split; [|done]. rewrite Ps. by apply Permutation_map. }
    auto.
Qed.

(** * The parallel loop *)
Lemma start_S g t th : g !! t = Some th -> start g (S t) = (start g t + length (verts th))%nat.
Proof.
  intros H. unfold start, all_verts. rewrite (take_S_r _ _ _ H), map_app, concat_app, app_length. cbn. by rewrite app_nil_r.
Qed.
Lemma start_le g t t' : (t <= t')%nat -> (start g t <= start g t')%nat.
Proof.
  intros H. unfold start, all_verts. rewrite <- (take_drop t (take t' g)), take_take, Nat.min_l by done.
  rewrite map_app, concat_app, app_length. lia.
Qed.
Lemma start_sep g t t' th th' j j' : g !! t = Some th -> g !! t' = Some th' -> (j < length (verts th))%nat -> (j' < length (verts th'))%nat ->
  (start g t + j = start g t' + j')%nat -> t = t' /\ j = j'.
Proof.
  intros H H' Hj Hj' E. destruct (lt_eq_lt_dec t t') as [[L|L]|L].
  - pose proof (start_le g (S t) t' L). rewrite (start_S g t th H) in *. lia.
  - subst t'. split; [done|lia].
  - pose proof (start_le g (S t') t L). rewrite (start_S g t' th' H') in *. lia.
Qed.
Lemma start_lookup g t th j : g !! t = Some th -> (j < length (verts th))%nat -> all_verts g !! (start g t + j)%nat = verts th !! j.
Proof.
  intros H Hj. assert (E : all_verts g = all_verts (take t g) ++ verts th ++ all_verts (drop (S t) g)).
  { unfold all_verts. rewrite <- (take_drop_middle g t th H) at 1. by rewrite map_app, concat_app. }
  rewrite E, lookup_app_r by (unfold start; lia). replace (_ - _)%nat with j by (unfold start; lia). by apply lookup_app_l.
Qed.
Lemma start_bound g t th j : g !! t = Some th -> (j < length (verts th))%nat -> (start g t + j < length (all_verts g))%nat.
Proof. intros H Hj. apply lookup_lt_is_Some. rewrite (start_lookup g t th j H Hj). by apply lookup_lt_is_Some. Qed.
Lemma start_cover g k : (k < length (all_verts g))%nat -> exists t th j, g !! t = Some th /\ (j < length (verts th))%nat /\ k = (start g t + j)%nat.
Proof.
  intros Hk. assert (G : forall t, (t <= length g)%nat -> (k < start g t)%nat -> exists t th j, g !! t = Some th /\ (j < length (verts th))%nat /\ k = (start g t + j)%nat).
  { induction t as [|t IH]; intros Ht H; [change (start g 0) with 0%nat in H; lia|]. destruct (lookup_lt_is_Some_2 g t ltac:(lia)) as [th Hth].
    rewrite (start_S g t th Hth) in H. destruct (decide (k < start g t)%nat) as [L|L]; [apply IH; [lia|done]|].
    exists t, th, (k - start g t)%nat. split; [done|]. lia. }
  apply (G (length g)); [done|]. unfold start. by rewrite firstn_all.
Qed.

Record pinv (ins : bool) (g : list thr) (s : pst) : Prop := Pinv {
  i_pos : length (pos s) = length g;
  i_parts : length (parts s) = length g;
  i_lout : length (lout s) = length (all_verts g);
  i_lin : length (lin s) = length (all_verts g);
  i_at : forall t i th, pos s !! t = Some i -> g !! t = Some th ->
    (i <= length (verts th))%nat /\ parts s !! t = Some (fold_left (see ins) (take i (verts th)) part0) /\
    forall j v, (j < i)%nat -> verts th !! j = Some v -> lout s !! (start g t + j)%nat = Some (odeg v) /\
      (ins = true -> lin s !! (start g t + j)%nat = Some (inpos v));
}.
Lemma pinv0 ins g : pinv ins g (pst0 g).
Proof.
  split; cbn; rewrite ?replicate_length; try done. intros t i th Hi Ht. apply lookup_replicate in Hi as [-> Hl].
  split; [lia|]. split; [by rewrite lookup_replicate_2|]. intros j v Hj. lia.
Qed.
Lemma pinv_step ins g s t : pinv ins g s -> pinv ins g (pstep ins g s t).
Proof.
  intros [H1 H2 H3 H4 H5]. unfold pstep.
  destruct (pos s !! t) as [i|] eqn:Ep; [|by split]. destruct (parts s !! t) as [p|] eqn:Eq; [|by split].
  destruct (g !! t) as [th|] eqn:Eg; [|by split]. destruct (verts th !! i) as [v|] eqn:Ev; [|by split].
  assert (Hi : (i < length (verts th))%nat) by (apply lookup_lt_is_Some; eauto).
  assert (Hb : (start g t + i < length (all_verts g))%nat) by (by apply (start_bound g t th)).
  assert (Ht : (t < length g)%nat) by (apply lookup_lt_is_Some; eauto).
  split; cbn; [by rewrite insert_length..|by destruct ins; rewrite ?insert_length|].
  intros t' i' th' Hp' Hg'. destruct (decide (t' = t)) as [-> |Hne].
  - rewrite list_lookup_insert in Hp' by (rewrite H1; done). injection Hp' as <-. rewrite Eg in Hg'. injection Hg' as <-.
    destruct (H5 t i th Ep Eg) as (A & B & C). split; [lia|]. split.
    + rewrite list_lookup_insert by (rewrite H2; done). rewrite Eq in B. injection B as ->. by rewrite (take_S_r _ _ _ Ev), fold_left_app.
    + intros j w Hj Hw. destruct (decide (j = i)) as [-> |Hji].
      * rewrite Ev in Hw. injection Hw as <-. split; [apply list_lookup_insert; lia|]. intros ->. apply list_lookup_insert; lia.
      * destruct (C j w ltac:(lia) Hw) as [C1 C2]. split; [by rewrite list_lookup_insert_ne by lia|]. intros ->. rewrite list_lookup_insert_ne by lia. by apply C2.
  - rewrite list_lookup_insert_ne in Hp' by done. destruct (H5 t' i' th' Hp' Hg') as (A & B & C). split; [done|]. split; [by rewrite list_lookup_insert_ne by done|].
    intros j w Hj Hw. destruct (C j w Hj Hw) as [C1 C2].
    assert (Hs : (start g t + i <> start g t' + j)%nat).
    { intros E. apply (start_sep g t t' th th' i j) in E as [E _]; [done..|lia]. }
    split; [by rewrite list_lookup_insert_ne by done|]. intros ->. rewrite list_lookup_insert_ne by done. by apply C2.
Qed.
Lemma pinv_run ins g sched : pinv ins g (prun ins g sched).
Proof. unfold prun. generalize (pinv0 ins g). generalize (pst0 g). induction sched as [|t sched IH]; intros s H; [done|]. cbn. apply IH. by apply pinv_step. Qed.

Lemma prun_done ins g sched : let s := prun ins g sched in pdone g s ->
  parts s = map (fun th => fold_left (see ins) (verts th) part0) g /\ lout s = map odeg (all_verts g) /\ (ins = true -> lin s = map inpos (all_verts g)).
Proof.
  intros s Hd. pose proof (pinv_run ins g sched) as [H1 H2 H3 H4 H5]. fold s in H1, H2, H3, H4, H5. red in Hd.
  assert (Hp : forall t th, g !! t = Some th -> pos s !! t = Some (length (verts th))).
  { intros t th H. rewrite Hd, list_lookup_fmap, H. done. }
  split_and!.
  - apply list_eq. intros t. rewrite list_lookup_fmap. destruct (g !! t) as [th|] eqn:Eg.
    + destruct (H5 t _ th (Hp _ _ Eg) Eg) as (_ & B & _). rewrite B, firstn_all. done.
    + cbn. apply lookup_ge_None. rewrite H2. by apply lookup_ge_None.
  - apply list_eq. intros k. rewrite list_lookup_fmap. destruct (decide (k < length (all_verts g))%nat) as [L|L].
    + destruct (start_cover g k L) as (t & th & j & Eg & Hj & ->). destruct (H5 t _ th (Hp _ _ Eg) Eg) as (_ & _ & C).
      destruct (lookup_lt_is_Some_2 (verts th) j Hj) as [v Hv]. destruct (C j v Hj Hv) as [C1 _]. rewrite C1, (start_lookup g t th j Eg Hj), Hv. done.
    + rewrite !(proj2 (lookup_ge_None _ k)); [done|lia|lia].
  - intros ->. apply list_eq. intros k. rewrite list_lookup_fmap. destruct (decide (k < length (all_verts g))%nat) as [L|L].
    + destruct (start_cover g k L) as (t & th & j & Eg & Hj & ->). destruct (H5 t _ th (Hp _ _ Eg) Eg) as (_ & _ & C).
      destruct (lookup_lt_is_Some_2 (verts th) j Hj) as [v Hv]. destruct (C j v Hj Hv) as [_ C1]. rewrite C1, (start_lookup g t th j Eg Hj), Hv by done. done.
    + rewrite !(proj2 (lookup_ge_None _ k)); [done|lia|lia].
Qed.

(** What a goroutine has counted in the end. *)
Lemma see_all ins l p : (N.of_nat (length l) + sinks p < w32) -> (N.of_nat (length l) + heads p < w32) ->
  fold_left (see ins) l p =
  Part (fold_left N.max (map odeg l) (maxout p)) (fold_left N.max (map raw l) (maxraw p)) (sinks p + count (fun v => odeg v =? 0) l)
       (heads p + if ins then count (fun v => inpos v =? 0) l else 0) (if ins then fold_left N.max (map inpos l) (maxin p) else maxin p).
Proof.
  revert p. induction l as [|v l IH]; intros p H1 H2; cbn [fold_left map].
  - unfold count. cbn. destruct p, ins; cbn; rewrite !N.add_0_r; done.
  - cbn [length] in H1, H2. rewrite IH; cbn [see maxout maxraw sinks heads maxin].
    + unfold count. cbn [List.filter]. f_equal.
      * destruct (odeg v =? 0); [rewrite N.mod_small by lia; cbn [length]; lia|done].
      * destruct ins; cbn [andb]; [|done]. destruct (inpos v =? 0); [rewrite N.mod_small by lia; cbn [length]; lia|done].
      * destruct ins; done.
    + destruct (odeg v =? 0); [rewrite N.mod_small by lia|]; lia.
    + destruct (ins && (inpos v =? 0)); [rewrite N.mod_small by lia|]; lia.
Qed.

(** * The stored state and the graph it stands for *)
Lemma count_le {A} (f : A -> bool) l : count f l <= N.of_nat (length l).
Proof. unfold count. induction l as [|x l IH]; cbn; [lia|]. destruct (f x); cbn; lia. Qed.
Lemma count_app {A} (f : A -> bool) l l' : count f (l ++ l') = count f l + count f l'.
Proof. unfold count. rewrite List.filter_app, app_length. lia. Qed.
Lemma count_perm {A} (f : A -> bool) l l' : Permutation l l' -> count f l = count f l'.
Proof. unfold count. induction 1 as [|x l l' _ IH|x y l|l1 l2 l3 _ IH1 _ IH2]; cbn; [done| | |lia]; [destruct (f x)|destruct (f x), (f y)]; cbn; lia. Qed.
Lemma count_map {A B} (f : B -> bool) (h : A -> B) l : count f (map h l) = count (fun x => f (h x)) l.
Proof. unfold count. induction l as [|x l IH]; cbn; [done|]. destruct (f (h x)); cbn; lia. Qed.
Lemma count_ext {A} (f h : A -> bool) l : (forall x, In x l -> f x = h x) -> count f l = count h l.
Proof. intros H. unfold count. induction l as [|x l IH]; cbn; [done|]. rewrite H by (left; done). rewrite <- (f_equal N.to_nat (IH (fun y Hy => H y (or_intror Hy)))) || idtac. destruct (h x); cbn [length]; rewrite ?Nat2N.inj_succ, IH by (intros y Hy; apply H; right; done); done. Qed.
Lemma count_concat {A} (f : A -> bool) (ls : list (list A)) : fold_right N.add 0 (map (count f) ls) = count f (concat ls).
Proof. induction ls as [|l ls IH]; [done|]. cbn [map fold_right concat]. by rewrite count_app, IH. Qed.

(** Every edge is counted at exactly one id. *)
Lemma sum_zero (ids : list N) (f : N -> N) : (forall u, In u ids -> f u = 0) -> fold_right N.add 0 (map f ids) = 0.
Proof. intros H. induction ids as [|x ids IH]; [done|]. cbn. rewrite H by (left; done). rewrite IH; [done|]. intros u Hu. apply H. by right. Qed.
Lemma sum_add (ids : list N) (f h : N -> N) : fold_right N.add 0 (map (fun u => f u + h u) ids) = fold_right N.add 0 (map f ids) + fold_right N.add 0 (map h ids).
Proof. induction ids as [|x ids IH]; cbn; lia. Qed.
Lemma sum_one (ids : list N) k : List.NoDup ids -> In k ids -> fold_right N.add 0 (map (fun u => if k =? u then 1 else 0) ids) = 1.
Proof.
  induction 1 as [|x ids Hx Hn IH]; intros Hk; [done|]. cbn [map fold_right]. destruct Hk as [-> |Hk].
  - rewrite N.eqb_refl, sum_zero; [done|]. intros u Hu. destruct (N.eqb_spec k u) as [-> |_]; [done|done].
  - destruct (N.eqb_spec k x) as [-> |_]; [done|]. rewrite IH by done. done.
Qed.
Lemma sum_degrees {A} (key : A -> N) (ids : list N) (l : list A) : List.NoDup ids -> (forall e, In e l -> In (key e) ids) ->
  fold_right N.add 0 (map (fun u => count (fun e => key e =? u) l) ids) = N.of_nat (length l).
Proof.
  intros Hn. induction l as [|e l IH]; intros H; [by apply sum_zero|].
  assert (E : map (fun u => count (fun e => key e =? u) (e :: l)) ids = map (fun u => (if key e =? u then 1 else 0) + count (fun e => key e =? u) l) ids).
  { apply map_ext. intros u. unfold count. cbn [List.filter]. destruct (key e =? u); cbn [length]; lia. }
  rewrite E, sum_add, sum_one, IH; [cbn [length]; lia| |done|apply H; by left]. intros e' He'. apply H. by right.
Qed.

Section held.
  Context (tr : bool) (g : list thr) (ids : list N) (links removed : list (N * N)).
  Hypothesis (H : holds tr g ids links removed) (Hids : N.of_nat (length ids) < w32) (Hlinks : N.of_nat (length links) < w32).

  Lemma held_odeg v : In v (all_verts g) -> odeg v = outdeg links (raw v).
  Proof using All.
    intros Hv. unfold odeg. rewrite (Permutation_length (h_outs _ _ _ _ _ H v Hv)), map_length. fold (outdeg links (raw v)).
    apply N.mod_small. eapply N.le_lt_trans; [apply count_le|exact Hlinks].
  Qed.
  Lemma held_odegs : Permutation (map odeg (all_verts g)) (map (outdeg links) ids).
  Proof using All.
    rewrite (map_ext_in odeg (fun v => outdeg links (raw v))) by (intros v Hv; by apply held_odeg).
    rewrite <- (map_map raw (outdeg links)). apply Permutation_map. apply (h_ids _ _ _ _ _ H).
  Qed.
  Lemma held_sum_out : fold_right N.add 0 (map (outdeg links) ids) = N.of_nat (length links).
  Proof using All.
    apply sum_degrees; [apply (h_once _ _ _ _ _ H)|]. intros e He. apply (h_ends _ _ _ _ _ H). apply in_app_iff. by left.
  Qed.
  Lemma held_count : length (all_verts g) = length ids.
  Proof using All. rewrite <- (map_length raw). apply Permutation_length, (h_ids _ _ _ _ _ H). Qed.
  Lemma held_len (l : list N) (th : thr) : In th g -> (length (verts th) <= length (all_verts g))%nat.
  Proof using. clear. intros Hth. unfold all_verts. induction g as [|x l' IH]; [done|]. cbn. rewrite app_length. destruct Hth as [-> |Hth]; [lia|]. apply IH in Hth. lia. Qed.
  Lemma held_parts ins : map (fun th => fold_left (see ins) (verts th) part0) g =
    map (fun th => Part (fold_left N.max (map odeg (verts th)) 0) (fold_left N.max (map raw (verts th)) 0) (count (fun v => odeg v =? 0) (verts th))
       (if ins then count (fun v => inpos v =? 0) (verts th) else 0) (if ins then fold_left N.max (map inpos (verts th)) 0 else 0)) g.
  Proof using All.
    apply map_ext_in. intros th Hth. assert (L := held_len [] th Hth). rewrite held_count in L.
    rewrite see_all; [|cbn; lia..]. cbn [part0 sinks heads maxout maxraw maxin]. rewrite !N.add_0_l. done.
  Qed.
  Lemma held_max (f : vtx -> N) : greatest (map f (all_verts g)) (max_slice (map (fun th => fold_left N.max (map f (verts th)) 0) g)).
  Proof using All.
    assert (E : map f (all_verts g) = concat (map (fun th => map f (verts th)) g)) by (unfold all_verts; rewrite concat_map, map_map; done).
    rewrite E. apply max_slice_concat.
    - clear. induction g as [|th l IH]; cbn; [constructor|]. constructor; [|done]. apply greatest_from0.
    - pose proof (h_threads _ _ _ _ _ H). by destruct g.
  Qed.
  Lemma held_sum (f : vtx -> bool) : sum32 (map (fun th => count f (verts th)) g) = count f (all_verts g).
  Proof using All.
    rewrite sum32_val. rewrite <- (map_map verts (count f)), count_concat. apply N.mod_small.
    eapply N.le_lt_trans; [apply count_le|]. fold (all_verts g). by rewrite held_count.
  Qed.
  Lemma held_edges : sum32 (map nedges g) = N.of_nat (length links).
  Proof using All.
    rewrite sum32_val. rewrite (map_ext_in nedges (fun th => N.of_nat (length (concat (map outs (verts th)))) mod w32)) by (apply (h_edges _ _ _ _ _ H)).
    assert (E : fold_right N.add 0 (map (fun th => N.of_nat (length (concat (map outs (verts th)))) mod w32) g) mod w32 = N.of_nat (length (concat (map outs (all_verts g)))) mod w32).
    { unfold all_verts. clear. induction g as [|th l IH]; [done|]. cbn [map fold_right concat]. rewrite map_app, concat_app, app_length, Nat2N.inj_add.
      rewrite N.add_mod_idemp_l by wordlia. rewrite <- N.add_mod_idemp_r by wordlia. rewrite IH. by rewrite N.add_mod_idemp_r by wordlia. }
    rewrite E. rewrite <- held_sum_out, <- (sum_perm _ _ held_odegs).
    assert (E2 : N.of_nat (length (concat (map outs (all_verts g)))) = fold_right N.add 0 (map odeg (all_verts g))).
    { assert (G : forall l, (forall v, In v l -> In v (all_verts g)) -> N.of_nat (length (concat (map outs l))) = fold_right N.add 0 (map odeg l)); [|by apply G].
      induction l as [|v l IH]; intros Hl; [done|]. cbn [map concat fold_right]. rewrite app_length, Nat2N.inj_add, IH by (intros; apply Hl; by right).
      f_equal. unfold odeg. symmetry. apply N.mod_small. rewrite (Permutation_length (h_outs _ _ _ _ _ H v (Hl v (or_introl eq_refl)))), map_length.
      eapply N.le_lt_trans; [apply (count_le (fun e => fst e =? raw v))|exact Hlinks]. }
    rewrite E2. apply N.mod_small. by rewrite (sum_perm _ _ held_odegs), held_sum_out.
  Qed.

  (** The numbers that do not depend on deletions. *)
  Lemma held_stats sched : pdone g (prun (ins_known tr g) g sched) -> let r := stats tr g sched in
    r_vertices r = N.of_nat (length ids) /\ greatest ids (r_maxraw r) /\ r_edges r = N.of_nat (length links) /\
    r_sinks r = count (fun u => outdeg links u =? 0) ids /\ greatest (map (outdeg links) ids) (r_maxout r) /\ middle (map (outdeg links) ids) (r_medout r).
  Proof using All.
    intros Hd r. subst r. unfold stats. cbn zeta. set (ins := ins_known tr g) in *. destruct (prun_done ins g sched Hd) as (E1 & E2 & E3).
    rewrite E1, E2, held_parts, !map_map. cbn [r_vertices r_maxraw r_edges r_sinks r_maxout r_medout maxraw sinks maxout].
    split; [by rewrite held_count|]. split; [eapply greatest_perm; [apply (h_ids _ _ _ _ _ H)|apply held_max]|].
    split; [apply held_edges|]. split; [|split].
    - rewrite held_sum, <- (count_perm _ _ _ (h_ids _ _ _ _ _ H)), count_map. apply count_ext. intros v Hv. by rewrite held_odeg.
    - eapply greatest_perm; [apply held_odegs|apply held_max].
    - eapply middle_perm; [apply held_odegs|]. apply median_middle. by rewrite (sum_perm _ _ held_odegs), held_sum_out.
  Qed.
  Lemma held_ipos v : N.of_nat (length (links ++ removed)) < w32 -> In v (all_verts g) -> inpos v = indeg (links ++ removed) (raw v).
  Proof using All.
    intros Hl Hv. rewrite (h_ins _ _ _ _ _ H v Hv). fold (indeg (links ++ removed) (raw v)). apply N.mod_small. eapply N.le_lt_trans; [apply count_le|exact Hl].
  Qed.
  Lemma held_stats_in sched : removed = [] -> pdone g (prun (ins_known tr g) g sched) ->
    exists h m d, r_in (stats tr g sched) = Some (h, m, d) /\ h = count (fun u => indeg links u =? 0) ids /\
      greatest (map (indeg links) ids) m /\ middle (map (indeg links) ids) d.
  Proof using All.
    intros Hr Hd. pose proof (h_dels _ _ _ _ _ H) as HD.
    assert (Hi : ins_known tr g = true).
    { unfold ins_known. destruct tr; [apply orb_true_r|]. rewrite HD, Hr. done. }
    unfold stats. cbn zeta. rewrite Hi in *. destruct (prun_done true g sched Hd) as (E1 & E2 & E3).
    rewrite E1, (E3 eq_refl), held_parts, !map_map. cbn [r_in heads maxin]. eexists _, _, _. split; [done|].
    assert (Hp : forall v, In v (all_verts g) -> inpos v = indeg links (raw v)).
    { intros v Hv. rewrite held_ipos by (rewrite ?Hr, ?app_nil_r; done). by rewrite Hr, app_nil_r. }
    assert (P : Permutation (map inpos (all_verts g)) (map (indeg links) ids)).
    { rewrite (map_ext_in inpos (fun v => indeg links (raw v))) by done. rewrite <- (map_map raw (indeg links)). apply Permutation_map. apply (h_ids _ _ _ _ _ H). }
    split; [|split].
    - rewrite held_sum, <- (count_perm _ _ _ (h_ids _ _ _ _ _ H)), count_map. apply count_ext. intros v Hv. by rewrite Hp.
    - eapply greatest_perm; [apply P|apply held_max].
    - eapply middle_perm; [apply P|]. apply median_middle. rewrite (sum_perm _ _ P).
      change (map (indeg links) ids) with (map (fun u => count (fun e => snd e =? u) links) ids). rewrite sum_degrees; [exact Hlinks|apply (h_once _ _ _ _ _ H)|].
      intros e He. apply (h_ends _ _ _ _ _ H). apply in_app_iff. by left.
  Qed.
  (** In-degrees read off the out-edges. *)
  Lemma held_targets d : count (fun x => x =? d) (concat (map outs (all_verts g))) = indeg links d.
  Proof using All.
    rewrite <- count_concat, map_map.
    rewrite (map_ext_in _ (fun v => count (fun e => fst e =? raw v) (List.filter (fun e => snd e =? d) links))).
    - rewrite <- (map_map raw (fun u => count (fun e => fst e =? u) (List.filter (fun e => snd e =? d) links))).
      rewrite (sum_perm _ _ (Permutation_map _ (h_ids _ _ _ _ _ H))). rewrite sum_degrees; [done|apply (h_once _ _ _ _ _ H)|].
      intros e He. apply List.filter_In in He as [He _]. apply (h_ends _ _ _ _ _ H). apply in_app_iff. by left.
    - intros v Hv. rewrite (count_perm _ _ _ (h_outs _ _ _ _ _ H v Hv)), count_map. unfold count. f_equal. clear.
      induction links as [|e l IH]; [done|]. cbn [List.filter]. destruct (fst e =? raw v) eqn:E1, (snd e =? d) eqn:E2; cbn [List.filter length]; rewrite ?E1, ?E2; cbn [length]; rewrite ?IH; done.
  Qed.
  Lemma held_stats_hidden sched : removed <> [] -> N.of_nat (length removed) < w32 -> r_in (stats tr g sched) = None.
  Proof using All.
    intros Hr Hl. pose proof (h_dels _ _ _ _ _ H) as HD. unfold stats, ins_known. cbn [r_in]. destruct tr; [done|].
    rewrite HD, N.mod_small by done. destruct removed; [done|]. cbn [length]. destruct (N.eqb_spec (N.of_nat (S (length l))) 0); [lia|]. done.
  Qed.
End held.

(** * InEdgesStats *)
Definition sources (m : list (N * list N)) (k : N) : list N := match List.find (fun x => fst x =? k) m with Some x => snd x | None => [] end.
Lemma push_keys m k x j : In j (map fst (push m k x)) <-> j = k \/ In j (map fst m).
Proof.
  induction m as [|[i l] m IH]; cbn [push map fst In]; [firstorder|]. destruct (N.eqb_spec i k) as [-> |Hne]; cbn [map fst In]; [firstorder|]. rewrite IH. firstorder.
Qed.
Lemma push_nodup m k x : List.NoDup (map fst m) -> List.NoDup (map fst (push m k x)).
Proof.
  induction m as [|[i l] m IH]; cbn [push map fst]; intros Hn; [constructor; [intros []|constructor]|]. inversion Hn as [|? ? Hi Hm]; subst.
  destruct (N.eqb_spec i k) as [-> |Hne]; cbn [map fst]; constructor; auto. rewrite push_keys. intros [-> |H']; done.
Qed.
Lemma push_sources m k x j : length (sources (push m k x) j) = (length (sources m j) + if (k =? j)%N then 1 else 0)%nat.
Proof.
  unfold sources. induction m as [|[i l] m IH]; cbn [push List.find fst].
  - destruct (k =? j); done.
  - destruct (N.eqb_spec i k) as [-> |Hne]; cbn [List.find fst].
    + destruct (k =? j); cbn [snd]; [rewrite app_length; cbn; lia|lia].
    + destruct (N.eqb_spec i j) as [-> |Hij]; [|exact IH]. destruct (N.eqb_spec k j) as [-> |_]; [done|]. cbn. lia.
Qed.
Lemma push_full m k x : (forall y, In y m -> snd y <> []) -> forall y, In y (push m k x) -> snd y <> [].
Proof.
  induction m as [|[i l] m IH]; cbn [push]; intros Hm y Hy; [destruct Hy as [<-|[]]; done|].
  destruct (i =? k); destruct Hy as [<-|Hy].
  - cbn. by destruct l.
  - apply Hm. by right.
  - apply (Hm (i, l)). by left.
  - apply IH; [|done]. intros z Hz. apply Hm. by right.
Qed.
Lemma in_table_ok g : let m := in_table g in List.NoDup (map fst m) /\ (forall y, In y m -> snd y <> []) /\
  forall d, N.of_nat (length (sources m d)) = count (fun x => x =? d) (concat (map outs (all_verts g))).
Proof.
  unfold in_table. assert (G : forall vs m pre, List.NoDup (map fst m) -> (forall y, In y m -> snd y <> []) ->
    (forall d, N.of_nat (length (sources m d)) = count (fun x => x =? d) pre) ->
    let m' := fold_left (fun m v => fold_left (fun m d => push m d (raw v)) (outs v) m) vs m in
    List.NoDup (map fst m') /\ (forall y, In y m' -> snd y <> []) /\ forall d, N.of_nat (length (sources m' d)) = count (fun x => x =? d) (pre ++ concat (map outs vs))).
  { induction vs as [|v vs IH]; intros m pre H1 H2 H3; cbn [fold_left map concat]; [by rewrite app_nil_r|].
    assert (G : forall os m pre, List.NoDup (map fst m) -> (forall y, In y m -> snd y <> []) -> (forall d, N.of_nat (length (sources m d)) = count (fun x => x =? d) pre) ->
      let m' := fold_left (fun m d => push m d (raw v)) os m in
      List.NoDup (map fst m') /\ (forall y, In y m' -> snd y <> []) /\ forall d, N.of_nat (length (sources m' d)) = count (fun x => x =? d) (pre ++ os)).
    { clear. induction os as [|o os IH]; intros m pre H1 H2 H3; cbn [fold_left]; [by rewrite app_nil_r|].
      specialize (IH (push m o (raw v)) (pre ++ [o])). rewrite <- app_assoc in IH. apply IH; [by apply push_nodup|by apply push_full|].
      intros d. rewrite push_sources, count_app, <- H3. unfold count. cbn [List.filter]. destruct (o =? d); cbn [length]; lia. }
    destruct (G (outs v) m pre H1 H2 H3) as (A & B & C). rewrite app_assoc. apply IH; done. }
  apply (G (all_verts g) [] []); [constructor|intros y []|done].
Qed.
Lemma find_key (m : list (N * list N)) y : List.NoDup (map fst m) -> In y m -> sources m (fst y) = snd y.
Proof.
  unfold sources. induction m as [|x m IH]; intros Hn Hy; [done|]. cbn [List.find]. inversion Hn as [|? ? Hx Hm]; subst.
  destruct Hy as [-> |Hy]; [by rewrite N.eqb_refl|]. destruct (N.eqb_spec (fst x) (fst y)) as [E|_]; [|by apply IH].
  destruct Hx. rewrite E. by apply in_map.
Qed.
Lemma in_table_has g d : (In d (map fst (in_table g)) <-> sources (in_table g) d <> []).
Proof.
  destruct (in_table_ok g) as (Hn & Hf & _). split.
  - intros H. apply in_map_iff in H as (y & <- & Hy). rewrite find_key by done. by apply Hf.
  - unfold sources. destruct (List.find (fun x => fst x =? d) (in_table g)) as [y|] eqn:E; [|done]. intros _.
    apply find_some in E as [E1 E2]. apply N.eqb_eq in E2. rewrite <- E2. by apply in_map.
Qed.

Lemma held_in_stats tr g ids links removed order : holds tr g ids links removed -> N.of_nat (length ids) < w32 -> N.of_nat (length links) < w32 ->
  Permutation order (in_table g) -> let r := in_stats order in
  greatest (map (indeg links) ids) (fst r) /\ middle (map (indeg links) (List.filter (fun u => negb (indeg links u =? 0)) ids)) (snd r).
Proof.
  intros H Hids Hlinks P r. destruct (in_table_ok g) as (Hn & Hf & Hc).
  assert (Hd : forall d, N.of_nat (length (sources (in_table g) d)) = indeg links d).
  { intros d. rewrite Hc. by apply (held_targets tr g ids links removed). }
  set (ls := map (fun x => N.of_nat (length (snd x))) order).
  assert (E : ls = map (indeg links) (map fst order)).
  { unfold ls. rewrite map_map. apply map_ext_in. intros y Hy. rewrite P in Hy. by rewrite <- Hd, find_key. }
  assert (Q : Permutation (map fst order) (List.filter (fun u => negb (indeg links u =? 0)) ids)).
  { apply NoDup_Permutation.
    - apply NoDup_ListNoDup. by rewrite (Permutation_map fst P).
    - apply NoDup_ListNoDup. apply List.NoDup_filter. apply (h_once _ _ _ _ _ H).
    - intros d. rewrite !elem_of_list_In, (Permutation_map fst P), in_table_has, List.filter_In.
      rewrite <- (Hd d). split.
      + intros Hs. split; [|destruct (sources (in_table g) d); done]. assert (Hp : indeg links d <> 0) by (rewrite <- Hd; destruct (sources (in_table g) d); done).
        unfold indeg, count in Hp. destruct (List.filter (fun e => snd e =? d) links) as [|e l] eqn:Ef; [done|].
        assert (He : In e (List.filter (fun e => snd e =? d) links)) by (rewrite Ef; left; done). apply List.filter_In in He as [He E2]. apply N.eqb_eq in E2.
        rewrite <- E2. apply (h_ends _ _ _ _ _ H). apply in_app_iff. by left.
      + intros [_ Hs]. destruct (sources (in_table g) d); done. }
  unfold r, in_stats. fold ls. cbn [fst snd]. split.
  - assert (Em : fold_left (fun m x => N.max x m) ls 0 = fold_left N.max ls 0).
    { clearbody ls; clear; generalize 0. induction ls as [|x l IH]; intros a; [done|]. cbn. rewrite N.max_comm. apply IH. }
    rewrite Em. pose proof (greatest_from0 ls) as [G1 G2]. rewrite E in G1, G2 |- *. split.
    + intros x Hx. apply in_map_iff in Hx as (u & <- & Hu). destruct (N.eq_dec (indeg links u) 0) as [-> |Hz]; [lia|].
      apply G1. apply in_map. rewrite Q. apply List.filter_In. split; [done|]. by destruct (N.eqb_spec (indeg links u) 0).
    + destruct G2 as [G2|[G2 G3]].
      * left. apply in_map_iff in G2 as (u & G2 & Hu). rewrite Q in Hu. apply List.filter_In in Hu as [Hu _]. rewrite <- G2. by apply in_map.
      * rewrite G3. destruct ids as [|u l]; [by right|]. left.
        assert (indeg links u = 0) as <-; [|by left]. destruct (N.eq_dec (indeg links u) 0) as [Hz|Hz]; [done|].
        assert (Hu : In u (map fst order)). { rewrite Q. apply List.filter_In. split; [by left|]. by destruct (N.eqb_spec (indeg links u) 0). }
        apply map_eq_nil in G2. by rewrite G2 in Hu.
  - eapply middle_perm; [apply (Permutation_map (indeg links) Q)|]. rewrite <- E. apply median_middle. rewrite E, (sum_perm _ _ (Permutation_map (indeg links) Q)).
    eapply N.le_lt_trans; [|exact (N.lt_trans _ _ _ Hlinks (eq_refl : w32 < w64))].
    rewrite <- (sum_degrees snd ids links); [|apply (h_once _ _ _ _ _ H)|intros e He; apply (h_ends _ _ _ _ _ H); apply in_app_iff; by left].
    change (fun u => count (fun e => snd e =? u) links) with (indeg links). clear. induction ids as [|u l IH]; cbn; [lia|]. destruct (indeg links u =? 0); cbn; lia.
Qed.

(** * The structure check *)
Lemma find_raw (l : list vtx) w : List.NoDup (map raw l) -> In w l -> List.find (fun x => raw x =? raw w) l = Some w.
Proof.
  induction l as [|x l IH]; intros Hn Hw; [done|]. cbn [List.find]. inversion Hn as [|? ? Hx Hm]; subst.
  destruct Hw as [-> |Hw]; [by rewrite N.eqb_refl|]. destruct (N.eqb_spec (raw x) (raw w)) as [E|_]; [|by apply IH]. destruct Hx. rewrite E. by apply in_map.
Qed.
Lemma held_check tr1 g1 ids1 l1 r1 tr2 g2 ids2 l2 r2 : holds tr1 g1 ids1 l1 r1 -> holds tr2 g2 ids2 l2 r2 ->
  check_structure g1 g2 = true <-> (forall u, In u ids1 <-> In u ids2) /\ (forall u, outdeg l1 u = outdeg l2 u).
Proof.
  intros H1 H2. pose proof (h_ids _ _ _ _ _ H1) as P1. pose proof (h_ids _ _ _ _ _ H2) as P2.
  assert (N1 : List.NoDup (map raw (all_verts g1))) by (rewrite P1; apply (h_once _ _ _ _ _ H1)).
  assert (N2 : List.NoDup (map raw (all_verts g2))) by (rewrite P2; apply (h_once _ _ _ _ _ H2)).
  assert (O1 : forall v, In v (all_verts g1) -> N.of_nat (length (outs v)) = outdeg l1 (raw v)).
  { intros v Hv. by rewrite (Permutation_length (h_outs _ _ _ _ _ H1 v Hv)), map_length. }
  assert (O2 : forall v, In v (all_verts g2) -> N.of_nat (length (outs v)) = outdeg l2 (raw v)).
  { intros v Hv. by rewrite (Permutation_length (h_outs _ _ _ _ _ H2 v Hv)), map_length. }
  assert (Z : forall tr g ids l r u, holds tr g ids l r -> outdeg l u <> 0 -> In u ids).
  { clear. intros tr g ids l r u H Hu. unfold outdeg, count in Hu. destruct (List.filter (fun e => fst e =? u) l) as [|e l'] eqn:Ef; [done|].
    assert (He : In e (List.filter (fun e => fst e =? u) l)) by (rewrite Ef; left; done). apply List.filter_In in He as [He E2]. apply N.eqb_eq in E2.
    rewrite <- E2. apply (h_ends _ _ _ _ _ H). apply in_app_iff. by left. }
  unfold check_structure. rewrite andb_true_iff, forallb_forall, Nat.eqb_eq. split.
  - intros [Hl Hf].
    assert (Hs : forall u, In u (map raw (all_verts g1)) -> In u (map raw (all_verts g2)) /\ outdeg l1 u = outdeg l2 u).
    { intros u Hu. apply in_map_iff in Hu as (v & <- & Hv). pose proof (Hf v Hv) as Hc.
      destruct (List.find (fun w => raw w =? raw v) (all_verts g2)) as [w|] eqn:Ew; [|done]. apply find_some in Ew as [Ew1 Ew2]. apply N.eqb_eq in Ew2, Hc || (apply N.eqb_eq in Ew2; apply Nat.eqb_eq in Hc).
      rewrite <- O1 by done. rewrite <- Ew2, <- O2 by done. split; [by apply in_map|congruence]. }
    assert (Hi : incl (map raw (all_verts g2)) (map raw (all_verts g1))).
    { apply NoDup_length_incl; [done|rewrite !map_length; lia|]. intros u Hu. by apply Hs. }
    assert (I : forall u, In u ids1 <-> In u ids2).
    { intros u. rewrite <- P1, <- P2. split; [intros Hu; by apply Hs|apply Hi]. }
    split; [done|]. intros u. destruct (in_dec N.eq_dec u ids1) as [Hu|Hu]; [apply Hs; by rewrite P1|].
    destruct (N.eq_dec (outdeg l1 u) 0) as [-> |Hz]; [|destruct Hu; by eapply Z].
    destruct (N.eq_dec (outdeg l2 u) 0) as [-> |Hz]; [done|]. destruct Hu. apply I. by eapply Z.
  - intros [I O]. split.
    + rewrite <- (map_length raw (all_verts g1)), <- (map_length raw (all_verts g2)). apply Nat.le_antisymm; apply NoDup_incl_length; try done; intros u Hu.
      * rewrite P2. apply I. by rewrite <- P1.
      * rewrite P1. apply I. by rewrite <- P2.
    + intros v Hv. assert (Hu : In (raw v) (map raw (all_verts g2))) by (rewrite P2; apply I; rewrite <- P1; by apply in_map).
      apply in_map_iff in Hu as (w & Ew & Hw). rewrite <- Ew. rewrite find_raw by done. apply Nat.eqb_eq. apply Nat2N.inj. rewrite O1, O2, Ew by done. apply O.
Qed.
