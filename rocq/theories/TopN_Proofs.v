(** Proofs for FindTopNInArray. *)
From Verif Require Import Base Heap_Spec Heap_Model Heap_Proofs TopN_Spec TopN_Model.

Section proofs.
  Context {A : Type} (lt : A -> A -> bool) (W : weak_order lt) (d : A).

  Lemma idx_weak arr : weak_order (idx_less lt d arr).
  Proof.
    split; unfold idx_less; intros *.
    - apply (wo_asym _ W).
    - apply (wo_trans _ W).
  Qed.

  Record top_inv (arr : list A) (i n : nat) (index : list nat) : Prop := {
    ti_heap : is_heap (idx_less lt d arr) index;
    ti_len : length index = n;
    ti_nodup : NoDup index;
    ti_range : forall k, In k index -> k < i;
    ti_large : forall j k, j < i -> ~ In j index -> In k index ->
               lt (nth k arr d) (nth j arr d) = false }.

  Lemma top_inv_step arr i n index r :
    top_inv arr i n index -> index !! 0 = Some r ->
    top_inv arr (S i) n
      (if lt (nth r arr d) (nth i arr d)
       then fix_at (idx_less lt d arr) (<[0 := i]> index) 0 else index).
  Proof.
    intros [H1 H2 H3 H4 H5] Hr.
    pose proof (root_min _ (idx_weak arr) _ _ H1 Hr) as [Hin Hmin].
    unfold idx_less in Hmin.
    destruct (lt (nth r arr d) (nth i arr d)) eqn:E.
    - assert (0 < length index) as Hl by (by eapply lookup_lt_Some).
      destruct (fix_ok _ (idx_weak arr) index 0 i H1 Hl) as [F1 F2].
      destruct (insert_perm index 0 r i Hr) as (rest & P1 & P2).
      set (index' := fix_at _ _ _) in *.
      assert (P : index' ≡ₚ i :: rest) by (by rewrite F2).
      assert (Hnd : NoDup (r :: rest)) by (by rewrite <- P1).
      assert (Hrest : forall k, In k rest -> In k index /\ k <> r).
      { intros k Hk. split.
        - eapply Permutation_in; [by symmetry|]. by right.
        - intros ->. inversion_clear Hnd. apply H. by apply elem_of_list_In. }
      assert (Hmem : forall k, In k index <-> k = r \/ In k rest).
      { intros k. split.
        - intros Hk. eapply Permutation_in in Hk; [|exact P1]. destruct Hk; auto.
        - intros Hk. eapply Permutation_in; [by symmetry|].
          destruct Hk as [->|Hk]; [by left|by right]. }
      assert (Hmem' : forall k, In k index' <-> k = i \/ In k rest).
      { intros k. split.
        - intros Hk. eapply Permutation_in in Hk; [|exact P]. destruct Hk; auto.
        - intros Hk. eapply Permutation_in; [by symmetry|].
          destruct Hk as [->|Hk]; [by left|by right]. }
      split.
      + done.
      + rewrite (Permutation_length F2), insert_length. done.
      + rewrite P. inversion_clear Hnd. constructor; [|done].
        intros Hi%elem_of_list_In. apply Hrest in Hi as [Hi _]. apply H4 in Hi. lia.
      + intros k [->|Hk]%Hmem'; [lia|]. apply Hrest in Hk as [Hk _]. apply H4 in Hk. lia.
      + intros j k Hj Hnj Hk. rewrite Hmem' in Hnj, Hk.
        assert (Hji : j < i) by (destruct (decide (j = i)); [tauto|lia]).
        assert (Hkr : lt (nth k arr d) (nth r arr d) = false).
        { destruct Hk as [->|Hk]; [by apply (wo_asym _ W)|]. apply Hmin, Hrest, Hk. }
        destruct (decide (j = r)) as [->|Hjr]; [done|].
        apply (wo_trans _ W) with (nth r arr d); [|done].
        apply H5; [done| |done]. rewrite Hmem. tauto.
    - split; try done.
      + intros k Hk. apply H4 in Hk. lia.
      + intros j k Hj Hnj Hk. destruct (decide (j = i)) as [->|Hji].
        * apply (wo_trans _ W) with (nth r arr d); [done|]. by apply Hmin.
        * apply H5; [lia|done|done].
  Qed.

  Lemma top_loop_ok arr n fuel : forall i index,
    0 < n -> top_inv arr i n index ->
    exists index', top_loop lt d fuel arr i index = Some index' /\ top_inv arr (i + fuel) n index'.
  Proof.
    induction fuel as [|f IH]; intros i index Hn Hi; cbn [top_loop].
    - exists index. by rewrite Nat.add_0_r.
    - assert (is_Some (index !! 0)) as [r Hr].
      { apply lookup_lt_is_Some. rewrite (ti_len _ _ _ _ Hi). done. }
      rewrite Hr. destruct (IH (S i) _ Hn (top_inv_step _ _ _ _ _ Hi Hr)) as (x & E & Hx).
      exists x. split; [done|]. by replace (i + S f) with (S i + f) by lia.
  Qed.

  Lemma sf_init_inv arr n : top_inv arr n n (sf_init lt d arr n).
  Proof.
    unfold sf_init. destruct (pq_init_ok _ (idx_weak arr) (seq 0 n)) as [H1 H2].
    assert (Hin : forall k, In k (pq_init (idx_less lt d arr) (seq 0 n)) <-> k < n).
    { intros k. rewrite <- elem_of_list_In, H2, elem_of_list_In, in_seq. lia. }
    split.
    - done.
    - by rewrite H2, seq_length.
    - rewrite H2. apply NoDup_ListNoDup, seq_NoDup.
    - intros k Hk. by apply Hin.
    - intros j k Hj Hnj. by rewrite Hin in Hnj.
  Qed.

  Lemma StronglySorted_rev_map {B C} (R : B -> B -> Prop) (Q : C -> C -> Prop) (f : B -> C) l :
    (forall a b, R a b -> Q (f b) (f a)) ->
    StronglySorted R l -> StronglySorted Q (rev (map f l)).
  Proof.
    intros HRQ Hs. induction Hs as [|x l Hs IH Hf]; simpl; [constructor|].
    assert (Hx : forall y, In y (rev (map f l)) -> Q y (f x)).
    { intros y Hy. apply in_rev, in_map_iff in Hy as (z & <- & Hz).
      rewrite List.Forall_forall in Hf. by apply HRQ, Hf. }
    revert IH Hx. generalize (rev (map f l)). clear. intros m.
    induction m as [|y m IHm]; intros Hs Hx; simpl.
    - repeat constructor.
    - inversion_clear Hs as [|? ? H1 H2]. constructor.
      + apply IHm; [done|]. intros z Hz. apply Hx. by right.
      + rewrite List.Forall_forall in *. intros z Hz. apply in_app_iff in Hz as [Hz|[<-|[]]].
        * by apply H2.
        * apply Hx. by left.
  Qed.

  Lemma find_top_n_ok arr n :
    0 < n \/ arr = [] -> exists res, find_top_n lt d arr n = Some res /\ top_n lt arr n res.
  Proof.
    intros Hn. unfold find_top_n.
    set (c := if length arr <? n then length arr else n).
    assert (Hc : c = Nat.min n (length arr)) by (unfold c; destruct (_ <? _) eqn:E; lia).
    assert (Hloop : exists index, top_loop lt d (length arr - c) arr c (sf_init lt d arr c) = Some index
                           /\ top_inv arr (length arr) c index).
    { destruct (decide (c = 0)) as [Hc0|Hc0].
      - assert (length arr = 0) as Hl by (destruct Hn as [Hn|Hn]; [lia|by rewrite Hn]).
        rewrite Hl, Hc0. simpl. exists (sf_init lt d arr 0). split; [done|]. apply sf_init_inv.
      - destruct (top_loop_ok arr c (length arr - c) c _ ltac:(lia) (sf_init_inv arr c))
          as (x & E & Hx).
        exists x. split; [done|]. by replace (c + (length arr - c)) with (length arr) in Hx by lia. }
    destruct Hloop as (index & -> & [H1 H2 H3 H4 H5]). eexists. split; [done|].
    destruct (pop_all_sorted _ (idx_weak arr) c index H1 ltac:(lia)) as [S1 S2].
    set (out := pop_all _ _ _) in *.
    assert (Hfst : map fst (rev (map (fun k => (k, nth k arr d)) out)) = rev out).
    { rewrite map_rev, map_map. simpl. by rewrite map_id. }
    assert (Hin : forall i v, In (i, v) (rev (map (fun k => (k, nth k arr d)) out)) ->
              In i index /\ v = nth i arr d).
    { intros i v Hi. apply in_rev, in_map_iff in Hi as (z & Hz & Hzo).
      injection Hz as -> <-. split; [|done]. eapply Permutation_in; [exact S1|done]. }
    split.
    - rewrite rev_length, map_length, (Permutation_length S1). lia.
    - rewrite Hfst. apply NoDup_ListNoDup. rewrite <- Permutation_rev. by rewrite S1.
    - intros i v Hi. apply Hin in Hi as [Hi ->]. apply nth_error_nth'. by apply H4.
    - eapply StronglySorted_rev_map; [|exact S2]. simpl. intros a b Hab. exact Hab.
    - intros j w Hj Hnj i v Hi. apply Hin in Hi as [Hi ->].
      assert (j < length arr) as Hjl by (apply nth_error_Some; congruence).
      rewrite (nth_error_nth' arr d Hjl) in Hj. injection Hj as <-.
      apply H5; [done| |done]. intros Hj. apply Hnj. rewrite Hfst.
      apply in_rev. rewrite rev_involutive. eapply Permutation_in; [symmetry; exact S1|done].
  Qed.

  Lemma find_top_zero_panics arr : arr <> [] -> find_top_n lt d arr 0 = None.
  Proof.
    intros Ha. unfold find_top_n. simpl. rewrite Nat.sub_0_r.
    destruct arr as [|a arr]; [done|]. done.
  Qed.

  Lemma sf_insert_index arr v : arr <> [] ->
    snd (sf_insert lt d arr (sf_init lt d arr (length arr)) v)
      ≡ₚ (length arr - 1) :: seq 0 (length arr).
  Proof.
    intros Ha. unfold sf_insert, sf_init. simpl.
    destruct (pq_init_ok _ (idx_weak arr) (seq 0 (length arr))) as [_ H2].
    unfold push. rewrite up_perm. rewrite Permutation_app_comm. simpl. rewrite H2.
    by rewrite seq_length.
  Qed.
End proofs.
