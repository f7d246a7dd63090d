(** Proofs about the heap model and binary search. *)
From Verif Require Import Base Heap_Spec Heap_Model.

Section proofs.
  Context {A : Type} (less : A -> A -> bool) (W : weak_order less).
  Notation less_at := (less_at less).
  Notation swap := (@swap A).
  Notation up := (up less).
  Notation down := (down less).

  Definition par (k : nat) : nat := (k - 1) / 2.

  Lemma less_irr a : less a a = false.
  Proof. destruct (less a a) eqn:E; [|done]. pose proof (wo_asym _ W _ _ E). congruence. Qed.

  (** ** swap *)
  Lemma swap_length h i j : length (swap h i j) = length h.
  Proof. unfold swap. destruct (h !! i), (h !! j); by rewrite ?insert_length. Qed.

  Lemma swap_lookup_l h i j : i < length h -> j < length h -> swap h i j !! i = h !! j.
  Proof.
    intros [a Ha]%lookup_lt_is_Some [b Hb]%lookup_lt_is_Some.
    unfold swap. rewrite Ha, Hb. rewrite list_lookup_insert; [done|].
    rewrite insert_length. by eapply lookup_lt_Some.
  Qed.
  Lemma swap_lookup_r h i j : i < length h -> j < length h -> swap h i j !! j = h !! i.
  Proof.
    intros Hi Hj. pose proof Hi as [a Ha]%lookup_lt_is_Some.
    pose proof Hj as [b Hb]%lookup_lt_is_Some. unfold swap. rewrite Ha, Hb.
    destruct (decide (i = j)) as [->|Hne].
    - rewrite list_lookup_insert; [congruence|]. by rewrite insert_length.
    - rewrite list_lookup_insert_ne by done. by rewrite list_lookup_insert.
  Qed.
  Lemma swap_lookup_ne h i j k : k <> i -> k <> j -> swap h i j !! k = h !! k.
  Proof.
    intros Hi Hj. unfold swap. destruct (h !! i), (h !! j); try done.
    by rewrite !list_lookup_insert_ne.
  Qed.

  Lemma insert_perm (h : list A) i a x :
    h !! i = Some a -> exists rest, h ≡ₚ a :: rest /\ <[i := x]> h ≡ₚ x :: rest.
  Proof.
    intros Ha. pose proof (lookup_lt_Some _ _ _ Ha) as Hl.
    exists (take i h ++ drop (S i) h). split.
    - rewrite <- (take_drop_middle h i a Ha) at 1. by rewrite Permutation_middle.
    - rewrite insert_take_drop by done. by rewrite Permutation_middle.
  Qed.

  Lemma swap_perm h i j : swap h i j ≡ₚ h.
  Proof.
    unfold swap. destruct (h !! i) as [a|] eqn:Ha; [|done].
    destruct (h !! j) as [b|] eqn:Hb; [|done].
    destruct (decide (i = j)) as [->|Hne].
    { rewrite Ha in Hb. injection Hb as <-.
      rewrite (list_insert_id h j a) by done. by rewrite list_insert_id. }
    destruct (insert_perm h j b a Hb) as (r1 & P1 & P2).
    assert (Hi : <[j:=a]> h !! i = Some a) by (by rewrite list_lookup_insert_ne).
    destruct (insert_perm _ i a b Hi) as (r2 & P3 & P4).
    rewrite P4, P1. f_equiv. rewrite P3 in P2. by apply Permutation_cons_inv in P2.
  Qed.

  (** ** less_at *)
  Lemma less_at_cong h h' i j i' j' :
    h !! i = h' !! i' -> h !! j = h' !! j' -> less_at h i j = less_at h' i' j'.
  Proof. intros H1 H2. unfold Heap_Model.less_at. by rewrite H1, H2. Qed.

  Lemma less_at_asym h i j : less_at h i j = true -> less_at h j i = false.
  Proof.
    unfold Heap_Model.less_at. destruct (h !! i), (h !! j); try done. apply (wo_asym _ W).
  Qed.
  Lemma less_at_trans h i j k :
    j < length h -> less_at h j i = false -> less_at h k j = false -> less_at h k i = false.
  Proof.
    intros [b Hb]%lookup_lt_is_Some. unfold Heap_Model.less_at. rewrite Hb.
    destruct (h !! i), (h !! k); try done. apply (wo_trans _ W).
  Qed.

  (** ** Heap order *)
  Definition heap_from (lo n : nat) (h : list A) : Prop :=
    forall k, 0 < k -> k < n -> lo <= par k -> less_at h k (par k) = false.
  Definition is_heap (h : list A) : Prop := heap_from 0 (length h) h.

  Lemma heap_root n h : n <= length h -> heap_from 0 n h ->
    forall k, k < n -> less_at h k 0 = false.
  Proof.
    intros Hn Hh k. induction k as [k IH] using lt_wf_ind. intros Hk.
    destruct (decide (k = 0)) as [->|].
    - unfold Heap_Model.less_at. destruct (h !! 0); [apply less_irr|done].
    - assert (Hp : par k < k) by (unfold par; lia).
      apply less_at_trans with (par k); [lia|apply IH; lia|apply Hh; lia].
  Qed.

  (** ** down *)
  Record down_inv (lo n i : nat) (h : list A) : Prop := {
    di_ok : forall k, 0 < k -> k < n -> lo <= par k -> par k <> i -> less_at h k (par k) = false;
    di_gp : forall k, 0 < k -> k < n -> par k = i -> 0 < i -> lo <= par i ->
            less_at h k (par i) = false }.

  (** One exchange with the smallest child. *)
  Lemma down_step lo n i j h :
    n <= length h -> j < n -> 0 < j -> par j = i ->
    (forall k, 0 < k -> k < n -> par k = i -> less_at h k j = false) ->
    less_at h j i = true ->
    (forall k, 0 < k -> k < n -> lo <= par k -> par k <> i -> k <> i -> less_at h k (par k) = false) ->
    (0 < i -> lo <= par i -> less_at h j (par i) = false) ->
    lo <= i ->
    down_inv lo n j (swap h i j).
  Proof.
    intros Hn Hj Hj0 Hp Hmin Hlt Hok Hgp Hlo.
    assert (Hij : i < j) by (unfold par in Hp; lia).
    assert (Hi : i < length h) by lia. assert (Hjl : j < length h) by lia.
    split.
    - intros k Hk0 Hk Hlok Hpk.
      assert (Hpkk : par k < k) by (unfold par; lia).
      destruct (decide (k = j)) as [->|Hkj].
      { rewrite (less_at_cong _ h j (par j) i j).
        - by apply less_at_asym.
        - by apply swap_lookup_r.
        - rewrite Hp. by apply swap_lookup_l. }
      destruct (decide (par k = i)) as [Hpi|Hpi].
      { rewrite (less_at_cong _ h k (par k) k j).
        - by apply Hmin.
        - apply swap_lookup_ne; lia.
        - rewrite Hpi. by apply swap_lookup_l. }
      destruct (decide (k = i)) as [->|Hki].
      { rewrite (less_at_cong _ h i (par i) j (par i)).
        - apply Hgp; lia.
        - by apply swap_lookup_l.
        - apply swap_lookup_ne; lia. }
      rewrite (less_at_cong _ h k (par k) k (par k)).
      + by apply Hok.
      + by apply swap_lookup_ne.
      + by apply swap_lookup_ne.
    - intros k Hk0 Hk Hpk Hj' Hlop.
      rewrite Hp. assert (Hpkk : par k < k) by (unfold par; lia).
      rewrite (less_at_cong _ h k i k j).
      + rewrite <- Hpk. apply Hok; lia.
      + apply swap_lookup_ne; lia.
      + by apply swap_lookup_l.
  Qed.

  (** The child chosen by the loop is the smallest one. *)
  Lemma chosen_child h i n :
    let j1 := 2 * i + 1 in
    let j := if (j1 + 1 <? n) && less_at h (j1 + 1) j1 then j1 + 1 else j1 in
    j1 < n -> n <= length h ->
    j < n /\ 0 < j /\ par j = i /\
    (forall k, 0 < k -> k < n -> par k = i -> less_at h k j = false).
  Proof.
    intros j1 j Hj1 Hn.
    assert (Hcase : forall k, 0 < k -> k < n -> par k = i -> k = j1 \/ k = j1 + 1).
    { intros k. unfold par, j1. lia. }
    assert (Hirr : forall k, less_at h k k = false).
    { intros k. unfold Heap_Model.less_at. destruct (h !! k); [apply less_irr|done]. }
    unfold j. destruct ((j1 + 1 <? n) && less_at h (j1 + 1) j1) eqn:E.
    - apply andb_true_iff in E as [E1 E2]. split_and!; [lia|lia|unfold par, j1; lia|].
      intros k H1 H2 H3. destruct (Hcase k H1 H2 H3) as [-> | ->]; [|done].
      by apply less_at_asym.
    - split_and!; [lia|unfold j1; lia|unfold par, j1; lia|].
      intros k H1 H2 H3. destruct (Hcase k H1 H2 H3) as [-> | ->]; [done|].
      apply andb_false_iff in E as [E|E]; [lia|done].
  Qed.

  Lemma down_stop lo n i h :
    down_inv lo n i h ->
    (forall k, 0 < k -> k < n -> par k = i -> less_at h k i = false) ->
    heap_from lo n h.
  Proof.
    intros [H1 H2] H k Hk0 Hk Hlo. destruct (decide (par k = i)) as [<-|]; [by apply H|by apply H1].
  Qed.

  Lemma down_heap fuel : forall lo n i h h' i',
    n <= length h -> n - i <= fuel -> lo <= i ->
    down_inv lo n i h -> down fuel h i n = (h', i') -> heap_from lo n h'.
  Proof.
    induction fuel as [|f IH]; intros lo n i h h' i' Hn Hf Hlo Hi Hd; cbn [Heap_Model.down] in Hd.
    - injection Hd as <- <-. eapply down_stop; [done|]. intros k. unfold par. lia.
    - destruct (n <=? 2 * i + 1) eqn:E.
      { injection Hd as <- <-. eapply down_stop; [done|]. intros k. unfold par. lia. }
      apply Nat.leb_gt in E.
      destruct (chosen_child h i n E Hn) as (C1 & C2 & C3 & C4).
      set (j := if _ && _ then _ else _) in *.
      destruct (less_at h j i) eqn:El; cbn [negb] in Hd.
      + eapply IH; [| | | |exact Hd].
        * by rewrite swap_length.
        * unfold par in C3. lia.
        * unfold par in C3. lia.
        * destruct Hi as [D1 D2]. apply down_step with (lo := lo); try done.
          { intros k K1 K2 K3 K4 K5. by apply D1. }
          { intros Hi0 Hlp. by apply D2. }
      + injection Hd as <- <-. eapply down_stop; [done|].
        intros k K1 K2 K3. apply less_at_trans with j; [lia|done|by apply C4].
  Qed.

  Lemma down_facts fuel : forall i n h h' i',
    n <= length h -> down fuel h i n = (h', i') ->
    h' ≡ₚ h /\ i <= i' /\ (forall k, k < i \/ n <= k -> i < n -> h' !! k = h !! k).
  Proof.
    induction fuel as [|f IH]; intros i n h h' i' Hn Hd; cbn [Heap_Model.down] in Hd.
    - injection Hd as <- <-. done.
    - destruct (n <=? 2 * i + 1) eqn:E.
      { by injection Hd as <- <-. }
      apply Nat.leb_gt in E.
      destruct (chosen_child h i n E Hn) as (C1 & C2 & C3 & C4).
      set (j := if _ && _ then _ else _) in *.
      destruct (less_at h j i) eqn:El; cbn [negb] in Hd.
      + apply IH in Hd as (P & Hle & Hk); [|by rewrite swap_length].
        assert (i < j) by (unfold par in C3; lia).
        split_and!.
        * by rewrite P, swap_perm.
        * lia.
        * intros k Hk1 Hk2. rewrite Hk by lia. apply swap_lookup_ne; lia.
      + by injection Hd as <- <-.
  Qed.

  (** ** up *)
  Record up_inv (j : nat) (h : list A) : Prop := {
    ui_ok : forall k, 0 < k -> k < length h -> k <> j -> less_at h k (par k) = false;
    ui_gp : forall k, 0 < k -> k < length h -> par k = j -> 0 < j ->
            less_at h k (par j) = false }.

  Lemma up_heap fuel : forall j h,
    j < fuel -> j < length h -> up_inv j h -> is_heap (up fuel h j).
  Proof.
    induction fuel as [|f IH]; intros j h Hf Hj [U1 U2]; [lia|]. cbn [Heap_Model.up].
    change ((j - 1) / 2) with (par j).
    destruct (par j =? j) eqn:E1; cbn [orb].
    { apply Nat.eqb_eq in E1. assert (j = 0) as -> by (unfold par in E1; lia).
      intros k K1 K2 _. apply U1; lia. }
    apply Nat.eqb_neq in E1. assert (Hj0 : 0 < j).
    { destruct (decide (j = 0)) as [->|]; [done|lia]. }
    assert (Hpj : par j < j) by (unfold par; lia).
    destruct (less_at h j (par j)) eqn:E2; cbn [negb].
    - apply IH; [lia|rewrite swap_length; lia|]. split.
      + intros k K1 K2 K3. rewrite swap_length in K2.
        assert (Hpk : par k < k) by (unfold par; lia).
        destruct (decide (k = j)) as [->|Hkj].
        { rewrite (less_at_cong _ h j (par j) (par j) j).
          - by apply less_at_asym.
          - apply swap_lookup_r; lia.
          - apply swap_lookup_l; lia. }
        destruct (decide (par k = j)) as [Hpkj|].
        { rewrite (less_at_cong _ h k (par k) k (par j)).
          - apply U2; lia.
          - apply swap_lookup_ne; lia.
          - rewrite Hpkj. apply swap_lookup_r; lia. }
        destruct (decide (par k = par j)) as [Hpp|].
        { rewrite (less_at_cong _ h k (par k) k j).
          - apply less_at_trans with (par j); [lia| |].
            + by apply less_at_asym.
            + rewrite <- Hpp. apply U1; lia.
          - apply swap_lookup_ne; lia.
          - rewrite Hpp. apply swap_lookup_l; lia. }
        rewrite (less_at_cong _ h k (par k) k (par k)).
        * apply U1; lia.
        * by apply swap_lookup_ne.
        * by apply swap_lookup_ne.
      + intros k K1 K2 K3 K4. rewrite swap_length in K2.
        assert (Hpk : par k < k) by (unfold par; lia).
        assert (Hpp : par (par j) < par j) by (unfold par in *; lia).
        assert (Hpjp : less_at h (par j) (par (par j)) = false) by (apply U1; lia).
        destruct (decide (k = j)) as [->|Hkj].
        { rewrite (less_at_cong _ h j (par (par j)) (par j) (par (par j))); [done| |].
          - apply swap_lookup_r; lia.
          - apply swap_lookup_ne; lia. }
        rewrite (less_at_cong _ h k (par (par j)) k (par (par j))).
        * apply less_at_trans with (par j); [lia|done|].
          rewrite <- K3. apply U1; lia.
        * apply swap_lookup_ne; lia.
        * apply swap_lookup_ne; lia.
    - intros k K1 K2 _. destruct (decide (k = j)) as [->|]; [done|by apply U1].
  Qed.

  Lemma up_perm fuel : forall j h, up fuel h j ≡ₚ h.
  Proof.
    induction fuel as [|f IH]; intros j h; cbn [Heap_Model.up]; [done|].
    destruct (_ || _); [done|]. by rewrite IH, swap_perm.
  Qed.

  (** ** The operations *)
  Lemma init_loop_heap k : forall h, k <= length h ->
    heap_from k (length h) h -> is_heap (init_loop less k h) /\ init_loop less k h ≡ₚ h.
  Proof.
    induction k as [|i IH]; intros h Hk Hh; cbn [init_loop]; [done|].
    destruct (down (length h) h i (length h)) as [h' i'] eqn:E. cbn [fst].
    destruct (down_facts _ _ _ _ _ _ (le_n _) E) as (P & _ & _).
    assert (Hl : length h' = length h) by (by apply Permutation_length).
    destruct (IH h') as (H1 & H2).
    - lia.
    - rewrite Hl. eapply down_heap; [| | | |exact E]; [done|lia|done|]. split.
      + intros k K1 K2 K3 K4. apply Hh; lia.
      + intros k K1 K2 K3 K4 K5. assert (par i < i) by (unfold par; lia). lia.
    - split; [done|]. by rewrite H2, P.
  Qed.

  Lemma pq_init_ok h : is_heap (pq_init less h) /\ pq_init less h ≡ₚ h.
  Proof.
    unfold pq_init. apply init_loop_heap; [lia|].
    intros k K1 K2 K3. unfold par in K3. lia.
  Qed.

  Lemma push_ok h x : is_heap h -> is_heap (push less h x) /\ push less h x ≡ₚ x :: h.
  Proof.
    intros Hh. unfold push. set (g := h ++ [x]).
    assert (Hlen : length g = S (length h)) by (unfold g; rewrite app_length; simpl; lia).
    split.
    - apply up_heap; [lia|lia|]. split.
      + intros k K1 K2 K3. assert (par k < k) by (unfold par; lia).
        rewrite (less_at_cong _ h k (par k) k (par k)).
        * apply Hh; lia.
        * unfold g. apply lookup_app_l. lia.
        * unfold g. apply lookup_app_l. lia.
      + intros k K1 K2 K3 K4. unfold par in K3. lia.
    - rewrite up_perm. unfold g. by rewrite Permutation_app_comm.
  Qed.

  Lemma pop_ok h x h' : is_heap h -> pop less h = Some (x, h') ->
    is_heap h' /\ h ≡ₚ x :: h' /\ is_min less x h.
  Proof.
    intros Hh Hp. unfold pop in Hp. destruct (length h) as [|n] eqn:El; [done|].
    set (g := swap h 0 n) in *.
    assert (Hgl : length g = S n) by (unfold g; by rewrite swap_length).
    destruct (down n g 0 n) as [h1 i1] eqn:Ed. cbn [fst] in Hp.
    assert (Hroot : forall k, k < S n -> less_at h k 0 = false).
    { intros k Hk. rewrite <- El in Hk. eapply heap_root; [|exact Hh|done]. lia. }
    destruct (down_facts n 0 n g h1 i1) as (P & _ & Hkeep); [lia|done|].
    assert (Hl1 : length h1 = S n) by (rewrite <- Hgl; by apply Permutation_length).
    destruct (h1 !! n) as [item|] eqn:Ei; [|done]. injection Hp as -> <-.
    assert (Hx : h !! 0 = Some x).
    { destruct (decide (0 < n)) as [Hn|Hn].
      - rewrite Hkeep in Ei by lia. rewrite <- Ei. symmetry. unfold g.
        apply swap_lookup_r; lia.
      - assert (n = 0) as -> by lia. cbn in Ed. injection Ed as <- <-.
        unfold g in Ei. rewrite swap_lookup_l in Ei by lia. done. }
    split_and!.
    - assert (Hheap : heap_from 0 n h1).
      { eapply down_heap; [| | | |exact Ed]; [lia|lia|lia|]. split; [|lia].
        intros k K1 K2 _ K4. assert (par k < k) by (unfold par; lia).
        rewrite (less_at_cong _ h k (par k) k (par k)).
        - apply Hh; lia.
        - apply swap_lookup_ne; lia.
        - apply swap_lookup_ne; lia. }
      intros k K1 K2 _. rewrite take_length in K2.
      assert (par k < k) by (unfold par; lia).
      rewrite (less_at_cong _ h1 k (par k) k (par k)).
      + apply Hheap; lia.
      + apply lookup_take. lia.
      + apply lookup_take. lia.
    - assert (h1 ≡ₚ h) as P1 by (rewrite P; apply swap_perm).
      rewrite <- P1. rewrite <- (take_drop_middle h1 n x Ei) at 1.
      rewrite (drop_ge h1 (S n)) by lia. by rewrite <- Permutation_cons_append.
    - split.
      + apply elem_of_list_In. by eapply elem_of_list_lookup_2.
      + intros y Hy%elem_of_list_In. apply elem_of_list_lookup in Hy as [k Hk].
        pose proof (lookup_lt_Some _ _ _ Hk) as Hkl. rewrite El in Hkl.
        specialize (Hroot k Hkl). unfold Heap_Model.less_at in Hroot.
        by rewrite Hk, Hx in Hroot.
  Qed.

  Lemma pop_none h : pop less h = None -> h = [].
  Proof.
    unfold pop. destruct (length h) as [|n] eqn:El.
    { intros _. by apply nil_length_inv. }
    destruct (down n (swap h 0 n) 0 n) as [h1 i1] eqn:Ed. cbn [fst].
    destruct (down_facts n 0 n (swap h 0 n) h1 i1) as (P & _);
      [rewrite swap_length; lia|done|].
    apply Permutation_length in P. rewrite swap_length in P.
    assert (is_Some (h1 !! n)) as [y ->] by (apply lookup_lt_is_Some; lia). done.
  Qed.

  Lemma fix_ok h i x : is_heap h -> i < length h ->
    is_heap (fix_at less (<[i:=x]> h) i) /\ fix_at less (<[i:=x]> h) i ≡ₚ <[i:=x]> h.
  Proof.
    intros Hh Hi. set (g := <[i:=x]> h).
    assert (Hgl : length g = length h) by apply insert_length.
    assert (Hok : forall k, 0 < k -> k < length g -> par k <> i -> k <> i ->
              less_at g k (par k) = false).
    { intros k K1 K2 K3 K4. rewrite (less_at_cong _ h k (par k) k (par k)).
      - apply Hh; lia.
      - by apply list_lookup_insert_ne.
      - by apply list_lookup_insert_ne. }
    assert (Hgp : forall k, 0 < k -> k < length g -> par k = i -> 0 < i ->
              less_at g k (par i) = false).
    { intros k K1 K2 K3 K4. assert (par i < i) by (unfold par; lia).
      assert (par k < k) by (unfold par; lia).
      rewrite (less_at_cong _ h k (par i) k (par i)).
      - apply less_at_trans with i; [lia|apply Hh; lia|]. rewrite <- K3. apply Hh; lia.
      - apply list_lookup_insert_ne. lia.
      - apply list_lookup_insert_ne. lia. }
    unfold fix_at. rewrite Hgl.
    destruct (down (length h) g i (length h)) as [h' i'] eqn:Ed.
    destruct (down_facts (length h) i (length h) g h' i') as (P & Hle & _); [lia|done|].
    split; [|destruct (i <? i'); [done|by rewrite up_perm]].
    destruct (length h) as [|n] eqn:El; [lia|]. cbn [Heap_Model.down] in Ed.
    destruct (S n <=? 2 * i + 1) eqn:E.
    { injection Ed as <- <-. rewrite Nat.ltb_irrefl. apply up_heap; [lia|lia|]. split.
      - intros k K1 K2 K3. apply Hok; try done. unfold par. lia.
      - done. }
    apply Nat.leb_gt in E.
    destruct (chosen_child g i (S n) E ltac:(lia)) as (C1 & C2 & C3 & C4).
    set (j := if _ && _ then _ else _) in *.
    assert (i < j) by (unfold par in C3; lia).
    destruct (less_at g j i) eqn:Elt; cbn [negb] in Ed.
    - assert (Hinv : down_inv 0 (S n) j (swap g i j)).
      { apply down_step; try done; try lia.
        - intros k K1 K2 _ K3 K4. apply Hok; lia.
        - intros Hi0 _. apply Hgp; lia. }
      destruct (down_facts n j (S n) (swap g i j) h' i') as (P2 & Hle2 & _);
        [rewrite swap_length; lia|done|].
      rewrite (proj2 (Nat.ltb_lt i i')) by lia.
      assert (heap_from 0 (S n) h').
      { eapply down_heap; [| | | |exact Ed]; [rewrite swap_length; lia|lia|lia|done]. }
      assert (length h' = S n) as Hl'.
      { apply Permutation_length in P2. rewrite swap_length in P2. lia. }
      unfold is_heap. by rewrite Hl'.
    - injection Ed as <- <-. rewrite Nat.ltb_irrefl. apply up_heap; [lia|lia|]. split.
      + intros k K1 K2 K3. destruct (decide (par k = i)) as [Hpk|]; [|by apply Hok].
        rewrite Hpk. apply less_at_trans with j; [lia|done|]. apply C4; lia.
      + done.
  Qed.

  Lemma root_min h x : is_heap h -> h !! 0 = Some x -> is_min less x h.
  Proof.
    intros Hh Hx. split.
    - apply elem_of_list_In. by eapply elem_of_list_lookup_2.
    - intros y Hy%elem_of_list_In. apply elem_of_list_lookup in Hy as [k Hk].
      pose proof (lookup_lt_Some _ _ _ Hk) as Hkl.
      pose proof (heap_root _ _ (le_n _) Hh k Hkl) as Hr. unfold Heap_Model.less_at in Hr.
      by rewrite Hk, Hx in Hr.
  Qed.

  Lemma pq_exec_ok h o h' r :
    is_heap h -> pq_exec less h o = (h', r) -> is_heap h' /\ pq_step less h o r h'.
  Proof.
    intros Hh He. destruct o as [x| | |i x]; cbn [pq_exec] in He.
    - injection He as <- <-. destruct (push_ok h x Hh) as [H1 H2].
      split; [done|by constructor].
    - destruct (pop less h) as [[x g]|] eqn:E; injection He as <- <-.
      + destruct (pop_ok _ _ _ Hh E) as (H1 & H2 & H3). split; [done|by constructor].
      + split; [done|]. apply pop_none in E as ->. constructor.
    - destruct (h !! 0) as [x|] eqn:E; injection He as <- <-.
      + split; [done|]. constructor; [by apply root_min|done].
      + split; [done|]. destruct h; [constructor|done].
    - destruct (h !! i) as [old|] eqn:E; injection He as <- <-.
      + pose proof (lookup_lt_Some _ _ _ E) as Hl.
        destruct (fix_ok h i x Hh Hl) as [H1 H2]. split; [done|].
        destruct (insert_perm h i old x E) as (rest & P1 & P2).
        econstructor; [done| |exact P1|].
        * intros ->. by apply root_min.
        * by rewrite H2.
      + split; [done|]. constructor. by apply lookup_ge_None.
  Qed.

  Lemma pq_run_ok : forall os h h' rs,
    is_heap h -> pq_run less h os = (h', rs) -> is_heap h' /\ pq_steps less h os rs h'.
  Proof.
    induction os as [|o os IH]; intros h h' rs Hh Hr; cbn [pq_run] in Hr.
    - injection Hr as <- <-. split; [done|constructor].
    - destruct (pq_exec less h o) as [h1 r] eqn:E.
      destruct (pq_exec_ok _ _ _ _ Hh E) as [H1 H2].
      destruct r as [|y|].
      + destruct (pq_run less h1 os) as [h2 rs'] eqn:E2. injection Hr as <- <-.
        destruct (IH _ _ _ H1 E2) as [H3 H4]. split; [done|]. by econstructor.
      + destruct (pq_run less h1 os) as [h2 rs'] eqn:E2. injection Hr as <- <-.
        destruct (IH _ _ _ H1 E2) as [H3 H4]. split; [done|]. by econstructor.
      + injection Hr as <- <-. split; [done|]. by constructor.
  Qed.

  Lemma pop_all_sorted fuel : forall h, is_heap h -> length h <= fuel ->
    pop_all less fuel h ≡ₚ h /\
    StronglySorted (fun a b => less b a = false) (pop_all less fuel h).
  Proof.
    induction fuel as [|f IH]; intros h Hh Hl; cbn [pop_all].
    - destruct h; simpl in Hl; [|lia]. split; [done|constructor].
    - destruct (pop less h) as [[x g]|] eqn:E.
      + destruct (pop_ok _ _ _ Hh E) as (H1 & H2 & H3).
        pose proof (Permutation_length H2) as Hpl. simpl in Hpl.
        destruct (IH g H1 ltac:(lia)) as [I1 I2]. split.
        * by rewrite I1, H2.
        * constructor; [done|]. apply Forall_forall. intros y Hy.
          apply H3. apply elem_of_list_In. rewrite H2. right. rewrite <- I1. by apply elem_of_list_In.
      + apply pop_none in E as ->. split; [done|constructor].
  Qed.
End proofs.

(** ** Binary search *)
Lemma bsearch_loop_ok fuel : forall cmp i j n,
  (forall a b, a <= b -> b < n -> (cmp b < 0)%Z -> (cmp a < 0)%Z) ->
  i <= j -> j <= n -> j - i <= fuel ->
  (forall k, k < i -> (cmp k < 0)%Z) -> (forall k, j <= k -> k < n -> (0 <= cmp k)%Z) ->
  let r := bsearch_loop fuel cmp i j in
  r <= n /\ (forall k, k < r -> (cmp k < 0)%Z) /\ (forall k, r <= k -> k < n -> (0 <= cmp k)%Z).
Proof.
  induction fuel as [|f IH]; intros cmp i j n Hm Hij Hjn Hf H1 H2; cbn [bsearch_loop].
  - assert (i = j) as -> by lia. done.
  - destruct (i <? j) eqn:E.
    + apply Nat.ltb_lt in E. set (h := (i + j) / 2) in *.
      assert (i <= h /\ h < j) by (unfold h; lia).
      destruct (cmp h <? 0)%Z eqn:Eh.
      * apply IH with (n := n); try done; try lia.
        intros k Hk. destruct (decide (k = h)) as [->|]; [lia|]. apply Hm with h; lia.
      * apply IH with (n := n); try done; try lia.
        intros k Hk1 Hk2. destruct (decide (cmp k < 0)%Z) as [Hc|]; [|lia].
        apply Hm with (a := h) in Hc; lia.
    + assert (i = j) as -> by lia. done.
Qed.

Lemma bsearch_ok n cmp r found :
  (forall a b, a <= b -> b < n -> (cmp b < 0)%Z -> (cmp a < 0)%Z) ->
  bsearch n cmp = (r, found) ->
  r <= n /\ (forall k, k < r -> (cmp k < 0)%Z) /\
  (forall k, r <= k -> k < n -> (0 <= cmp k)%Z) /\
  (found = true <-> r < n /\ cmp r = 0%Z).
Proof.
  intros Hm Hb. unfold bsearch in Hb. injection Hb as Hr Hf.
  destruct (bsearch_loop_ok n cmp 0 n n) as (B1 & B2 & B3); try done; try lia.
  rewrite Hr in *. split_and!; [done|done|done|]. rewrite <- Hf.
  rewrite andb_true_iff, Nat.ltb_lt, Z.eqb_eq. done.
Qed.
