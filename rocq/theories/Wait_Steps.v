(** Every step of the wait-count colouring keeps the invariant. *)
From Verif Require Import Base Bitmap_Spec Bitmap_Model Bitmap_Proofs Vertex_Model Engine_Spec Engine_Model Engine_Proofs Engine_Shape Engine_Told
  Colour_Spec Colour_Model Colour_Best Colour_Proofs Colour_Run Wait_Spec Wait_Model Wait_Proofs.
Open Scope nat_scope.

Section steps.
Context (owner : nat -> nat) (n : nat) (Hown : forall v, owner v < n).
Context (es : nat -> list (nat * nat)) (b : nat -> nat) (HU : slots_unique es) (HB : balanced es).
Context (Hpos : forall u v p, (v, p) ∈ es u -> p < b v) (Hsize : forall v, (N.of_nat (b v) < 2 ^ 31 - 1)%N).
Notation est := (est waiting).
Notation colr s v := (fst (prop s v)).
Notation winv := (winv owner n es b).
Notation pend := (pend owner).
Notation cnt := (cnt owner es).

Lemma slot_fun u u' v p : (v, p) ∈ es u -> (v, p) ∈ es u' -> u = u'.
Proof.
  intros H1 H2. apply elem_of_list_lookup in H1, H2. destruct H1 as [i H1], H2 as [j H2]. by destruct (HU u u' i j (v, p) H1 H2).
Qed.
Lemma higher_le v : length (higher es v) <= b v.
Proof.
  assert (Hd : NoDup (map snd (higher es v))).
  { pose proof (higher_NoDup es HU v) as Hd. assert (Hs : forall x y, x ∈ higher es v -> y ∈ higher es v -> snd x = snd y -> x = y).
    { intros [u p] [u' p'] H1 H2 E. cbn in E. subst. apply (higher_ne es HB) in H1, H2. destruct H1 as [H1 _], H2 as [H2 _].
      f_equal. by eapply slot_fun. }
    revert Hd Hs. generalize (higher es v). intros l. induction l as [|x l IH]; intros Hd Hs; cbn; [constructor|].
    apply list.NoDup_cons in Hd. destruct Hd as [Hx Hd]. apply list.NoDup_cons. split.
    - intros H. apply elem_of_list_fmap in H. destruct H as (y & E & Hy). apply Hx.
      rewrite (Hs x y); [done|apply elem_of_list_here|by apply elem_of_list_further|done].
    - apply IH; [done|]. intros y z Hy Hz. apply Hs; by apply elem_of_list_further. }
  apply NoDup_ListNoDup in Hd. assert (Hi : incl (map snd (higher es v)) (seq 0 (b v))).
  { intros p Hp. apply in_map_iff in Hp. destruct Hp as ([u q] & <- & Hin). apply elem_of_list_In, (higher_ne es HB) in Hin.
    apply in_seq. cbn. destruct Hin as [Hin _]. pose proof (Hpos _ _ _ Hin). lia. }
  pose proof (NoDup_incl_length Hd Hi) as H. by rewrite map_length, seq_length in H.
Qed.
Lemma cnt_le s v : cnt s v <= b v.
Proof.
  etransitivity; [|apply higher_le]. unfold cnt. induction (higher es v) as [|x l IH]; cbn; [done|]. destruct (undone owner s v x); cbn; lia.
Qed.

(** The message at the head of what a thread does. *)
Lemma pend_head s s' t u v (m : wmsg) rest l0 : todo s t = Merge (a := waiting) u v m :: rest -> owner u = t ->
  todo s' = upd (todo s) t (l0 ++ rest) -> (forall u v p, omap (slot_msg u v p) l0 = []) ->
  pend s u v (m_pos m) = m :: pend s' u v (m_pos m) /\
  forall u' v' p', (u', v', p') <> (u, v, m_pos m) -> pend s' u' v' p' = pend s u' v' p'.
Proof.
  intros Et Eu Et' Hl. unfold pend. split.
  - rewrite Eu, Et', Et. us. rewrite omap_app, Hl. cbn [omap list_omap]. by rewrite slot_msg_same.
  - intros u' v' p' Hne. rewrite Et'. destruct (decide (owner u' = t)) as [E|E]; us; [|done]. rewrite E, upd_eq, Et, omap_app, Hl.
    cbn [omap list_omap]. by rewrite slot_msg_other by congruence.
Qed.

(** Only one slot changes. *)
Lemma others s s' u v p : winv s -> (forall v, prop s' v = prop s v) -> (v, p) ∈ es u ->
  (forall u' v' p', (u', v', p') <> (u, v, p) -> pend s' u' v' p' = pend s u' v' p') ->
  (forall p', p' <> p -> box s' v !! S p' = box s v !! S p') -> cnt s' v <= cnt s v ->
  forall u' p', (u', p') ∈ higher es v -> (u', p') <> (u, p) -> slot_ok owner es s' u' v p'.
Proof.
  intros Hs Ep Hin Hpe Hb Hc u' p' H Hne. destruct (v_slot _ _ _ _ _ Hs u' v p' H) as (c & r & H1 & H2 & H3 & H4).
  assert (p' <> p). { intros ->. apply Hne. f_equal. apply (higher_ne es HB) in H. destruct H as [H _]. by eapply slot_fun. }
  exists c, r. rewrite Hb, Ep, Hpe by (try congruence; done). split_and!; try done. intros E. destruct (H3 E) as [? Hz0]. split; [done|]. lia.
Qed.

Lemma w32_val : w32 = 4294967296%N. Proof. reflexivity. Qed.

Lemma step_merge s t u v (m : wmsg) rest : winv s -> todo s t = Merge (a := waiting) u v m :: rest ->
  let s' := exec_op waiting owner s t (Merge (a := waiting) u v m) rest in
  shaped waiting owner s' -> wake waiting owner n s' -> told_first waiting s' ->
  updated waiting owner (fun p => fst p <> EMPTY_VAL) s' -> winv s'.
Proof.
  intros Hs Et s' B1 B2 B3 B4. subst s'. cbn [exec_op] in *.
  destruct (v_ops _ _ _ _ _ Hs t (Merge (a := waiting) u v m)) as [Eu Hin]; [rewrite Et; apply elem_of_list_here|].
  pose proof (v_count _ _ _ _ _ Hs v) as (w & r0 & Hw & Hwc).
  destruct (merge waiting m u v (box s v)) as [b' new] eqn:Em. cbn [merge waiting] in Em. unfold wait_merge in Em. change (cell_t waiting) with cell in *.
  assert (Hnew : forall u0 v0 p, omap (slot_msg u0 v0 p) (if new then [Cas (a := waiting) v] else []) = []) by (by destruct new).
  assert (El : (if new then Cas (a := waiting) v :: rest else rest) = (if new then [Cas (a := waiting) v] else []) ++ rest) by (by destruct new).
  rewrite El in *. set (s' := Est _ _ _ _ _ _ _ _) in *.
  destruct (pend_head s s' t u v m rest _ Et Eu eq_refl Hnew) as [Hp1 Hp2].
  assert (Hop : forall t o, o ∈ todo s' t -> op_ok owner es t o).
  { intros k o. cbn. destruct (decide (k = t)) as [->|Hk]; us; [|apply (v_ops _ _ _ _ _ Hs)].
    intros [H|H]%elem_of_app; [destruct new; [by apply elem_of_list_singleton in H as ->|by apply elem_of_nil in H]|].
    apply (v_ops _ _ _ _ _ Hs). rewrite Et. by apply elem_of_list_further. }
  assert (Hsc : forall v k i got, todo s' (owner v) = [Scan (a := waiting) v k i got] -> todo s (owner v) = [Scan (a := waiting) v k i got]).
  { intros x k i got. cbn. destruct (decide (owner x = t)) as [Ex|Ex]; us; [|done]. rewrite Ex, upd_eq. intros E. exfalso.
    pose proof (v_shape _ _ _ _ _ Hs t) as Hsh0. rewrite Et in Hsh0. destruct new; [done|]. cbn in E. rewrite E in Hsh0.
    destruct (shape_cons _ _ _ _ _ _ Hsh0) as [(?&?&?&?)|[(?&?&?&?&?)|[(?&?&?&?)|[(?&?&?&?&?&?&?)|[(?&?&?&?)|(y & _ & _ & [(l & z & H & _)|H])]]]]]; try done.
    - destruct l as [|? [|]]; done.
    - by inversion H. }
  assert (Ht1 : forall v, Told v ∈ elog s -> Told v ∈ elog s').
  { intros x H. cbn. destruct new; [apply elem_of_app; by left|done]. }
  assert (Ht2 : forall x, Told x ∈ elog s' -> Told x ∈ elog s \/ x = v /\ new = true).
  { intros x. cbn. destruct new; [|by left]. rewrite elem_of_app, elem_of_list_singleton. intros [H|[= ->]]; [by left|by right]. }
  destruct (Nat.eqb_spec u v) as [->|Hne].
  { (* a loop *)
    rewrite Hw in Em. injection Em as Ebb En. eapply (frame owner n es b HB s); try done.
    - intros x. cbn. unfold upd. destruct (Nat.eqb_spec x v); congruence.
    - apply (v_bm _ _ _ _ _ Hs).
    - intros u' v' p' H. apply Hp2. intros [= -> -> ->]. done.
    - intros x H. destruct (Ht2 x H) as [H'|[-> H']]; [by apply (v_done _ _ _ _ _ Hs)|].
      rewrite <- En in H'. apply N.eqb_eq in H'. destruct Hwc as [E|[E _]]; [lia|]. by rewrite H' in E.
    - intros x k i got H. right. exists k, i. by apply Hsc. }
  set (p := m_pos m) in *. assert (Epos : m_pos m = p) by done. clearbody p.
  destruct (v_pend _ _ _ _ _ Hs u v p Hin Hne) as [(l & Hscr) Hz]. rewrite Hp1 in Hscr, Hz.
  assert (Hcol : colr s u <> EMPTY_VAL) by (intros E; by specialize (Hz E)).
  destruct (box s v !! S p) as [[c r]|] eqn:Hcell.
  2:{ exfalso. apply lookup_ge_None in Hcell. pose proof (v_len _ _ _ _ _ Hs v) as Hlen. pose proof (Hpos _ _ _ Hin) as Hlt.
      change (cell_t waiting) with cell in *. rewrite Hlen in Hcell. clear -Hcell Hlt. lia. }
  rewrite Hw in Em. match type of Em with context [@lookup ?A ?B ?C ?D (S p) (box s v)] => change (@lookup A B C D (S p) (box s v) = Some (c, r)) in Hcell end.
  rewrite Hcell in Em.
  assert (Eok : forall v p c, cell_ok es s v p c -> cell_ok es s' v p c) by done.
  assert (Hoth : (forall p', p' <> p -> box s' v !! S p' = box s v !! S p') -> cnt s' v <= cnt s v ->
    forall u' p', (u', p') ∈ higher es v -> (u', p') <> (u, p) -> slot_ok owner es s' u' v p').
  { intros H1 H2. eapply (others s s' u v p); done. }
  unfold script in Hscr. rewrite (proj2 (Nat.eqb_neq u v) Hne) in Hscr. cbn [orb] in Hscr.
  assert (Hb' : box s' v = b') by (cbn; by us).
  destruct (prio v u) eqn:Epr.
  - (* the target goes first *)
    destruct l as [|? [|]]; [|done..]. injection Hscr as Hm HP'. subst m. injection Em as <- <-.
    assert (Hnh : (u, p) ∉ higher es v).
    { intros H. apply (higher_ne es HB) in H. destruct H as (_ & H & _). rewrite (prio_total u v Hne), Epr in H. done. }
    eapply (local owner n Hown es b s s' u v p); try done.
    + intros x Hx. cbn. by us.
    + intros x H. destruct (Ht2 x H) as [H'|[_ ?]]; [by left|done].
    + rewrite Hb'. by rewrite insert_length.
    + intros Hc. assert (Hbp : forall p', p' <> p -> box s' v !! S p' = box s v !! S p').
      { intros p' Hp'. rewrite Hb'. apply list_lookup_insert_ne. congruence. }
      assert (Ec : cnt s' v = cnt s v).
      { unfold Wait_Proofs.cnt. apply count_ext. intros [u' p'] H. unfold undone. cbn [fst snd]. rewrite Hp2; [done|]. congruence. }
      split_and!.
      * intros u' p' H. apply Hoth; try done. congruence.
      * intros p' c' r' H. destruct (decide (p' = p)) as [->|Hp']; [|rewrite Hbp in H by done; by eapply Eok, (v_cell _ _ _ _ _ Hs)].
        rewrite Hb', list_lookup_insert in H by (apply lookup_lt_is_Some; by eexists). injection H as <- <-.
        right. exists u. rewrite Epr. done.
      * exists w, r0. rewrite Ec, Hb', list_lookup_insert_ne by done. done.
      * intros H1 H2. rewrite Ec in H1. destruct (v_zero _ _ _ _ _ Hs v H1 H2) as [H|(u' & p' & c' & H3 & H4)]; [by left|right].
        exists u', p', c'. split; [done|]. rewrite Hbp; [done|]. intros ->. apply Hnh.
        rewrite <- (slot_fun u u' v p) in H3; [done|done|]. by apply (higher_ne es HB u' v p).
  - (* the sender goes first *)
    assert (Hpr : prio u v = true) by (rewrite (prio_total u v Hne), Epr; done).
    assert (Hh : (u, p) ∈ higher es v) by (by apply in_higher).
    destruct (v_slot _ _ _ _ _ Hs u v p Hh) as (c1 & r1 & Hcell1 & Hs1 & Hs2 & Hs3). assert (Hq : Some (c, r) = Some (c1, r1)) by (rewrite <- Hcell1; symmetry; exact Hcell). injection Hq as <- <-.
    assert (Hlt : S p < length (box s v)) by (apply lookup_lt_is_Some; by eexists).
    assert (Hlt0 : 0 < length (box s v)) by (eapply Nat.lt_trans; [|exact Hlt]; apply Nat.lt_0_succ).
    assert (Hund : forall q, 2 <= length (pend q u v p) -> undone owner q v (u, p) = true).
    { intros q H. unfold undone. cbn [fst snd]. apply orb_true_iff. right. by apply Nat.leb_le. }
    assert (Hc1 : 2 <= length (pend s u v p) -> cnt s v <> 0).
    { intros H E. pose proof (proj1 (cnt_zero owner n Hown es b s v) E u p Hh) as [_ E2]. clear -H E2. lia. }
    assert (Hsame : 2 <= length (pend s' u v p) \/ length (pend s u v p) <= 1 -> cnt s' v = cnt s v).
    { intros Hle. unfold Wait_Proofs.cnt. apply count_ext. intros [u' p'] H. destruct (decide ((u', p') = (u, p))) as [[= -> ->]|Hd].
      - destruct Hle as [Hle|Hle].
        + rewrite (Hund s' Hle). symmetry. apply Hund. rewrite Hp1. clear -Hle. cbn [length]. lia.
        + unfold undone. cbn [fst snd]. f_equal. rewrite Hp1 in Hle |- *. cbn [length] in *.
          destruct (length (pend s' u v p)) as [|[|]]; [done|lia|lia].
      - unfold undone. cbn [fst snd]. rewrite Hp2; [done|]. congruence. }
    assert (Hzero : cnt s v = 0 -> cnt s' v = 0 -> (forall p', p' <> p -> box s' v !! S p' = box s v !! S p') ->
       (r = RZero -> Told v ∈ elog s') -> zero_ok owner es s' v).
    { intros Hc0 _ Hbp Htl H1 H2. destruct (v_zero _ _ _ _ _ Hs v Hc0 H2) as [H|(u' & p' & c' & H3 & H4)]; [left; by apply Ht1|].
      destruct (decide (p' = p)) as [->|Hp'].
      - assert (Hq : Some (c, r) = Some (c', RZero)) by (rewrite <- H4; symmetry; exact Hcell). injection Hq as -> ->. left. by apply Htl.
      - right. exists u', p', c'. split; [done|]. by rewrite Hbp. }
    rewrite <- Hp1 in Hscr.
    destruct m as [c' p0|p0|p0|p0]; cbn [m_pos] in Epos; subst p0.
    + (* store *)
      assert (HP : pend s u v p = [St c' p; Ld p; De p; Fi p] /\ c' = colr s u).
      { rewrite Hp1 in Hscr. destruct l as [|? [|? [|? [|? [|]]]]]; cbn [app] in Hscr; try done. injection Hscr as <- E. split; [|done]. by rewrite Hp1, <- E. }
      destruct HP as [HP ->]. rewrite Hp1 in HP. injection HP as HP'. injection Em as <- <-.
      assert (Hbp : forall p', p' <> p -> box s' v !! S p' = box s v !! S p').
      { intros p' Hp'. rewrite Hb'. apply list_lookup_insert_ne. congruence. }
      assert (Hbs : box s' v !! S p = Some (N.lor (colr s u) MSB, r)) by (rewrite Hb'; by apply list_lookup_insert).
      assert (Ec : cnt s' v = cnt s v) by (apply Hsame; left; rewrite HP'; cbn; lia).
      eapply (local owner n Hown es b s s' u v p); try done.
      * intros x Hx. cbn. by us.
      * intros x H. destruct (Ht2 x H) as [H'|[_ ?]]; [by left|done].
      * rewrite Hb'. by rewrite insert_length.
      * intros Hc. split_and!.
        -- intros u' p' H. destruct (decide ((u', p') = (u, p))) as [[= -> ->]|Hd]; [|by apply Hoth].
           exists (N.lor (colr s u) MSB), r. rewrite HP'. split_and!; try done. intros E. destruct (Hs2 E) as [H0 _]. rewrite Hp1 in H0. done.
        -- intros p' c' r' H. destruct (decide (p' = p)) as [->|Hp']; [|rewrite Hbp in H by done; by eapply Eok, (v_cell _ _ _ _ _ Hs)].
           rewrite Hbs in H. injection H as <- <-. right. exists u. rewrite Epr. done.
        -- exists w, r0. rewrite Ec, Hb', list_lookup_insert_ne by done. done.
        -- intros H1 H2. rewrite Ec in H1. exfalso. apply Hc1; [|done]. rewrite Hp1, HP'. cbn. lia.
    + (* load *)
      assert (HP : pend s u v p = [Ld p; De p; Fi p]).
      { rewrite Hp1 in Hscr |- *. destruct l as [|? [|? [|? [|? [|]]]]]; cbn [app] in Hscr; try done. by injection Hscr as _ <-. }
      rewrite Hp1 in HP. injection HP as HP'. injection Em as <- <-.
      assert (Hpos0 : (0 <? w)%N = true).
      { assert (H : cnt s v <> 0) by (apply Hc1; rewrite Hp1, HP'; cbn; lia). apply N.ltb_lt. destruct Hwc as [->|[-> _]]; [lia|done]. }
      assert (Hbp : forall p', p' <> p -> box s' v !! S p' = box s v !! S p').
      { intros p' Hp'. rewrite Hb'. apply list_lookup_insert_ne. congruence. }
      assert (Hbs : box s' v !! S p = Some (c, RPos)) by (rewrite Hb', Hpos0; by apply list_lookup_insert).
      assert (Ec : cnt s' v = cnt s v) by (apply Hsame; left; rewrite HP'; cbn; lia).
      eapply (local owner n Hown es b s s' u v p); try done.
      * intros x Hx. cbn. by us.
      * intros x H. destruct (Ht2 x H) as [H'|[_ ?]]; [by left|done].
      * rewrite Hb'. by rewrite insert_length.
      * intros Hc. split_and!.
        -- intros u' p' H. destruct (decide ((u', p') = (u, p))) as [[= -> ->]|Hd]; [|by apply Hoth].
           exists c, RPos. rewrite HP'. split_and!; try done. intros _ _. apply Hs1; [done|]. rewrite Hp1, HP'. cbn. lia.
        -- intros p' c' r' H. destruct (decide (p' = p)) as [->|Hp']; [|rewrite Hbp in H by done; by eapply Eok, (v_cell _ _ _ _ _ Hs)].
           rewrite Hbs in H. injection H as <- <-. eapply Eok, (v_cell _ _ _ _ _ Hs v p c r Hcell).
        -- exists w, r0. rewrite Ec, Hb', list_lookup_insert_ne by done. done.
        -- intros H1 H2. rewrite Ec in H1. exfalso. apply Hc1; [|done]. rewrite Hp1, HP'. cbn. lia.
    + (* subtract *)
      assert (HP : pend s u v p = [De p; Fi p]).
      { rewrite Hp1 in Hscr |- *. destruct l as [|? [|? [|? [|? [|]]]]]; cbn [app] in Hscr; try done. by injection Hscr as _ _ <-. }
      pose proof (Hs3 HP) as ->. rewrite Hp1 in HP. injection HP as HP'.
      assert (Ecd : cnt s v = S (cnt s' v)).
      { unfold Wait_Proofs.cnt. apply (count_drop _ _ _ (u, p)); try done.
        - by apply higher_NoDup.
        - apply Hund. rewrite Hp1, HP'. cbn. lia.
        - unfold undone. cbn [fst snd]. rewrite HP'. apply orb_false_iff. split; [by apply N.eqb_neq|done].
        - intros [u' p'] H Hd. unfold undone. cbn [fst snd]. rewrite Hp2; [done|]. congruence. }
      assert (Hw' : ((w + W32_MAX) mod w32 = N.of_nat (cnt s' v))%N).
      { pose proof (cnt_le s' v) as Hle. pose proof (Hsize v) as Hsz. unfold W32_MAX. rewrite w32_val.
        destruct Hwc as [->|[_ E]]; [|lia]. rewrite Ecd. replace (N.of_nat (S (cnt s' v)) + (4294967296 - 1))%N with (N.of_nat (cnt s' v) + 1 * 4294967296)%N by lia.
        rewrite N.mod_add by done. apply N.mod_small. lia. }
      rewrite Hw' in Em. injection Em as Eb <-.
      set (r' := if (N.of_nat (cnt s' v) =? 0)%N then RZero else RNone) in *.
      assert (Hbp : forall p', p' <> p -> box s' v !! S p' = box s v !! S p').
      { intros p' Hp'. rewrite Hb', <- Eb. rewrite !list_lookup_insert_ne by congruence. done. }
      assert (Hbs : box s' v !! S p = Some (c, r')) by (rewrite Hb', <- Eb, list_lookup_insert_ne by done; by apply list_lookup_insert).
      eapply (local owner n Hown es b s s' u v p); try done.
      * intros x Hx. cbn. by us.
      * intros x H. destruct (Ht2 x H) as [H'|[_ ?]]; [by left|done].
      * rewrite Hb', <- Eb. by rewrite !insert_length.
      * intros Hc. split_and!.
        -- intros u' p' H. destruct (decide ((u', p') = (u, p))) as [[= -> ->]|Hd]; [|by apply Hoth].
           exists c, r'. rewrite HP'. split_and!; try done.
           ++ intros _ _. apply Hs1; [done|]. rewrite Hp1, HP'. cbn. lia.
           ++ intros E. split; [done|]. subst r'. destruct (N.eqb_spec (N.of_nat (cnt s' v)) 0); [lia|done].
        -- intros p' c' r'' H. destruct (decide (p' = p)) as [->|Hp']; [|rewrite Hbp in H by done; by eapply Eok, (v_cell _ _ _ _ _ Hs)].
           rewrite Hbs in H. injection H as <- <-. eapply Eok, (v_cell _ _ _ _ _ Hs v p c RPos Hcell).
        -- exists (N.of_nat (cnt s' v)), r0. rewrite Hb', <- Eb, list_lookup_insert by (rewrite insert_length; exact Hlt0). split; [done|by left].
        -- intros H1 H2. right. exists u, p, c. split; [done|]. rewrite Hbs. subst r'. by rewrite H1.
    + (* finish *)
      assert (HP : pend s u v p = [Fi p]).
      { rewrite Hp1 in Hscr |- *. destruct l as [|? [|? [|? [|? [|]]]]]; cbn [app] in Hscr; try done. by injection Hscr as _ _ _ <-. }
      rewrite Hp1 in HP. injection HP as HP'.
      assert (Ec : cnt s' v = cnt s v) by (apply Hsame; right; rewrite Hp1, HP'; cbn; lia).
      assert (Hrd : r = RZero \/ r <> RZero) by (destruct r; [by right|by right|by left]).
      destruct Hrd as [-> |Hr].
      * injection Em as <- <-. destruct (Hs2 eq_refl) as [_ Hc0].
        assert (Hbp : forall p', p' <> p -> box s' v !! S p' = box s v !! S p').
        { intros p' Hp'. rewrite Hb'. rewrite !list_lookup_insert_ne by congruence. done. }
        assert (Hbs : box s' v !! S p = Some (c, RNone)) by (rewrite Hb', list_lookup_insert_ne by done; by apply list_lookup_insert).
        eapply (local owner n Hown es b s s' u v p); try done.
        -- intros x Hx. cbn. by us.
        -- intros x H. destruct (Ht2 x H) as [H'|[-> ?]]; [by left|right]. split; [done|]. by rewrite Ec.
        -- rewrite Hb'. by rewrite !insert_length.
        -- intros Hc. split_and!.
           ++ intros u' p' H. destruct (decide ((u', p') = (u, p))) as [[= -> ->]|Hd]; [|by apply Hoth].
              exists c, RNone. rewrite HP'. split_and!; try done. intros _ _. apply Hs1; [done|]. rewrite Hp1, HP'. cbn. lia.
           ++ intros p' c' r'' H. destruct (decide (p' = p)) as [->|Hp']; [|rewrite Hbp in H by done; by eapply Eok, (v_cell _ _ _ _ _ Hs)].
              rewrite Hbs in H. injection H as <- <-. eapply Eok, (v_cell _ _ _ _ _ Hs v p c RZero Hcell).
           ++ exists W32_MAX, r0. rewrite Hb', list_lookup_insert by (rewrite insert_length; exact Hlt0). split; [done|right]. by rewrite Ec.
           ++ apply Hzero; try done; [by rewrite Ec|]. intros _. cbn. apply elem_of_app. right. by apply elem_of_list_singleton.
      * assert (b' = box s v /\ new = false) as [-> ->] by (destruct r; [by injection Em as <- <-..|done]).
        assert (Hbp : forall p', box s' v !! p' = box s v !! p') by (intros p'; by rewrite Hb').
        eapply (local owner n Hown es b s s' u v p); try done.
        -- intros x Hx. cbn. by us.
        -- intros x H. destruct (Ht2 x H) as [H'|[_ ?]]; [by left|done].
        -- by rewrite Hb'.
        -- intros Hc. split_and!.
           ++ intros u' p' H. destruct (decide ((u', p') = (u, p))) as [[= -> ->]|Hd]; [|by apply Hoth].
              exists c, r. rewrite HP', Hbp. split_and!; try done. intros _ _. apply Hs1; [done|]. rewrite Hp1, HP'. cbn. lia.
           ++ intros p' c' r'' H. rewrite Hbp in H. by eapply Eok, (v_cell _ _ _ _ _ Hs).
           ++ exists w, r0. by rewrite Ec, Hbp.
           ++ intros H1 H2. apply Hzero; try done. by rewrite <- Ec.
Qed.

(** Operations that touch no mailbox. *)
Lemma step_quiet s t o rest l0 s' : winv s -> todo s t = o :: rest -> (forall u v p, slot_msg u v p o = None) ->
  todo s' = upd (todo s) t (l0 ++ rest) -> (forall u v p, omap (slot_msg u v p) l0 = []) -> (forall o, o ∈ l0 -> op_ok owner es t o) ->
  (forall v, box s' v = box s v) -> (forall v, prop s' v = prop s v) -> (forall v, edges s' v = edges s v) ->
  (forall v, Told v ∈ elog s -> Told v ∈ elog s') -> (forall v, Told v ∈ elog s' -> cnt s v = 0) ->
  (forall v k i got, l0 ++ rest = [Scan (a := waiting) v k i got] -> got = []) ->
  shaped waiting owner s' -> wake waiting owner n s' -> told_first waiting s' ->
  updated waiting owner (fun p => fst p <> EMPTY_VAL) s' -> winv s'.
Proof.
  intros Hs Et Ho Et' Hl0 Hl1 Eb Ep Ee Ht1 Ht2 Hsc B1 B2 B3 B4.
  eapply (frame owner n es b HB s); try done.
  - intros v. by rewrite Ep.
  - intros v. rewrite Ep. apply (v_bm _ _ _ _ _ Hs).
  - intros u v p _. unfold Wait_Proofs.pend. rewrite Et'. destruct (decide (owner u = t)) as [E|E]; us; [|done].
    rewrite E, upd_eq, Et, omap_app, Hl0. cbn [omap list_omap]. by rewrite Ho.
  - intros k o'. rewrite Et'. destruct (decide (k = t)) as [->|Hk]; us; [|apply (v_ops _ _ _ _ _ Hs)].
    intros [H|H]%elem_of_app; [by apply Hl1|]. apply (v_ops _ _ _ _ _ Hs). rewrite Et. by apply elem_of_list_further.
  - intros v k i got. rewrite Et'. destruct (decide (owner v = t)) as [E|E]; us; [|intros H; right; by exists k, i].
    rewrite E, upd_eq. intros H. left. by eapply Hsc.
Qed.
Lemma step_start s s0 t l : winv s -> todo s t = [] -> (forall v, box s0 v = box s v) -> (forall v, prop s0 v = prop s v) -> (forall v, edges s0 v = edges s v) ->
  todo s0 = todo s -> elog s0 = elog s -> (forall u v p, omap (slot_msg u v p) l = []) -> (forall o, o ∈ l -> op_ok owner es t o) ->
  (forall v k i got, l <> [Scan (a := waiting) v k i got]) ->
  let s' := start_task waiting s0 t l in
  shaped waiting owner s' -> wake waiting owner n s' -> told_first waiting s' ->
  updated waiting owner (fun p => fst p <> EMPTY_VAL) s' -> winv s'.
Proof.
  intros Hs Et Eb Ep Ee Et0 El Hl0 Hl1 Hsc s' B1 B2 B3 B4.
  eapply (frame owner n es b HB s); try done.
  - intros v. cbn. by rewrite Ep.
  - intros v. cbn. rewrite Ep. apply (v_bm _ _ _ _ _ Hs).
  - intros u v p _. unfold Wait_Proofs.pend. cbn. rewrite Et0. destruct (decide (owner u = t)) as [E|E]; us; [|done].
    by rewrite E, upd_eq, Et, Hl0.
  - intros k o'. cbn. rewrite Et0. destruct (decide (k = t)) as [->|Hk]; us; [apply Hl1|apply (v_ops _ _ _ _ _ Hs)].
  - cbn. by rewrite El.
  - cbn. rewrite El. apply (v_done _ _ _ _ _ Hs).
  - intros v k i got. cbn. rewrite Et0. destruct (decide (owner v = t)) as [E|E]; us; [|intros H; right; by exists k, i].
    rewrite E, upd_eq. intros H. by apply Hsc in H.
Qed.

(** Reading a cell. *)
Lemma step_read s t v k got c r : winv s -> todo s t = [Scan (a := waiting) v k (length got) got] -> box s v !! length got = Some (c, r) ->
  let s' := Est (upd (box s) v (<[length got := (c, r)]> (box s v))) (act s) (queue s) (prop s) (edges s)
              (upd (todo s) t [Scan (a := waiting) v k (S (length got)) (got ++ [(c, r)])]) (sent s) (elog s) in
  shaped waiting owner s' -> wake waiting owner n s' -> told_first waiting s' ->
  updated waiting owner (fun p => fst p <> EMPTY_VAL) s' -> winv s'.
Proof.
  intros Hs Et Hc s' B1 B2 B3 B4.
  assert (Ev : owner v = t). { apply (w_mine _ _ _ _ (v_wake _ _ _ _ _ Hs) t (Scan (a := waiting) v k (length got) got)). rewrite Et. apply elem_of_list_here. }
  assert (Hd : cnt s v = 0). { apply (v_done _ _ _ _ _ Hs), (proj2 (v_told _ _ _ _ _ Hs) t v (Scan (a := waiting) v k (length got) got)); [rewrite Et; apply elem_of_list_here|done]. }
  assert (Eb : forall w, box s' w = box s w).
  { intros w. cbn. unfold upd. destruct (Nat.eqb_spec w v) as [->|]; [by apply list_insert_id|done]. }
  assert (Epd : forall u v p, pend s' u v p = pend s u v p).
  { intros u w p. unfold Wait_Proofs.pend. cbn. destruct (decide (owner u = t)) as [E|E]; us; [|done]. by rewrite E, upd_eq, Et. }
  (* as in [frame], but the cells read so far grow *)
  destruct Hs as [A1 A2 A3 A4 A5 A6 A7 A8 A9 A10 A11 A12 A13 A14 A15 A16].
  assert (Ecnt : forall w, cnt s' w = cnt s w).
  { intros w. unfold Wait_Proofs.cnt. apply count_ext. intros [u p] _. unfold undone. cbn [fst snd]. by rewrite Epd. }
  constructor; try done.
  - intros k' o. cbn. destruct (decide (k' = t)) as [->|Hk]; us; [|apply A6]. by intros ->%elem_of_list_singleton.
  - intros u w p H Hne. rewrite Epd. by apply A7.
  - intros w. by rewrite Eb.
  - intros u w p H. destruct (A9 u w p H) as (c1 & r1 & H1). exists c1, r1. by rewrite Eb, Ecnt, Epd.
  - intros w p c1 r1. rewrite Eb. apply A10.
  - intros w. destruct (A11 w) as (x & r1 & H). exists x, r1. by rewrite Eb, Ecnt.
  - intros w H. rewrite Ecnt. by apply A12.
  - intros w. unfold zero_ok. rewrite Ecnt, Eb. apply A13.
  - intros w H. rewrite Ecnt. by apply A14.
  - intros w k1 i1 got1. cbn. destruct (decide (owner w = t)) as [E|E]; us; [|apply A16].
    rewrite E, upd_eq. intros [= <- <- <- <-]. destruct (A16 v k (length got) got) as [G0 G3]; [by rewrite Ev|].
    split. { rewrite app_length, Nat.add_1_r. rewrite <- (A8 v). apply Nat.le_succ_l. apply lookup_lt_is_Some. by eexists. }
    intros p c1 r1 Hg. apply lookup_app_Some in Hg. destruct Hg as [Hg|[Hge Hg]]; [by eapply G3|].
    apply list_lookup_singleton_Some in Hg. destruct Hg as [Ed [= <- <-]]. assert (Ep : length got = S p) by (apply Nat.le_antisymm; [exact Hge|apply Nat.sub_0_le; exact Ed]).
    rewrite Ep in Hc. split; [by eapply (A10 v p c r)|]. intros u Hu.
    destruct (proj1 (cnt_zero owner n Hown es b s v) Hd u p Hu) as [H1 H2]. split; [done|].
    destruct (A9 u v p Hu) as (c1 & r1 & H3 & H4 & _). assert (Hq : Some (c, r) = Some (c1, r1)) by (rewrite <- H3; symmetry; exact Hc).
    injection Hq as <- <-. apply H4; [done|]. clear -H2. lia.
Qed.
End steps.
