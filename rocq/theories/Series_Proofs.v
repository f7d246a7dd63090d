(** Proofs about the tables of time series. *)
From Verif Require Import Base RBO_Spec QcUtil Heap_Spec Heap_Model TopN_Spec TopN_Model TopN_Proofs Series_Spec Series_Model.
From Coq Require Import QArith Qcanon.
Open Scope Qc_scope.

Lemma is0_spec x : is0 x = true <-> x = 0.
Proof. unfold is0. by destruct (Qc_eq_dec x 0). Qed.
Lemma qlt_weak : weak_order qlt.
Proof.
  assert (Hs : forall a b, qlt a b = true <-> a < b).
  { intros a b. unfold qlt. destruct (Qclt_le_dec a b) as [H|H]; [done|]. split; [done|]. intros H'. exfalso. exact (Qclt_not_le _ _ H' H). }
  assert (Hn : forall a b, qlt a b = false <-> b <= a).
  { intros a b. unfold qlt. destruct (Qclt_le_dec a b) as [H|H]; [|done]. split; [done|]. intros H'. exfalso. exact (Qclt_not_le _ _ H H'). }
  split.
  - intros a b H. apply Hs in H. apply Hn. by apply Qclt_le_weak.
  - intros a b c H1 H2. apply Hn in H1, H2. apply Hn. by eapply Qcle_trans.
Qed.

Lemma add_col_in cols e c : In c (add_col cols e) <-> In c cols \/ c = fst e.
Proof.
  unfold add_col. destruct (existsb _ cols) eqn:Ex.
  - split; [auto|]. intros [H| -> ]; [done|]. apply existsb_exists in Ex as (x & Hx & E). apply N.eqb_eq in E. by rewrite E.
  - rewrite in_app_iff. simpl. naive_solver.
Qed.
Lemma add_col_nodup cols e : List.NoDup cols -> List.NoDup (add_col cols e).
Proof.
  unfold add_col. destruct (existsb _ cols) eqn:Ex; [done|]. intros H. apply NoDup_ListNoDup, NoDup_app. split; [by apply NoDup_ListNoDup|].
  split; [|apply NoDup_singleton]. intros x Hx Hx'. apply elem_of_list_singleton in Hx' as ->. apply elem_of_list_In in Hx.
  assert (existsb (N.eqb (fst e)) cols = true); [|congruence]. apply existsb_exists. exists (fst e). split; [done|apply N.eqb_refl].
Qed.
Lemma columns_gen db cols : List.NoDup cols ->
  let r := fold_left (fun cols entry => fold_left add_col entry cols) db cols in
  List.NoDup r /\ forall c, In c r <-> In c cols \/ exists entry, In entry db /\ In c (map fst entry).
Proof.
  assert (G : forall entry cols, List.NoDup cols -> List.NoDup (fold_left add_col entry cols) /\ forall c, In c (fold_left add_col entry cols) <-> In c cols \/ In c (map fst entry)).
  { induction entry as [|e entry IH]; intros cl H; simpl; [naive_solver|]. destruct (IH _ (add_col_nodup _ e H)) as [H1 H2]. split; [done|].
    intros c. rewrite H2, add_col_in. naive_solver. }
  revert cols. induction db as [|entry db IH]; intros cols H; simpl.
  - split; [done|]. intros c. split; [auto|]. intros [Hc|(entry & [] & _)]. done.
  - destruct (G entry cols H) as [G1 G2]. destruct (IH _ G1) as [H1 H2]. split; [done|]. intros c. rewrite H2, G2. naive_solver.
Qed.

Lemma col_of_in cols c : In c cols -> cols !! col_of cols c = Some c.
Proof. induction cols as [|x cols IH]; [done|]. simpl. destruct (N.eqb_spec x c) as [->|]; [done|]. intros [|H]; [done|]. simpl. auto. Qed.
Lemma col_of_lookup cols j c : List.NoDup cols -> cols !! j = Some c -> col_of cols c = j.
Proof.
  intros Hnd Hj. apply NoDup_ListNoDup in Hnd. eapply NoDup_lookup; [exact Hnd| |exact Hj].
  apply col_of_in. apply elem_of_list_In, elem_of_list_lookup. eauto.
Qed.

(** The value the array has for [c] after the entry has been written over [d]. *)
Definition val (entry : list (N * Qc)) (c : N) (d : Qc) : Qc :=
  fold_left (fun x e => if N.eqb (fst e) c then snd e else x) entry d.
Lemma fill_length cols arr entry : length (fill cols arr entry) = length arr.
Proof. revert arr. induction entry as [|e entry IH]; intros arr; [done|]. simpl. unfold fill in *. simpl. rewrite IH. apply insert_length. Qed.
Lemma fill_lookup cols entry j c : List.NoDup cols -> cols !! j = Some c -> (forall e, In e entry -> In (fst e) cols) ->
  forall arr x, arr !! j = Some x -> fill cols arr entry !! j = Some (val entry c x).
Proof.
  intros Hnd Hj. induction entry as [|e entry IH]; intros Hin arr x Hx; [done|]. unfold fill, val. simpl. apply IH; [intros e' He'; apply Hin; by right|].
  destruct (N.eqb_spec (fst e) c) as [E|Hne].
  - rewrite E, (col_of_lookup cols j c Hnd Hj), list_lookup_insert; [done|]. by apply lookup_lt_Some in Hx.
  - rewrite list_lookup_insert_ne; [done|]. intros E. apply Hne. pose proof (col_of_in cols (fst e) (Hin e (or_introl eq_refl))) as H. rewrite E, Hj in H. congruence.
Qed.
Lemma val_notin entry c d : ~ In c (map fst entry) -> val entry c d = d.
Proof.
  revert d. induction entry as [|e entry IH]; intros d H; [done|]. unfold val. simpl in *. destruct (N.eqb_spec (fst e) c) as [E|]; [tauto|]. apply IH. tauto.
Qed.
Lemma val_in entry c m d : List.NoDup (map fst entry) -> In (c, m) entry -> val entry c d = m.
Proof.
  revert d. induction entry as [|e entry IH]; intros d Hnd Hin; [done|]. unfold val. simpl in *. apply List.NoDup_cons_iff in Hnd as [Hni Hnd].
  destruct Hin as [->|Hin]; [|by apply IH]. simpl. rewrite N.eqb_refl. fold (val entry c m). by apply val_notin.
Qed.
Lemma val_shows entry c m : List.NoDup (map fst entry) -> (shows entry c m <-> val entry c 0 = m /\ m <> 0).
Proof.
  intros Hnd. unfold shows. split.
  - intros [H1 H2]. split; [by apply val_in|done].
  - intros [H1 H2]. split; [|done]. destruct (in_dec N.eq_dec c (map fst entry)) as [Hin|Hni].
    + apply in_map_iff in Hin as ((c' & m') & E & Hin). simpl in E. subst c'. rewrite (val_in _ _ m' _ Hnd Hin) in H1. by subst m'.
    + rewrite val_notin in H1 by done. by subst m.
Qed.
Lemma zeros_lookup cols j c : cols !! j = Some c -> zeros cols !! j = Some 0.
Proof. intros H. unfold zeros. apply lookup_lt_Some in H. revert j H. induction cols as [|x cols IH]; intros j H; simpl in *; [lia|]. destruct j; [done|]. apply IH. lia. Qed.

Lemma columns_spec db : List.NoDup (columns db) /\ forall c, In c (columns db) <-> exists entry, In entry db /\ In c (map fst entry).
Proof. destruct (columns_gen db []) as [H1 H2]; [constructor|]. split; [done|]. intros c. rewrite H2. split; [intros [[]|]; done|auto]. Qed.
Lemma fill_db db entry j c : In entry db -> columns db !! j = Some c -> forall arr x, arr !! j = Some x -> fill (columns db) arr entry !! j = Some (val entry c x).
Proof.
  intros Hin Hj. destruct (columns_spec db) as [Hnd Hc]. apply fill_lookup; [done|done|]. intros e He. apply Hc. exists entry. split; [done|]. by apply in_map.
Qed.
Lemma row_val db entry j c : In entry db -> columns db !! j = Some c ->
  wf_row (columns db) entry !! j = Some (if is0 (val entry c 0) then None else Some (val entry c 0)).
Proof.
  intros Hin Hj. unfold wf_row. rewrite list_lookup_fmap, (fill_db _ _ _ _ Hin Hj _ 0) by (eapply zeros_lookup; eauto). done.
Qed.

Lemma lookup_nth_error {A} (l : list A) i : l !! i = nth_error l i.
Proof. revert i. induction l as [|x l IH]; intros [|i]; simpl; auto. Qed.

(** The ranking, translated to raw ids. *)
Lemma entry_full data : List.NoDup (map fst data) ->
  exists res, top_n qlt (map snd data) places res /\ (length res <= places)%nat /\
    let l := map (fun x : nat * Qc => (nth (fst x) (map fst data) 0%N, snd x)) res in
    wf_entry data = Some (l ++ repeat (0%N, 0) (places - length res)) /\ List.NoDup (map fst l) /\
    (forall c m, In (c, m) l <-> exists i, In (i, m) res /\ nth_error data i = Some (c, m)) /\
    ((length data <= places)%nat -> forall c m, In (c, m) l <-> In (c, m) data).
Proof.
  intros Hnd. destruct (find_top_n_ok qlt qlt_weak 0 (map snd data) (Nat.min places (length data))) as (res & Hf & [T1 T2 T3 T4 T5]).
  { destruct data; [by right|left]. unfold places. simpl. lia. }
  rewrite map_length in T1.
  assert (HT : top_n qlt (map snd data) places res).
  { split; try done. rewrite map_length. lia. }
  exists res. split; [done|]. split; [lia|]. cbn zeta.
  assert (Hin : forall i m, In (i, m) res -> exists c, nth_error data i = Some (c, m) /\ nth i (map fst data) 0%N = c).
  { intros i m Hi. apply T3 in Hi. rewrite nth_error_map in Hi. destruct (nth_error data i) as [[c m']|] eqn:E; [|done]. simpl in Hi. injection Hi as ->.
    exists c. split; [done|]. apply nth_error_nth. rewrite nth_error_map, E. done. }
  assert (Hc : forall c m, In (c, m) (map (fun x : nat * Qc => (nth (fst x) (map fst data) 0%N, snd x)) res) <-> exists i, In (i, m) res /\ nth_error data i = Some (c, m)).
  { intros c m. rewrite in_map_iff. split.
    - intros ([i m'] & E & Hi). simpl in E. injection E as E1 ->. exists i. split; [done|]. destruct (Hin _ _ Hi) as (c' & H1 & H2). congruence.
    - intros (i & Hi & Hd). exists (i, m). split; [|done]. simpl. destruct (Hin _ _ Hi) as (c' & H1 & H2). congruence. }
  split; [unfold wf_entry; rewrite Hf; done|]. split; [|split; [exact Hc|]].
  - rewrite map_map. simpl. clear Hc Hf T1 T4 T5 T3 HT. induction res as [|[i m] res IH]; simpl; [constructor|]. simpl in T2. apply List.NoDup_cons_iff in T2 as [Hni T2].
    constructor; [|apply IH; [done|]; intros; apply Hin; by right]. intros Hx. apply in_map_iff in Hx as ([i' m'] & E & Hi'). simpl in E.
    destruct (Hin i m (or_introl eq_refl)) as (c & H1 & H2). destruct (Hin i' m' (or_intror Hi')) as (c' & H1' & H2').
    assert (i' = i); [|subst i'; apply Hni, in_map_iff; by exists (i, m')].
    apply (proj1 (NoDup_nth_error (map fst data)) Hnd); [rewrite map_length; apply nth_error_Some; by rewrite H1'|].
    rewrite !nth_error_map, H1, H1'. simpl. congruence.
  - intros Hlen c m. rewrite Hc. split; [intros (i & _ & H); by apply nth_error_In in H|]. intros Hd. destruct (In_nth_error _ _ Hd) as (i & Hi).
    exists i. split; [|done]. assert (Hlt : (i < length data)%nat) by (apply nth_error_Some; by rewrite Hi).
    (* all indices are listed *)
    assert (Hall : In i (map fst res)).
    { apply (NoDup_length_incl (l := map fst res) (l' := seq 0 (length data))).
      - exact T2.
      - rewrite seq_length, map_length. lia.
      - intros x Hx. apply in_map_iff in Hx as ([i' m'] & <- & Hx). apply in_seq. simpl. split; [lia|]. apply T3 in Hx.
        assert (i' < length (map snd data))%nat by (apply nth_error_Some; by rewrite Hx). rewrite map_length in *. lia.
      - apply in_seq. lia. }
    apply in_map_iff in Hall as ([i' m'] & E & Hr). simpl in E. subst i'. destruct (Hin _ _ Hr) as (c' & H1 & _). assert (m' = m) by congruence. by subst.
Qed.
Lemma val_app l1 l2 c d : val (l1 ++ l2) c d = val l2 c (val l1 c d).
Proof. unfold val. by rewrite fold_left_app. Qed.
Lemma val_pad n c d : val (repeat (0%N, 0) n) c d = if (N.eqb 0 c && negb (Nat.eqb n 0))%bool then 0 else d.
Proof.
  revert d. induction n as [|n IH]; intros d; [by rewrite andb_false_r|]. unfold val in *. cbn [repeat fold_left fst snd]. rewrite IH.
  destruct (N.eqb 0 c); simpl; [by destruct (Nat.eqb n 0)|done].
Qed.

(** Derivatives. *)
Lemma dv_rows_lookup db : forall (rest pre : list (Qc * list (N * Qc))) prev last curr i j c p cur nxt,
  let all := map snd db in
  db = pre ++ rest -> (1 <= length pre)%nat -> list.last pre = Some prev -> columns all !! j = Some c ->
  (forall c0 d, rest !! 0%nat = Some (c0, d) -> last !! j = Some (val (snd prev) c 0) /\ curr !! j = Some (val d c 0)) ->
  (match i with O => Some prev | S i => rest !! i end) = Some p -> rest !! i = Some cur -> rest !! S i = Some nxt ->
  exists row, dv_rows (columns all) (Some prev) last curr rest !! i = Some (Some row) /\
    row !! j = Some (let a := val (snd p) c 0 in let b := val (snd nxt) c 0 in if (negb (is0 b) && negb (is0 a))%bool then Some (delta (fst p) (fst nxt) a b) else None).
Proof.
  induction rest as [|cur0 rest IH]; intros pre prev last curr i j c p cur nxt all Hdb Hpre Hlast Hj Hst Hp Hcur Hnxt; [done|].
  destruct rest as [|nxt0 rest']; [destruct i; done|].
  destruct (Hst (fst cur0) (snd cur0)) as [Hl Hc]; [by destruct cur0|].
  assert (Hn : fill (columns all) (zeros (columns all)) (snd nxt0) !! j = Some (val (snd nxt0) c 0)).
  { apply fill_db; [|done|by eapply zeros_lookup]. apply in_map. rewrite Hdb. apply in_app_iff. right. right. by left. }
  destruct i as [|i].
  - injection Hp as <-. injection Hcur as <-. injection Hnxt as <-. cbn [dv_rows]. eexists. split; [reflexivity|].
    rewrite list_lookup_fmap. assert (Hcomb : combine last (fill (columns all) (zeros (columns all)) (snd nxt0)) !! j = Some (val (snd prev) c 0, val (snd nxt0) c 0)).
    { clear -Hl Hn. revert j Hl Hn. generalize (fill (columns all) (zeros (columns all)) (snd nxt0)). induction last as [|x l IH]; intros l2 j Hl Hn; [by destruct j|].
      destruct l2 as [|y l2]; [by destruct j|]. destruct j as [|j]; simpl in *; [congruence|]. by apply IH. }
    rewrite Hcomb. done.
  - change (exists row, dv_rows (columns all) (Some cur0) curr (fill (columns all) (zeros (columns all)) (snd nxt0)) (nxt0 :: rest') !! i = Some (Some row) /\
      row !! j = Some (let a := val (snd p) c 0 in let b := val (snd nxt) c 0 in if (negb (is0 b) && negb (is0 a))%bool then Some (delta (fst p) (fst nxt) a b) else None)).
    apply (IH (pre ++ [cur0]) cur0 curr _ i j c p cur nxt); try done.
    + by rewrite <- app_assoc.
    + rewrite app_length. simpl. lia.
    + by rewrite list.last_snoc.
    + intros c0 d E. simpl in E. injection E as ->. simpl. done.
Qed.
Lemma dv_table_lookup db i j c p cur nxt : db !! i = Some p -> db !! S i = Some cur -> db !! S (S i) = Some nxt -> columns (map snd db) !! j = Some c ->
  exists row, dv_table db !! S i = Some (Some row) /\ row !! j = Some (let a := val (snd p) c 0 in let b := val (snd nxt) c 0 in
    if (negb (is0 b) && negb (is0 a))%bool then Some (delta (fst p) (fst nxt) a b) else None).
Proof.
  intros Hp Hcur Hnxt Hj. unfold dv_table. destruct db as [|e0 [|e1 rest]]; [done|by destruct i|].
  set (db := e0 :: e1 :: rest) in *. set (cols := columns (map snd db)) in *.
  change (dv_rows cols None (zeros cols) (zeros cols) db !! S i) with
    (dv_rows cols (Some e0) (fill cols (zeros cols) (snd e0)) (fill cols (zeros cols) (snd e1)) (e1 :: rest) !! i).
  apply (dv_rows_lookup db (e1 :: rest) [e0] e0 _ _ i j c p cur nxt); try done.
  - intros c0 d E. simpl in E. injection E as ->. split.
    + apply fill_db; [by left|done|by eapply zeros_lookup].
    + apply (fill_db _ d); [right; by left|done|by eapply zeros_lookup].
Qed.
Lemma delta_spec a b ta tb x : ta <> tb -> (x = delta ta tb a b <-> per_day a b ta tb x).
Proof.
  intros Hne. assert (Hd : tb - ta <> 0). { intros E. apply Hne. qclra. }
  assert (Hq : forall q, ~ Qeq q 0%Q -> Q2Qc q <> 0). { intros q Hq E. apply Hq. apply Qc_eq_this in E. rewrite this_Q2Qc in E. exact E. }
  assert (H1 : Q2Qc 3600 <> 0) by (apply Hq; done). assert (H2 : Q2Qc 24 <> 0) by (apply Hq; done).
  assert (H3 : Q2Qc 86400 = Q2Qc 3600 * Q2Qc 24) by (apply Qc_eq_this; rewrite this_mul, !this_Q2Qc; reflexivity).
  unfold per_day, delta. rewrite H3. split.
  - intros ->. field. auto.
  - intros E. assert (Hx : x = Q2Qc 100 * (b - a) * (Q2Qc 3600 * Q2Qc 24) / (tb - ta)) by (rewrite <- E; field; done). rewrite Hx. field. auto.
Qed.

(** Comparison of colourings. *)
Lemma find_col_spec l v c : List.NoDup (map fst l) -> (find_col l v = Some c <-> In (v, c) l).
Proof.
  unfold find_col. induction l as [|[w d] l IH]; intros Hnd; [done|]. simpl in *. apply List.NoDup_cons_iff in Hnd as [Hni Hnd].
  destruct (N.eqb_spec w v) as [->|Hne].
  - simpl. split; [intros [= ->]; by left|]. intros [[= ->]|Hin]; [done|]. exfalso. apply Hni, in_map_iff. by exists (v, c).
  - rewrite IH by done. split; [auto|]. intros [[= ? ?]|]; done.
Qed.
Lemma same_diff_gen prev cur s0 d0 :
  let is_same := fun e : N * N => match find_col prev (fst e) with Some c => N.eqb (snd e) c | None => false end in
  let is_both := fun e : N * N => match find_col prev (fst e) with Some c => true | None => false end in
  let r := fold_left (fun sd e => match find_col prev (fst e) with
    | Some c => if N.eqb (snd e) c then (S (fst sd), snd sd) else (fst sd, S (snd sd)) | None => sd end) cur (s0, d0) in
  fst r = (s0 + length (List.filter is_same cur))%nat /\ (fst r + snd r = s0 + d0 + length (List.filter is_both cur))%nat.
Proof.
  revert s0 d0. induction cur as [|e cur IH]; intros s0 d0; simpl; [lia|]. destruct (find_col prev (fst e)) as [c|] eqn:Ec; cbn [fst snd].
  - destruct (N.eqb (snd e) c); cbn [fst snd length].
    + destruct (IH (S s0) d0) as [H1 H2]. lia.
    + destruct (IH s0 (S d0)) as [H1 H2]. lia.
  - apply IH.
Qed.
Lemma counts_filter (f : N * N -> bool) (cur : list (N * N)) (Q : N -> Prop) : List.NoDup (map fst cur) ->
  (forall v, Q v <-> exists c, In (v, c) cur /\ f (v, c) = true) -> counts Q (length (List.filter f cur)).
Proof.
  intros Hnd HQ. exists (map fst (List.filter f cur)). split; [|split; [|apply map_length]].
  - clear HQ. induction cur as [|e cur IH]; [constructor|]. simpl in *. apply List.NoDup_cons_iff in Hnd as [Hni Hnd]. destruct (f e); [|auto].
    simpl. constructor; [|auto]. intros Hx. apply Hni. apply in_map_iff in Hx as (e' & E & Hx). apply filter_In in Hx as [Hx _]. rewrite <- E. by apply in_map.
  - intros v. rewrite HQ, in_map_iff. split.
    + intros ([w c] & E & H). simpl in E. subst w. apply filter_In in H as [H1 H2]. eauto.
    + intros (c & H1 & H2). exists (v, c). split; [done|]. by apply filter_In.
Qed.
