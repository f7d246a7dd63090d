(** Updates in the wait-count colouring, and whole runs. *)
From Verif Require Import Base Bitmap_Spec Bitmap_Model Bitmap_Proofs Vertex_Model Engine_Spec Engine_Model Engine_Proofs Engine_Shape Engine_Told
  Colour_Spec Colour_Model Colour_Best Colour_Proofs Colour_Run Wait_Spec Wait_Model Wait_Proofs Wait_Steps.
Open Scope nat_scope.

Section react.
Context (owner : nat -> nat) (n : nat) (Hown : forall v, owner v < n).
Context (es : nat -> list (nat * nat)) (b : nat -> nat) (HU : slots_unique es) (HB : balanced es).
Context (Hpos : forall u v p, (v, p) ∈ es u -> p < b v) (Hsize : forall v, (N.of_nat (b v) < 2 ^ 31 - 1)%N).
Notation est := (est waiting).
Notation colr s v := (fst (prop s v)).
Notation winv := (winv owner n es b).
Notation pend := (pend owner).
Notation cnt := (cnt owner es).

(** What a vertex finds when it has read all its cells. *)
Record scanned (s : est) (v : nat) (got : list cell) : Prop := {
  q_inv : winv s;
  q_len : length got = S (b v);
  q_zero : cnt s v = 0;
  q_cell : forall p c r, got !! S p = Some (c, r) -> cell_ok es s v p c;
  q_high : forall u p, (u, p) ∈ higher es v -> exists r, colr s u <> EMPTY_VAL /\ got !! S p = Some (N.lor (colr s u) MSB, r) }.

Lemma scanned_in s v got c : scanned s v got -> c ∈ map fst (tail got) -> c = EMPTY_VAL \/
  exists u p, (v, p) ∈ es u /\ u <> v /\ colr s u <> EMPTY_VAL /\ (colr s u < 2 ^ 31 - 1)%N /\ c = (if prio v u then colr s u else N.lor (colr s u) MSB).
Proof.
  intros Hq H. apply elem_of_list_fmap in H. destruct H as ([c' r] & -> & H). apply elem_of_list_lookup in H. destruct H as [p H].
  assert (H' : got !! S p = Some (c', r)) by (destruct got; [done|exact H]).
  destruct (q_cell _ _ _ Hq p c' r H') as [?|(u & H1 & H2 & H3 & H4)]; [by left|right]. exists u, p. split_and!; try done.
  by apply (v_prop _ _ _ _ _ (q_inv _ _ _ Hq)).
Qed.
Lemma ns_len s v got : scanned s v got -> length (map fst (tail got)) = b v.
Proof. intros Hq. pose proof (q_len _ _ _ Hq) as H. rewrite map_length. destruct got; [done|]. by injection H. Qed.

(** A neighbour that goes later and has a colour has another colour. *)
Lemma later_ne s v u p : winv s -> (v, p) ∈ es u -> u <> v -> prio v u = true -> colr s u <> EMPTY_VAL -> colr s v <> EMPTY_VAL /\ colr s u <> colr s v.
Proof.
  intros Hs Hin Hne Hp Hc. destruct (v_prop _ _ _ _ _ Hs u Hc) as (H0 & [H1 _] & _).
  assert (Hm : 0 < mult es v u).
  { rewrite (HB v u). unfold mult. assert (Hf : (v, p) ∈ List.filter (fun x => fst x =? v) (es u)).
    { apply elem_of_list_In, filter_In. split; [by apply elem_of_list_In|]. apply Nat.eqb_refl. }
    destruct (List.filter _ _); [by apply elem_of_nil in Hf|]. cbn. lia. }
  assert (Hq : exists q, (u, q) ∈ es v).
  { unfold mult in Hm. destruct (List.filter _ _) as [|[x q] l] eqn:E; [cbn in Hm; lia|]. exists q.
    assert (Hf : In (x, q) (List.filter (fun x => fst x =? u) (es v))) by (rewrite E; by left).
    apply filter_In in Hf. destruct Hf as [Hf Hx]. apply Nat.eqb_eq in Hx. cbn in Hx. subst. by apply elem_of_list_In. }
  destruct Hq as [q Hq]. split.
  - assert (Hh : (v, q) ∈ higher es u) by (by apply in_higher).
    by destruct (proj1 (cnt_zero owner n Hown es b s u) H0 v q Hh).
  - intros E. apply H1. exists v, q. by rewrite E.
Qed.

Lemma prio_other u v : u <> v -> prio v u = false -> prio u v = true.
Proof.
  unfold prio, compare_priority. intros Hne H. apply orb_false_iff in H. destruct H as [H1 H2]. apply orb_true_iff.
  apply N.ltb_ge in H1. destruct (N.eqb_spec (hash v) (hash u)) as [E|E].
  - right. cbn in H2. apply Nat.ltb_ge in H2. apply andb_true_iff. split; [by apply N.eqb_eq|]. apply Nat.ltb_lt. lia.
  - left. apply N.ltb_lt. lia.
Qed.

Lemma picks_greedy s v got g : scanned s v got -> picks (map fst (tail got)) g -> (g <= N.of_nat (b v))%N ->
  smallest_unused (before prio es (fun u => colr s u) v) g /\ (colr s v <> EMPTY_VAL -> g = colr s v).
Proof.
  intros Hq Hp Hg. pose proof (q_inv _ _ _ Hq) as Hs. pose proof (ns_len _ _ _ Hq) as Hl. pose proof (Hsize v) as Hz.
  assert (Hmk : forall y, marked (map fst (tail got)) y -> exists u p, (v, p) ∈ es u /\ u <> v /\ colr s u <> EMPTY_VAL /\ y = colr s u).
  { intros y (c & Hc & -> & Hy). rewrite Hl in Hy. destruct (scanned_in _ _ _ _ Hq Hc) as [->|(u & p & H1 & H2 & H3 & H4 & H5)].
    - rewrite colour_of_plain in Hy by (by vm_compute). rewrite empty_val in Hy. lia.
    - exists u, p. split_and!; try done. subst c. destruct (prio v u); [rewrite colour_of_plain|rewrite colour_of_msb]; try done; lia. }
  assert (Hhi : forall u p, (u, p) ∈ higher es v -> (colr s u <= N.of_nat (b v))%N -> marked (map fst (tail got)) (colr s u)).
  { intros u p Hu Hle. destruct (q_high _ _ _ Hq u p Hu) as (r & H1 & H2). destruct (v_prop _ _ _ _ _ Hs u H1) as (_ & _ & H3).
    exists (N.lor (colr s u) MSB). split_and!; [|rewrite colour_of_msb; [done|lia]|by rewrite Hl].
    apply elem_of_list_fmap. exists (N.lor (colr s u) MSB, r). split; [done|]. apply elem_of_list_lookup. exists p. destruct got; [done|exact H2]. }
  destruct Hp as [Hp1 Hp2].
  assert (Hb : smallest_unused (before prio es (fun u => colr s u) v) g).
  { split.
    - intros (u & p & H1 & H2 & ->). apply Hp1. apply (Hhi u p); [|done]. apply in_higher; [done|]. done.
    - intros d Hd. destruct (Hmk d (Hp2 d Hd)) as (u & p & H1 & H2 & H3 & H4).
      destruct (prio v u) eqn:E; [|exists u, p; split_and!; try done; by apply prio_other].
      destruct (later_ne s v u p Hs H1 H2 E H3) as [G1 G2]. destruct (v_prop _ _ _ _ _ Hs v G1) as (_ & [G3 G4] & _). subst d.
      destruct (N.lt_trichotomy (colr s u) (colr s v)) as [Hlt|[He|Hgt]]; [by apply G4|congruence|].
      exfalso. destruct (Hmk (colr s v)) as (u' & p' & K1 & K2 & K3 & K4); [apply Hp2; lia|].
      destruct (prio v u') eqn:E'; [by destruct (later_ne s v u' p' Hs K1 K2 E' K3)|].
      apply G3. exists u', p'. split_and!; try done. by apply prio_other. }
  split; [done|]. intros Hc. destruct (v_prop _ _ _ _ _ Hs v Hc) as (_ & [G3 G4] & _). destruct Hb as [B1 B2].
  destruct (N.lt_trichotomy g (colr s v)) as [Hlt|[?|Hgt]]; [|done|]; exfalso; [by apply B1, G4|by apply G3, B2].
Qed.

Lemma react_ok s v got p' ms : scanned s v got -> on_update (mail_retrieve (map fst (tail got)) (prop s v)) (es v) = (p', ms) ->
  smallest_unused (before prio es (fun u => colr s u) v) (fst p') /\ (exists S, bm_inv (snd p') S) /\ (fst p' < 2 ^ 31 - 1)%N /\
  (fst p' = colr s v /\ ms = [] \/ colr s v = EMPTY_VAL /\ ms = map (fun '(d, pos) => (d, (fst p', pos))) (es v)).
Proof.
  intros Hq E. pose proof (q_inv _ _ _ Hq) as Hs. pose proof (ns_len _ _ _ Hq) as Hl. pose proof (Hsize v) as Hz.
  destruct (v_bm _ _ _ _ _ Hs v) as [S0 HS].
  destruct (update_ok (map fst (tail got)) (prop s v) S0 (es v) HS ltac:(rewrite Hl; exact Hz) p' ms E) as (U1 & U2 & U3 & U4).
  rewrite Hl in U3. destruct (picks_greedy s v got (fst p') Hq U1 U3) as [P1 P2]. split_and!; [done|by eexists|lia|].
  destruct (N.eq_dec (colr s v) EMPTY_VAL) as [He|He].
  { destruct U4 as [[U4 _]|U4]; [|right; by split]. rewrite U4, He, empty_val in U3. lia. }
  left. specialize (P2 He). split; [done|]. destruct U4 as [[_ ?]|U4]; [done|].
  assert (Hx : fst (mail_retrieve (map fst (tail got)) (prop s v)) = colr s v).
  { unfold mail_retrieve. cbn [fst]. destruct (existsb _ _) eqn:Ex; [|done]. exfalso. apply existsb_exists in Ex. destruct Ex as (c & Hc & Hx).
    apply andb_true_iff in Hx. destruct Hx as [Hx Hx3]. apply andb_true_iff in Hx. destruct Hx as [_ Hx2]. apply N.eqb_eq in Hx3.
    apply elem_of_list_In in Hc. destruct (scanned_in _ _ _ _ Hq Hc) as [->|(u & p & H1 & H2 & H3 & H4 & H5)].
    - vm_compute in Hx2. done.
    - destruct (prio v u) eqn:Ep; subst c.
      + assert (Hm : has_msb (colr s u) = false) by (apply has_msb_plain; lia). unfold has_msb in Hm. rewrite Hm in Hx2. done.
      + rewrite colour_of_msb in Hx3 by lia. destruct (v_prop _ _ _ _ _ Hs v He) as (_ & [G3 _] & _). apply G3. exists u, p.
        split_and!; try done. by apply prio_other. }
  unfold on_update in E. destruct (N.eqb_spec (fst (mail_retrieve (map fst (tail got)) (prop s v))) (first_unused (snd (mail_retrieve (map fst (tail got)) (prop s v))))) as [Ee|Ee].
  - by injection E as <- <-.
  - exfalso. injection E as E1 E2. apply Ee. rewrite Hx, <- P2, <- E1. done.
Qed.

Lemma scan_done s t v k got : winv s -> todo s t = [Scan (a := waiting) v k (length got) got] -> box s v !! length got = None -> scanned s v got.
Proof.
  intros Hs Et Hn.
  assert (Ev : owner v = t). { apply (w_mine _ _ _ _ (v_wake _ _ _ _ _ Hs) t (Scan (a := waiting) v k (length got) got)). rewrite Et. apply elem_of_list_here. }
  assert (Hd : cnt s v = 0). { apply (v_done _ _ _ _ _ Hs), (proj2 (v_told _ _ _ _ _ Hs) t v (Scan (a := waiting) v k (length got) got)); [rewrite Et; apply elem_of_list_here|done]. }
  rewrite <- Ev in Et. destruct (v_scan _ _ _ _ _ Hs v k (length got) got Et) as [G1 G2].
  apply lookup_ge_None in Hn. rewrite (v_len _ _ _ _ _ Hs v) in Hn.
  assert (Hl : length got = S (b v)) by (apply Nat.le_antisymm; [exact G1|exact Hn]).
  constructor; try done.
  - intros p c r H. by apply (G2 p c r).
  - intros u p Hu. pose proof Hu as Hu'. apply (higher_ne es HB) in Hu'. destruct Hu' as [Hu' _]. apply Hpos in Hu'.
    destruct (lookup_lt_is_Some_2 got (S p)) as [[c r] Hg]; [rewrite Hl; clear -Hu'; lia|].
    destruct (G2 p c r Hg) as [_ G3]. destruct (G3 u Hu) as [G4 ->]. by exists r.
Qed.

(** A vertex gets its colour. *)
Lemma step_colour s t v k got p' : scanned s v got -> todo s t = [Scan (a := waiting) v k (length got) got] -> owner v = t ->
  colr s v = EMPTY_VAL -> smallest_unused (before prio es (fun u => colr s u) v) (fst p') -> (exists S, bm_inv (snd p') S) -> (fst p' < 2 ^ 31 - 1)%N ->
  let s' := Est (box s) (act s) (queue s) (upd (prop s) v p') (edges s) (upd (todo s) t (told_all v (fst p') (es v) ++ [Else (a := waiting) []])) (sent s) (elog s) in
  shaped waiting owner s' -> wake waiting owner n s' -> told_first waiting s' ->
  updated waiting owner (fun p => fst p <> EMPTY_VAL) s' -> winv s'.
Proof.
  intros Hq Et Ev He Hg Hbm Hlt s' B1 B2 B3 B4.
  pose proof (q_zero _ _ _ Hq) as Hz. destruct (q_inv _ _ _ Hq) as [A1 A2 A3 A4 A5 A6 A7 A8 A9 A10 A11 A12 A13 A14 A15 A16].
  assert (Hne : fst p' <> EMPTY_VAL) by (rewrite empty_val; lia).
  assert (Ec : forall u, u <> v -> colr s' u = colr s u) by (intros u Hu; cbn; by us).
  assert (Ec' : colr s' v = fst p') by (cbn; by rewrite upd_eq).
  assert (Ep : forall u x p, u <> v -> pend s' u x p = pend s u x p).
  { intros u x p Hu. unfold Wait_Proofs.pend. cbn. destruct (decide (owner u = t)) as [E|E]; us; [|done]. rewrite E, upd_eq, Et, omap_app. cbn. rewrite app_nil_r.
    assert (H : forall o, o ∈ told_all v (fst p') (es v) -> slot_msg u x p o = None).
    { intros o Ho. pose proof Ho as Ho'. unfold told_all in Ho'. apply elem_of_list_fmap in Ho'. destruct Ho' as ([d m] & -> & _).
      apply told_all_in in Ho. destruct Ho as [Hx _]. apply slot_msg_other. congruence. }
    revert H. generalize (told_all v (fst p') (es v)). intros l H. induction l as [|o l IH]; [done|]. cbn. rewrite (H o) by apply elem_of_list_here.
    apply IH. intros o' Ho. apply H. by apply elem_of_list_further. }
  assert (Ep' : forall x p, (x, p) ∈ es v -> pend s' v x p = script v x (fst p') p).
  { intros x p Hin. unfold Wait_Proofs.pend. cbn. rewrite Ev, upd_eq, omap_app. cbn. rewrite app_nil_r.
    apply told_all_slot; [|done]. by apply unique_NoDup. }
  assert (Hnv : forall p, (v, p) ∉ higher es v).
  { intros p H. apply (higher_ne es HB) in H. by destruct H as (_ & _ & H). }
  assert (Hl4 : forall x p, (v, p) ∈ higher es x -> length (pend s' v x p) = 4).
  { intros x p H. pose proof H as H'. apply (higher_ne es HB) in H'. destruct H' as [H1 H2]. rewrite Ep' by done.
    apply in_higher in H; [|done]. destruct H as [_ H]. unfold script.
    replace (v =? x) with false by (symmetry; apply Nat.eqb_neq; tauto). cbn [orb]. destruct (prio x v) eqn:Ex; [|done]. exfalso. revert H Ex. clear. unfold prio, compare_priority.
    intros H1 H2. apply orb_true_iff in H1, H2. rewrite !andb_true_iff, !N.ltb_lt, !N.eqb_eq, !Nat.ltb_lt in H1, H2. lia. }
  assert (Ecnt : forall x, cnt s' x = cnt s x).
  { intros x. unfold Wait_Proofs.cnt. apply count_ext. intros [u p] H. unfold undone. cbn [fst snd].
    destruct (decide (u = v)) as [->|Hu]; [|by rewrite Ec, Ep].
    rewrite He, (Hl4 x p H). rewrite N.eqb_refl. apply orb_true_r. }
  assert (Eok : forall x p c, cell_ok es s x p c -> cell_ok es s' x p c).
  { intros x p c [?|(u & H1 & H2 & H3 & H4)]; [by left|right]. exists u. assert (u <> v) by congruence. by rewrite Ec. }
  assert (Hbef : forall x, colr s x <> EMPTY_VAL \/ x = v -> forall c, before prio es (fun u => colr s u) x c <-> before prio es (fun u => colr s' u) x c).
  { intros x Hx c. assert (Hnx : forall u p, (x, p) ∈ es u -> prio u x = true -> u <> v).
    { intros u p H1 H2 ->. assert (Hh : (v, p) ∈ higher es x) by (by apply in_higher). destruct Hx as [Hx| ->]; [|by apply (Hnv p)].
      destruct (A14 x Hx) as [H0 _]. destruct (proj1 (cnt_zero owner n Hown es b s x) H0 v p Hh) as [H3 _]. done. }
    split; intros (u & p & H1 & H2 & ->); exists u, p; (split_and!; [done..|]); by rewrite Ec by eauto. }
  assert (Hmex : forall x, colr s x <> EMPTY_VAL \/ x = v -> forall g, smallest_unused (before prio es (fun u => colr s u) x) g ->
     smallest_unused (before prio es (fun u => colr s' u) x) g).
  { intros x Hx g [H1 H2]. split; [by rewrite <- Hbef|]. intros d Hd. rewrite <- Hbef by done. by apply H2. }
  constructor; try done.
  - intros k' o. cbn. destruct (decide (k' = t)) as [->|Hk]; us; [|apply A6]. intros [H|H]%elem_of_app.
    + pose proof H as H'. unfold told_all in H'. apply elem_of_list_fmap in H'. destruct H' as ([d m] & -> & _). apply told_all_in in H.
      cbn. by destruct H as [_ H].
    + apply elem_of_list_singleton in H. by subst.
  - intros u x p Hin Hux. destruct (decide (u = v)) as [->|Hu].
    + rewrite Ec', Ep' by done. split; [by exists []|done].
    + rewrite Ec, Ep by done. by apply A7.
  - intros u x p H. destruct (A9 u x p H) as (c & r & H1 & H2 & H3 & H4). exists c, r. rewrite Ecnt. split; [exact H1|].
    destruct (decide (u = v)) as [->|Hu].
    + pose proof (Hl4 x p H) as Hl. split_and!.
      * intros _ Hl'. rewrite Hl in Hl'. lia.
      * intros Hr. exfalso. destruct (H3 Hr) as [H5 _]. pose proof H as H'. apply (higher_ne es HB) in H'. destruct H' as [Hi Hi2].
        destruct (A7 v x p Hi) as [_ H6]; [intros ->; by apply (Hnv p)|]. by rewrite (H6 He) in H5.
      * intros H5. rewrite H5 in Hl. done.
    + rewrite Ec, Ep by done. done.
  - intros x p c r H. apply Eok. by apply (A10 x p c r).
  - intros x. destruct (A11 x) as (w & r & H). exists w, r. by rewrite Ecnt.
  - intros x H. rewrite Ecnt. by apply A12.
  - intros x. unfold zero_ok. rewrite Ecnt. apply A13.
  - intros x H. rewrite Ecnt. destruct (decide (x = v)) as [->|Hx].
    + rewrite Ec'. split_and!; [done| |done]. apply Hmex; [by right|done].
    + rewrite Ec in H |- * by done. destruct (A14 x H) as (H1 & H2 & H3). split_and!; [done| |done]. apply Hmex; [by left|done].
  - intros x. cbn. destruct (decide (x = v)) as [->|Hx]; us; [done|apply A15].
  - intros x k1 i1 got1. cbn. destruct (decide (owner x = t)) as [E|E]; us.
    + rewrite E, upd_eq. intros H. destruct (told_all v (fst p') (es v)) as [|o l] eqn:Eo; [by cbn in H|]. cbn in H. injection H as -> H. by destruct l.
    + intros H. destruct (A16 x k1 i1 got1 H) as [G1 G2]. split; [done|]. intros p c r Hgot. destruct (G2 p c r Hgot) as [G3 G4].
      split; [by apply Eok|]. intros u Hu. destruct (G4 u Hu) as [G5 G6]. assert (u <> v) by congruence. by us.
Qed.

Lemma scan_head s t v k i got rest : winv s -> todo s t = Scan (a := waiting) v k i got :: rest -> rest = [] /\ i = length got /\ owner v = t.
Proof.
  intros Hs Et. pose proof (v_shape _ _ _ _ _ Hs t) as Hsh. rewrite Et in Hsh. apply shape_cons in Hsh.
  destruct Hsh as [(?&?&?)|[(?&?&?&?)|[(?&?&?&?)|[(?&?&?&?&[= -> -> -> ->]&?&?&?&?)|[(?&?&?&?)|(?&_&Hx&_)]]]]]; done.
Qed.

Lemma react_step s t v k got : winv s -> todo s t = [Scan (a := waiting) v k (length got) got] -> box s v !! length got = None ->
  let s' := estep waiting owner s t Run in
  shaped waiting owner s' -> wake waiting owner n s' -> told_first waiting s' ->
  updated waiting owner (fun p => fst p <> EMPTY_VAL) s' -> winv s'.
Proof.
  intros Hs Et Hn. destruct (scan_head s t v k _ got [] Hs Et) as (_ & _ & Ev). pose proof (scan_done s t v k got Hs Et Hn) as Hq.
  unfold estep. rewrite Et. cbn [exec_op]. rewrite Hn. cbn [react waiting]. unfold wait_react. rewrite (v_edges _ _ _ _ _ Hs v).
  change (prop_t waiting) with vprop in *. change (cell_t waiting) with cell in *.
  destruct (on_update (mail_retrieve (map fst (tail got)) (prop s v)) (es v)) as [p' ms] eqn:E.
  destruct (react_ok s v got p' ms Hq E) as (R1 & R2 & R3 & [[R4 R5]|[R4 R5]]); subst ms.
  - cbn [flat_map map app]. intros B1 B2 B3 B4. eapply (frame owner n es b HB s); try done.
    + intros x. cbn. destruct (decide (x = v)) as [->|]; by us.
    + intros x. cbn. destruct (decide (x = v)) as [->|]; us; [done|apply (v_bm _ _ _ _ _ Hs)].
    + intros u x p _. unfold Wait_Proofs.pend. cbn. destruct (decide (owner u = t)) as [Eu|Eu]; us; [|done]. by rewrite Eu, upd_eq, Et.
    + intros k' o. cbn. destruct (decide (k' = t)) as [->|Hk]; us; [|apply (v_ops _ _ _ _ _ Hs)]. by intros ->%elem_of_list_singleton.
    + apply (v_done _ _ _ _ _ Hs).
    + intros x k1 i1 got1. cbn. destruct (decide (owner x = t)) as [Eu|Eu]; us; [by rewrite Eu, upd_eq|]. intros H. right. by exists k1, i1.
  - intros B1 B2 B3 B4. by apply (step_colour s t v k got p').
Qed.

Lemma init_step s t v m rest : winv s -> todo s t = Init (a := waiting) v m :: rest ->
  let s' := estep waiting owner s t Run in
  shaped waiting owner s' -> wake waiting owner n s' -> told_first waiting s' ->
  updated waiting owner (fun p => fst p <> EMPTY_VAL) s' -> winv s'.
Proof.
  intros Hs Et. pose proof (v_shape _ _ _ _ _ Hs t) as Hsh. rewrite Et in Hsh. apply shape_cons in Hsh.
  destruct Hsh as [(?&?&?)|[(?&?&[= <- <-]&->&Ev&_)|[(?&?&?&?)|[(?&?&?&?&?&?)|[(?&?&?&?)|(?&_&Hx&_)]]]]]; try done.
  destruct (v_count _ _ _ _ _ Hs v) as (w & r & Hb & Hw).
  assert (Em : merge waiting m v v (box s v) = (box s v, (w =? 0)%N)).
  { cbn [merge waiting]. unfold wait_merge. rewrite Nat.eqb_refl. change (cell_t waiting) with cell in *. by rewrite Hb. }
  unfold estep. rewrite Et. cbn [exec_op]. rewrite Em.
  match goal with |- let s' := ?x in _ => intros s' B1 B2 B3 B4 | |- _ -> _ -> _ -> _ -> winv ?x => set (s' := x); intros B1 B2 B3 B4 end.
  assert (Eb : forall x, box s' x = box s x). { intros x. cbn. unfold upd. by destruct (Nat.eqb_spec x v) as [->|]. }
  destruct (N.eqb_spec w 0) as [E0|E0].
  - assert (Hc : cnt s v = 0). { destruct Hw as [Hw|[_ ?]]; [|done]. rewrite Hw in E0. by destruct (cnt s v). }
    eapply (step_quiet owner n es b HB s t (Init (a := waiting) v m) [] [Begin (a := waiting) v KUpd] s'); try done.
    + intros o. by intros ->%elem_of_list_singleton.
    + intros x. cbn. intros H. apply elem_of_app. by left.
    + intros x. cbn. intros [H|H]%elem_of_app; [by apply (v_done _ _ _ _ _ Hs)|]. apply elem_of_list_singleton in H. injection H as ->. done.
  - eapply (step_quiet owner n es b HB s t (Init (a := waiting) v m) [] [] s'); try done.
    + intros o. by intros ?%elem_of_nil.
    + apply (v_done _ _ _ _ _ Hs).
Qed.

Lemma no_scan_after s t o rest v k i got : winv s -> todo s t = o :: rest -> rest <> [Scan (a := waiting) v k i got].
Proof.
  intros Hs Et ->. pose proof (v_shape _ _ _ _ _ Hs t) as Hsh. rewrite Et in Hsh. apply shape_cons in Hsh.
  destruct Hsh as [(?&?&?&?)|[(?&?&?&?&?)|[(?&?&?&?&?)|[(?&?&?&?&?&?&?)|[(?&?&?&?&?)|(?&_&_&[(l&x&E&Hx)|Hx])]]]]]; try done.
  - destruct l as [|? l]; [done|]. cbn in E. injection E as _ E. by destruct l.
  - by inversion Hx.
Qed.

Lemma winv_step s t c : static_choice c -> winv s -> winv (estep waiting owner s t c).
Proof.
  intros Hc Hs.
  assert (B1 : shaped waiting owner (estep waiting owner s t c)).
  { apply shaped_estep; [apply (v_shape _ _ _ _ _ Hs)|]. apply (w_queue _ _ _ _ (v_wake _ _ _ _ _ Hs)). }
  assert (B2 : wake waiting owner n (estep waiting owner s t c)) by (apply wake_estep; [done|apply (v_wake _ _ _ _ _ Hs)]).
  assert (B3 : told_first waiting (estep waiting owner s t c)) by (apply told_step; [by destruct c|apply (v_told _ _ _ _ _ Hs)]).
  assert (B4 : updated waiting owner (fun p => fst p <> EMPTY_VAL) (estep waiting owner s t c)).
  { apply updated_step; [apply (v_shape _ _ _ _ _ Hs)| |apply (v_upd _ _ _ _ _ Hs)]. intros v k i got rest Et Hn.
    destruct (scan_head s t v k i got rest Hs Et) as (-> & -> & Ev). pose proof (scan_done s t v k got Hs Et Hn) as Hq.
    cbn [react waiting fst]. unfold wait_react. rewrite (v_edges _ _ _ _ _ Hs v).
    change (prop_t waiting) with vprop in *. change (cell_t waiting) with cell in *.
    destruct (on_update (mail_retrieve (map fst (tail got)) (prop s v)) (es v)) as [p' ms] eqn:E. cbn [fst].
    destruct (react_ok s v got p' ms Hq E) as (_ & _ & R3 & _). rewrite empty_val. clear -R3. lia. }
  revert B1 B2 B3 B4. unfold estep. destruct (todo s t) as [|o rest] eqn:Et.
  - destruct c as [| |v l|v l|v m]; try done.
    + destruct (queue s t) as [|v q] eqn:Eq; [done|]. eapply (step_start owner n es b HB s); try done.
      intros o. by intros [->|[->|?%elem_of_nil]%elem_of_cons]%elem_of_cons.
    + destruct (owner v =? t); [|done]. eapply (step_start owner n es b HB s); try done. intros o. by intros ->%elem_of_list_singleton.
  - destruct c as [| |v l|v l|v m]; try done. destruct o as [src d m|d|d|v|v k|v k i got|l|v m].
    + intros B1 B2 B3 B4. pose proof (step_merge owner n Hown es b HU HB Hpos Hsize s t src d m rest) as H. unfold estep in H. rewrite Et in H. by apply H.
    + cbn [exec_op]. destruct (act s d =? 0).
      * eapply (step_quiet owner n es b HB s t _ rest [Put (a := waiting) d]); try done; [|apply (v_done _ _ _ _ _ Hs)].
        intros o. by intros ->%elem_of_list_singleton.
      * eapply (step_quiet owner n es b HB s t _ rest []); try done; [by intros o ?%elem_of_nil|apply (v_done _ _ _ _ _ Hs)|].
        intros v k i got H. by eapply no_scan_after in H.
    + eapply (step_quiet owner n es b HB s t _ rest []); try done; [by intros o ?%elem_of_nil|apply (v_done _ _ _ _ _ Hs)|].
      intros v k i got H. by eapply no_scan_after in H.
    + eapply (step_quiet owner n es b HB s t _ rest []); try done; [by intros o ?%elem_of_nil|apply (v_done _ _ _ _ _ Hs)|].
      intros x k i got H. by eapply no_scan_after in H.
    + eapply (step_quiet owner n es b HB s t _ rest [Scan (a := waiting) v k 0 []]); try done.
      * intros o. by intros ->%elem_of_list_singleton.
      * intros x H. cbn. apply elem_of_app. by left.
      * intros x. cbn. intros [H|H]%elem_of_app; [by apply (v_done _ _ _ _ _ Hs)|]. by apply elem_of_list_singleton in H.
      * by intros x k1 i1 got1 [= <- <- <- <-].
    + destruct (scan_head s t v k i got rest Hs Et) as (-> & -> & Ev). intros B1 B2 B3 B4.
      destruct (box s v !! length got) as [[c r]|] eqn:Eb.
      * cbn [exec_op] in *. rewrite Eb in *. by apply (step_read owner n Hown es b s t v k got c r).
      * pose proof (react_step s t v k got Hs Et Eb) as H. unfold estep in H. rewrite Et in H. by apply H.
    + assert (El : l = []). { apply (v_ops _ _ _ _ _ Hs t (Else (a := waiting) l)). rewrite Et. apply elem_of_list_here. }
      subst l. cbn [exec_op map app]. destruct (sent s t =? 0); (eapply (step_quiet owner n es b HB s t _ rest []); try done; [by intros o ?%elem_of_nil|apply (v_done _ _ _ _ _ Hs)|];
      intros v k i got H; by eapply no_scan_after in H).
    + pose proof (init_step s t v m rest Hs Et) as H. unfold estep in H. rewrite Et in H. done.
Qed.

Lemma winv_start : winv (estart waiting (fun v => wait_box es (b v) v) (fun _ => new_prop) es).
Proof.
  assert (Hp : forall u v p, pend (estart waiting (fun v => wait_box es (b v) v) (fun _ => new_prop) es) u v p = []) by done.
  assert (Hc : forall v, cnt (estart waiting (fun v => wait_box es (b v) v) (fun _ => new_prop) es) v = wait_count es v).
  { intros v. unfold Wait_Proofs.cnt. rewrite <- (higher_len es HB). f_equal. induction (higher es v) as [|x l IH]; [done|]. cbn [List.filter]. unfold undone at 1. cbn [estart prop fst new_prop].
    rewrite N.eqb_refl. cbn [orb]. by rewrite IH. }
  assert (Hb : forall v p c r, wait_box es (b v) v !! S p = Some (c, r) -> c = EMPTY_VAL /\ r = RNone).
  { intros v p c r H. cbn in H. apply lookup_replicate in H. by destruct H as [[= -> ->] _]. }
  constructor; try done.
  - apply shaped_start.
  - apply wake_start.
  - split; [by intros t v ?%elem_of_nil|by intros t v o ?%elem_of_nil].
  - intros v H. by apply elem_of_nil in H.
  - intros t o H. by apply elem_of_nil in H.
  - intros u v p _ _. rewrite Hp. split; [|done]. exists (script u v (colr (estart waiting (fun v => wait_box es (b v) v) (fun _ => new_prop) es) u) p). by rewrite app_nil_r.
  - intros v. cbn. by rewrite replicate_length.
  - intros u v p H. exists EMPTY_VAL, RNone. rewrite Hp. split_and!; try done. cbn. apply lookup_replicate_2. apply (Hpos u). apply (higher_ne es HB) in H. by destruct H.
  - intros v p c r H. left. destruct (Hb v p c r H) as [-> _]. done.
  - intros v. exists (N.of_nat (wait_count es v)), RNone. split; [done|]. left. by rewrite Hc.
  - intros v H. by apply elem_of_nil in H.
  - intros v. unfold zero_ok. rewrite Hc. intros H Hne. rewrite <- (higher_len es HB) in H. by destruct (higher es v).
  - intros v. cbn [estart prop]. exists (fun _ => False). apply grow_inv; [apply bm_inv_empty|done].
Qed.

Lemma winv_run sched : (forall t c, (t, c) ∈ sched -> static_choice c) ->
  winv (erun waiting owner (estart waiting (fun v => wait_box es (b v) v) (fun _ => new_prop) es) sched).
Proof.
  intros Hst. unfold erun. generalize winv_start. generalize (estart waiting (fun v => wait_box es (b v) v) (fun _ => new_prop) es).
  induction sched as [|[t c] sched IH]; intros s Hs; [done|]. cbn [fold_left]. apply IH.
  - intros t' c' H. apply (Hst t'). by apply elem_of_list_further.
  - apply winv_step; [|done]. apply (Hst t). apply elem_of_list_here.
Qed.
End react.
