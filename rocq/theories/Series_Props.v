(** C77: tables of time series. *)
From Verif Require Import Base RBO_Spec QcUtil Heap_Spec Heap_Model TopN_Spec TopN_Model TopN_Proofs Series_Spec Series_Model Series_Proofs.
From Coq Require Import QArith Qcanon.
Open Scope Qc_scope.

(** C77.  The columns are the vertices of all entries, each once. *)
Theorem C77_columns : forall db, List.NoDup (columns db) /\ forall c, In c (columns db) <-> exists entry, In entry db /\ In c (map fst entry).
Proof. exact columns_spec. Qed.
Print Assumptions C77_columns.

(** C77.  A row shows, in the column of a vertex, the value the entry has for it, and nothing if it has none. *)
Theorem C77_row : forall db entry j c,
  In entry db -> List.NoDup (map fst entry) -> nth_error (columns db) j = Some c ->
  exists cell, nth_error (wf_row (columns db) entry) j = Some cell /\ forall m, cell = Some m <-> shows entry c m.
Proof.
  intros db entry j c Hin Hnd Hj. rewrite <- lookup_nth_error in Hj. eexists. rewrite <- lookup_nth_error. split; [by apply row_val|].
  intros m. rewrite val_shows by done. destruct (is0 (val entry c 0)) eqn:E0.
  - apply is0_spec in E0. split; [done|]. intros [H1 H2]. congruence.
  - split; [intros [= <-]; split; [done|]; intros H; apply is0_spec in H; congruence|intros [-> _]; done].
Qed.
Print Assumptions C77_row.

(** C77.  With at least ten vertices an entry has the ten largest masses, each with its vertex,
    and no vertex twice (so that C77_row applies). *)
Theorem C77_top_ten : forall data, List.NoDup (map fst data) -> (10 <= length data)%nat ->
  exists entry res, wf_entry data = Some entry /\ top_n qlt (map snd data) 10 res /\ List.NoDup (map fst entry) /\
    forall c m, In (c, m) entry <-> exists i, In (i, m) res /\ nth_error data i = Some (c, m).
Proof.
  intros data Hnd Hlen. destruct (entry_full data Hnd) as (res & HT & Hle & He & Hnd' & Hc & _).
  assert (Hl : length res = places). { rewrite (tn_count _ _ _ _ HT), map_length. unfold places. lia. }
  rewrite Hl, Nat.sub_diag in He. simpl in He. rewrite app_nil_r in He. eexists _, res. split; [exact He|]. done.
Qed.
Print Assumptions C77_top_ten.

(** C77.  With fewer vertices every vertex is shown with its mass, except the vertex with raw id 0,
    whose cell is always empty. *)
Theorem C77_small : forall data, List.NoDup (map fst data) -> (length data < 10)%nat ->
  exists entry, wf_entry data = Some entry /\
    forall db j c, In entry db -> nth_error (columns db) j = Some c ->
    exists cell, nth_error (wf_row (columns db) entry) j = Some cell /\ forall m, cell = Some m <-> c <> 0%N /\ shows data c m.
Proof.
  intros data Hnd Hlen. destruct (entry_full data Hnd) as (res & HT & Hle & He & Hnd' & _ & Hc). cbn zeta in *.
  set (l := map _ res) in *.
  assert (Hl : (length res < places)%nat). { rewrite (tn_count _ _ _ _ HT), map_length. unfold places. lia. }
  eexists. split; [exact He|]. intros db j c Hin Hj. rewrite <- lookup_nth_error in Hj. eexists. rewrite <- lookup_nth_error. split; [by apply row_val|].
  intros m. assert (Hsh : forall c m, shows data c m <-> shows l c m). { intros c' m'. unfold shows. rewrite Hc; [done|unfold places; lia]. }
  rewrite Hsh, val_shows by done. rewrite val_app, val_pad. destruct (Nat.eqb_spec (places - length res) 0); [lia|]. rewrite andb_true_r.
  destruct (N.eqb_spec 0 c) as [<-|Hne].
  - destruct (is0 0) eqn:E0; [|assert (is0 0 = true) by (by apply is0_spec); congruence]. split; [done|]. intros [H _]. done.
  - destruct (is0 (val l c 0)) eqn:E0.
    + apply is0_spec in E0. split; [done|]. intros (_ & H1 & H2). congruence.
    + split; [intros [= <-]; split; [done|]; split; [done|]; intros H; apply is0_spec in H; congruence|intros (_ & -> & _); done].
Qed.
Print Assumptions C77_small.

(** C77, "every vertex of a small graph is shown": refuted; vertices 0 and 7 with masses 3/5 and 2/5. *)
Theorem C77_zero_refuted : exists data entry, data = [(0%N, Q2Qc (3 # 5)); (7%N, Q2Qc (2 # 5))] /\ wf_entry data = Some entry /\
  columns [entry] = [0%N; 7%N] /\ wf_row (columns [entry]) entry = [None; Some (Q2Qc (2 # 5))].
Proof. eexists _, _. split; [reflexivity|]. split; [vm_compute; reflexivity|]. split; [vm_compute; reflexivity|vm_compute; reflexivity]. Qed.
Print Assumptions C77_zero_refuted.

(** C77.  The table of derivatives: a row between the first and the last shows, for a vertex with a
    value in both neighbouring entries, the change per day between them, and nothing otherwise. *)
Theorem C77_derivative : forall db i j c p cur nxt,
  (forall x, In x db -> List.NoDup (map fst (snd x))) ->
  nth_error db i = Some p -> nth_error db (S i) = Some cur -> nth_error db (S (S i)) = Some nxt -> fst p <> fst nxt ->
  nth_error (columns (map snd db)) j = Some c ->
  exists row cell, nth_error (dv_table db) (S i) = Some (Some row) /\ nth_error row j = Some cell /\
    forall x, cell = Some x <-> exists a b, shows (snd p) c a /\ shows (snd nxt) c b /\ per_day a b (fst p) (fst nxt) x.
Proof.
  intros db i j c p cur nxt Hnd Hp Hcur Hnxt Ht Hj.
  assert (Np : List.NoDup (map fst (snd p))) by (apply Hnd; by apply nth_error_In in Hp).
  assert (Nn : List.NoDup (map fst (snd nxt))) by (apply Hnd; by apply nth_error_In in Hnxt).
  rewrite <- lookup_nth_error in Hp. rewrite <- lookup_nth_error in Hcur. rewrite <- lookup_nth_error in Hnxt. rewrite <- lookup_nth_error in Hj.
  destruct (dv_table_lookup db i j c p cur nxt Hp Hcur Hnxt Hj) as (row & Hrow & Hcell).
  eexists row, _. rewrite <- !lookup_nth_error. split; [exact Hrow|]. split; [exact Hcell|]. intros x. cbn zeta.
  set (a := val (snd p) c 0). set (b := val (snd nxt) c 0).
  assert (Ha : is0 a = true <-> a = 0) by apply is0_spec. assert (Hb : is0 b = true <-> b = 0) by apply is0_spec.
  split.
  - intros E. destruct (is0 b); [done|]. destruct (is0 a); [done|]. simpl in E. injection E as E. exists a, b.
    rewrite !val_shows by done. split; [split; [done|]; intros H; by apply Ha in H|]. split; [split; [done|]; intros H; by apply Hb in H|].
    apply (delta_spec a b (fst p) (fst nxt) x Ht). done.
  - intros (a' & b' & Sa & Sb & Hd). rewrite val_shows in Sa, Sb by done. destruct Sa as [Ea Na]. destruct Sb as [Eb Nb].
    fold a in Ea. fold b in Eb. subst a' b'. destruct (is0 b); [exfalso; by apply Nb, Hb|]. destruct (is0 a); [exfalso; by apply Na, Ha|].
    simpl. f_equal. symmetry. by apply (delta_spec a b (fst p) (fst nxt) x Ht).
Qed.
Print Assumptions C77_derivative.

(** C77.  Colouring: [same] counts the vertices with equal colours in both entries, same + different
    those that are in both, whatever the order in which the maps are gone through; the percentage
    is their ratio, and undefined exactly if no vertex is in both. *)
Theorem C77_same : forall cur prev, List.NoDup (map fst cur) -> List.NoDup (map fst prev) ->
  let '(same, diff) := same_diff cur prev in
  counts (agree cur prev) same /\ counts (both cur prev) (same + diff) /\
  (pct_same cur prev = None <-> forall v, ~ both cur prev v) /\
  forall p, pct_same cur prev = Some p -> p * inject_nat (same + diff) = Q2Qc 100 * inject_nat same.
Proof.
  intros cur prev Hc Hp. unfold pct_same. destruct (same_diff cur prev) as [same diff] eqn:Esd.
  destruct (same_diff_gen prev cur 0 0) as [H1 H2]. cbn zeta in H1, H2. unfold same_diff in Esd. rewrite Esd in H1, H2. cbn [fst snd] in H1, H2. simpl in H1, H2.
  assert (Hboth : counts (both cur prev) (same + diff)).
  { rewrite H2. apply counts_filter; [done|]. intros v. split.
    - intros (c & d & Hin & Hpr). exists c. split; [done|]. cbn [fst]. apply find_col_spec in Hpr; [|done]. by rewrite Hpr.
    - intros (c & Hin & Hf). cbn [fst] in Hf. destruct (find_col prev v) as [d|] eqn:Ed; [|done]. apply find_col_spec in Ed; [|done]. exists c, d. done. }
  split; [|split; [done|split]].
  - rewrite H1. apply counts_filter; [done|]. intros v. split.
    + intros (c & Hin & Hpr). exists c. split; [done|]. cbn [fst snd]. apply find_col_spec in Hpr; [|done]. by rewrite Hpr, N.eqb_refl.
    + intros (c & Hin & Hf). cbn [fst snd] in Hf. destruct (find_col prev v) as [d|] eqn:Ed; [|done]. apply N.eqb_eq in Hf. subst d.
      apply find_col_spec in Ed; [|done]. by exists c.
  - destruct Hboth as (l & Hl1 & Hl2 & Hl3). destruct (Nat.eqb_spec (same + diff) 0) as [E|E].
    + split; [|done]. intros _ v Hv. apply Hl2 in Hv. rewrite E in Hl3. by destruct l.
    + split; [done|]. intros H. exfalso. destruct l as [|v l]; [by simpl in Hl3|]. apply (H v), Hl2. by left.
  - destruct (Nat.eqb_spec (same + diff) 0) as [E|E]; [done|]. intros p [= <-]. field. intros E'. apply E. apply QcUtil.inj_eq. rewrite E'. by apply Qc_is_canon.
Qed.
Print Assumptions C77_same.

Definition e3 (a b : Z) : list (N * Qc) := [(4%N, Q2Qc (inject_Z a)); (9%N, Q2Qc (inject_Z b))].
Definition day (n : Z) : Qc := Q2Qc (inject_Z (86400 * n)).
Definition shown (c : option Qc) : option Q := option_map this c.
Example C77_case :
  map (option_map (map shown)) (dv_table [(day 1, e3 1 5); (day 2, e3 2 0); (day 4, e3 7 8)]) = [Some []; Some [Some (200 # 1)%Q; Some (100 # 1)%Q]; None] /\
  map shown (wf_row (columns [e3 2 0]) (e3 2 0)) = [Some (2 # 1)%Q; None] /\
  same_diff [(1, 0); (2, 1); (3, 1)]%N [(3, 0); (2, 1)]%N = (1, 1)%nat.
Proof. vm_compute. auto. Qed.
