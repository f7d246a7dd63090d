(** What a finished run sends: the edges every vertex ends with, and the hits of all
    notifications about them. *)
From stdpp Require Import numbers list_numbers.
From Verif Require Import Base TC_Spec Active_Model TC_Model TC_Count.
Open Scope nat_scope.

(** ** Flags *)
Lemma land_mask r : (r <= MASK)%N -> N.land r MASK = r.
Proof. intros H. change MASK with (N.ones 31). rewrite N.land_ones. apply N.mod_small. unfold MASK in H. change (2 ^ 31)%N with 2147483648%N. lia. Qed.
Lemma flag_mask r : (r <= MASK)%N -> N.land (N.lor r FLAG) MASK = r.
Proof. intros H. rewrite N.land_lor_distr_l, land_mask by done. change (N.land FLAG MASK) with 0%N. apply N.lor_0_r. Qed.
Lemma flag_flagged r : flagged (N.lor r FLAG) = true.
Proof.
  unfold flagged. rewrite N.land_lor_distr_l. destruct (N.eqb_spec (N.lor (N.land r FLAG) (N.land FLAG FLAG)) 0) as [H|]; [|done].
  apply N.lor_eq_0_iff in H. destruct H as [_ H]. done.
Qed.
Lemma flag_plain r : (r <= MASK)%N -> flagged r = false.
Proof. intros H. unfold flagged. rewrite <- (land_mask r H), <- N.land_assoc. change (N.land MASK FLAG) with 0%N. by rewrite N.land_0_r. Qed.
Lemma flag_empty r : (r < MASK)%N -> (N.lor r FLAG =? EMPTY)%N = false.
Proof. intros H. apply N.eqb_neq. intros E. assert (N.land (N.lor r FLAG) MASK = N.land EMPTY MASK) as E2 by (by rewrite E). rewrite flag_mask in E2 by lia. change (N.land EMPTY MASK) with MASK in E2. lia. Qed.
Lemma plain_empty r : (r < MASK)%N -> (r =? EMPTY)%N = false.
Proof. intros H. apply N.eqb_neq. unfold MASK, EMPTY in *. lia. Qed.

(** ** Filters of a range *)
Lemma filter_seq_nth (p : nat -> bool) n k i : nth_error (List.filter p (seq 0 n)) k = Some i <-> i < n /\ p i = true /\ length (List.filter p (seq 0 i)) = k.
Proof.
  revert k. induction n as [|n IH]; intros k; [cbn; destruct k; split; [done|lia|done|lia]|].
  rewrite seq_S, filter_app. cbn [List.filter Nat.add]. split.
  - intros H. destruct (decide (k < length (List.filter p (seq 0 n)))) as [Hk|Hk].
    + rewrite nth_error_app1 in H by lia. apply IH in H. destruct H as (H1 & H2 & H3). split; [lia|done].
    + rewrite nth_error_app2 in H by lia. destruct (p n) eqn:Ep; [|by destruct (k - _)].
      destruct (k - length (List.filter p (seq 0 n))) eqn:Ek; [|by destruct n0]. injection H as <-. split; [lia|]. split; [done|]. lia.
  - intros (H1 & H2 & H3). destruct (decide (i = n)) as [->|].
    + rewrite nth_error_app2 by lia. rewrite H3, Nat.sub_diag, H2. done.
    + assert (H : nth_error (List.filter p (seq 0 n)) k = Some i) by (apply IH; split; [lia|done]). rewrite nth_error_app1; [done|]. apply nth_error_Some. by rewrite H.
Qed.
Lemma filter_seq_firstn (p : nat -> bool) n i : i <= n -> firstn (length (List.filter p (seq 0 i))) (List.filter p (seq 0 n)) = List.filter p (seq 0 i).
Proof.
  intros H. replace n with (i + (n - i)) by lia. rewrite seq_app, filter_app. rewrite firstn_app, Nat.sub_diag, firstn_O, firstn_all. apply app_nil_r.
Qed.
Lemma filter_seq_mono (p : nat -> bool) i j : i <= j -> length (List.filter p (seq 0 i)) <= length (List.filter p (seq 0 j)).
Proof. intros H. replace j with (i + (j - i)) by lia. rewrite seq_app, filter_app, app_length. lia. Qed.
Lemma filter_seq_lt (p : nat -> bool) i j : p i = true -> i < j -> length (List.filter p (seq 0 i)) < length (List.filter p (seq 0 j)).
Proof. intros Hp H. pose proof (filter_seq_mono p (S i) j ltac:(lia)) as H1. rewrite seq_S, filter_app, app_length in H1. cbn [List.filter Nat.add] in H1. rewrite Hp in H1. cbn in H1. lia. Qed.
Lemma sum_filter_seq (f : nat -> nat) (p : nat -> bool) n : sum_list_with f (List.filter p (seq 0 n)) = sumn (fun i => if p i then f i else 0) n.
Proof.
  induction n as [|n IH]; [done|]. rewrite seq_S, filter_app, sum_list_with_app, IH. cbn [List.filter Nat.add sumn]. destruct (p n); cbn; lia.
Qed.
Lemma filter_len_sum {A} (p : A -> bool) l : length (List.filter p l) = sum_list_with (fun x => one (p x)) l.
Proof. induction l as [|x l IH]; [done|]. cbn. destruct (p x); cbn; lia. Qed.
Lemma sum_map {A B} (f : B -> nat) (g : A -> B) l : sum_list_with f (map g l) = sum_list_with (fun x => f (g x)) l.
Proof. induction l as [|x l IH]; [done|]. cbn. by rewrite IH. Qed.
Lemma sum_flat {A B} (f : B -> nat) (g : A -> list B) l : sum_list_with f (flat_map g l) = sum_list_with (fun x => sum_list_with f (g x)) l.
Proof. induction l as [|x l IH]; [done|]. cbn. by rewrite sum_list_with_app, IH. Qed.
Lemma sum_ext {A} (f g : A -> nat) l : (forall x, In x l -> f x = g x) -> sum_list_with f l = sum_list_with g l.
Proof. induction l as [|x l IH]; intros H; [done|]. cbn. rewrite H, IH; [done|intros; apply H; by right|by left]. Qed.
Lemma sum_add {A} (f g : A -> nat) l : sum_list_with (fun x => f x + g x) l = sum_list_with f l + sum_list_with g l.
Proof. induction l as [|x l IH]; [done|]. cbn. lia. Qed.
Lemma sum_seq_nth {A} (f : A -> nat) (d : A) l : sum_list_with (fun e => match nth_error l e with Some x => f x | None => 0 end) (seq 0 (length l)) = sum_list_with f l.
Proof.
  induction l as [|x l IH]; [done|]. cbn [length seq]. rewrite <- seq_shift. cbn [sum_list_with nth_error]. rewrite sum_map. cbn [nth_error]. by rewrite IH.
Qed.
Lemma sumn_sum {A} (g : nat -> A -> nat) (l : list A) M : sumn (fun v => sum_list_with (g v) l) M = sum_list_with (fun x => sumn (fun v => g v x) M) l.
Proof. induction M as [|M IH]; cbn [sumn]; [by induction l|]. rewrite IH. by rewrite <- sum_add. Qed.

Lemma closing_app m rs rs' pos : closing m (rs ++ rs', pos) = closing m (rs, pos) + closing m (rs', pos).
Proof. unfold closing. cbn. by rewrite filter_app, app_length. Qed.

(** ** The edges in the end *)
Section static.
Context (raw : nat -> N) (E : list (nat * nat)) (M : nat).
Hypothesis Hraw : forall u v, u < M -> v < M -> raw u = raw v -> u = v.
Hypothesis Hsmall : forall v, v < M -> (raw v < MASK)%N.
Hypothesis Hends : forall a b, (a, b) ∈ E -> a < M /\ b < M.
Notation n := (length (events E)).

Lemma event_in i : i < n -> fst (event E i) < M /\ snd (event E i) < M.
Proof.
  intros Hi. unfold event. assert (Hin : In (nth i (events E) (0, 0)) (events E)) by by apply nth_In.
  unfold events in Hin at 2. apply in_flat_map in Hin. destruct Hin as ([a b] & Hab & Hin). apply elem_of_list_In in Hab. apply Hends in Hab. cbn in Hin. destruct Hin as [<- |[<- |[]]]; cbn; tauto.
Qed.

Definition sraw (i : nat) : N :=
  let '(u, v) := event E i in
  if u =? v then EMPTY
  else match first E u v with
    | Some j => if j =? i then if Nat.even i then N.lor (raw v) FLAG else raw v else EMPTY
    | None => EMPTY end.
Definition spos (i : nat) : nat := length (List.filter (fun j => snd (event E j) =? snd (event E i)) (seq 0 i)).
Definition sedge (i : nat) : nat * tedge := (snd (event E i), (sraw i, spos i)).
Definition SE (u : nat) : list (nat * tedge) := map sedge (outs E u).
Definition Mv (v : nat) : list (N * nat) :=
  flat_map (fun w => if w =? v then [] else match first E w v with Some i => [(raw w, spos i)] | None => [] end) (seq 0 M).

Lemma ins_nth v k i : nth_error (ins E v) k = Some i <-> i < n /\ snd (event E i) = v /\ spos i = k.
Proof.
  unfold ins, those. rewrite filter_seq_nth, Nat.eqb_eq. unfold spos. split; intros (H1 & H2 & H3); split; auto; split; auto; [by rewrite H2|by rewrite <- H2].
Qed.
Lemma spos_lt i j : snd (event E i) = snd (event E j) -> (spos i <? spos j) = (i <? j).
Proof.
  intros H. unfold spos. rewrite H. destruct (Nat.ltb_spec i j) as [Hl|Hl].
  - apply Nat.ltb_lt. apply filter_seq_lt; [|done]. apply Nat.eqb_eq. by rewrite H.
  - apply Nat.ltb_ge. by apply filter_seq_mono.
Qed.
Lemma spos_inj i j : snd (event E i) = snd (event E j) -> spos i = spos j -> i = j.
Proof.
  intros H Hp. pose proof (spos_lt i j H) as H1. pose proof (spos_lt j i (eq_sym H)) as H2. rewrite Hp, Nat.ltb_irrefl in H1. rewrite Hp, Nat.ltb_irrefl in H2. symmetry in H1, H2. apply Nat.ltb_ge in H1, H2. lia.
Qed.

Lemma find_pos_app m m' r : find_pos (m ++ m') r = match find_pos m r with Some p => Some p | None => find_pos m' r end.
Proof. induction m as [|[k p] m IH]; [done|]. cbn. by destruct (k =? r)%N. Qed.
Lemma find_Mv v w : w < M -> find_pos (Mv v) (raw w) = if w =? v then None else match first E w v with Some i => Some (spos i) | None => None end.
Proof.
  intros Hw. unfold Mv. assert (G : forall k, k <= M -> find_pos (flat_map (fun w => if w =? v then [] else match first E w v with Some i => [(raw w, spos i)] | None => [] end) (seq 0 k)) (raw w) = if w <? k then if w =? v then None else match first E w v with Some i => Some (spos i) | None => None end else None).
  { induction k as [|k IH]; intros Hk; [done|]. rewrite seq_S, flat_map_app, find_pos_app, IH by lia. cbn [flat_map Nat.add app].
    destruct (Nat.ltb_spec w k), (Nat.ltb_spec w (S k)); try lia.
    - destruct (Nat.eqb_spec w v) as [->|]; [destruct (Nat.eqb_spec k v); [lia|]|]; [|destruct (first E w v); [done|]]; 
      (destruct (k =? v); [done|]; destruct (first E k v); [|done]; cbn; destruct (N.eqb_spec (raw k) (raw v)) as [E1|]; [apply Hraw in E1; lia|done]) || idtac.
      + destruct (first E k v); [|done]. cbn. destruct (N.eqb_spec (raw k) (raw v)) as [E1|]; [apply Hraw in E1; lia|done].
      + destruct (k =? v); [done|]. destruct (first E k v); [|done]. cbn. destruct (N.eqb_spec (raw k) (raw w)) as [E1|]; [apply Hraw in E1; lia|done].
    - assert (k = w) by lia. subst k. destruct (w =? v); [done|]. destruct (first E w v); [|done]. cbn. by rewrite N.eqb_refl.
    - destruct (k =? v); [done|]. destruct (first E k v); [|done]. cbn. destruct (N.eqb_spec (raw k) (raw w)) as [E1|]; [apply Hraw in E1; lia|done]. }
  rewrite G by done. by destruct (Nat.ltb_spec w M); [|lia].
Qed.

(** The raw identifier of an edge. *)
Lemma sraw_cases i : i < n -> let '(u, v) := event E i in
  (sraw i = EMPTY /\ (u = v \/ first E u v <> Some i)) \/
  (u <> v /\ first E u v = Some i /\ (sraw i =? EMPTY)%N = false /\ N.land (sraw i) MASK = raw v /\ flagged (sraw i) = Nat.even i).
Proof.
  intros Hi. pose proof (event_in i Hi) as [Hu Hv]. unfold sraw. destruct (event E i) as [u v]. cbn in Hu, Hv. specialize (Hsmall v Hv).
  destruct (Nat.eqb_spec u v) as [->|Hne]; [left; tauto|]. destruct (first E u v) as [j|] eqn:Ef; [|left; split; [done|]; by right].
  destruct (Nat.eqb_spec j i) as [->|Hji]; [|left; split; [done|]; right; congruence]. right. split; [done|]. split; [done|].
  destruct (Nat.even i).
  - split; [by apply flag_empty|]. split; [apply flag_mask; lia|apply flag_flagged].
  - split; [by apply plain_empty|]. split; [apply land_mask; lia|apply flag_plain; lia].
Qed.
Lemma flagged_empty : flagged EMPTY = true.
Proof. done. Qed.

(** Hits of a note at [v]. *)
Definition hit (v i j : nat) : bool :=      (* edge j, in a note sent along i *)
  let '(u, w) := event E j in
  negb (u =? w) && match first E u w with Some j' => j' =? j | None => false end && negb (w =? v) && match first E w v with Some k => k <? i | None => false end.
Lemma closes_hit v i j : j < n -> snd (event E i) = v -> closes (Mv v) (spos i) (sraw j) = hit v i j.
Proof.
  intros Hj Hi. pose proof (sraw_cases j Hj) as H. pose proof (event_in j Hj) as [_ Hw]. unfold closes, hit. destruct (event E j) as [u w] eqn:Ej. cbn in Hw.
  destruct H as [[-> H]|(H1 & H2 & H3 & H4 & _)].
  - rewrite N.eqb_refl. cbn [negb andb]. destruct (Nat.eqb_spec u w) as [|Hne]; [done|]. destruct H as [|H]; [done|]. destruct (first E u w) as [j'|]; [|done]. destruct (Nat.eqb_spec j' j); [subst; done|done].
  - rewrite H3, H4, find_Mv, H2, Nat.eqb_refl by done. rewrite (proj2 (Nat.eqb_neq u w)) by done. cbn [negb andb]. destruct (w =? v) eqn:Ewv; [done|]. cbn [negb andb].
    destruct (first E w v) as [k|] eqn:Ef; [|done]. apply spos_lt. apply first_event in Ef. rewrite Ef. done.
Qed.

Definition wt (v : nat) (ms : list (nat * tnote)) : nat := sum_list_with (fun '(d, x) => if d =? v then closing (Mv v) x else 0) ms.
Lemma wt_app v l l' : wt v (l ++ l') = wt v l + wt v l'.
Proof. apply sum_list_with_app. Qed.

Definition term (i : nat) : nat :=
  if flagged (sraw i) then 0
  else closing (Mv (snd (event E i))) (map sraw (List.filter (fun j => fst (event E j) =? fst (event E i)) (seq 0 i)), spos i).

Lemma term_lead i : i < n -> let '(u, v) := event E i in
  term i = match first E u v with Some j => if j =? i then sumn (fun w => one (lead E u v w)) M else 0 | None => 0 end.
Proof.
  intros Hi. pose proof (sraw_cases i Hi) as H. pose proof (event_in i Hi) as Hm. unfold term. destruct (event E i) as [u v] eqn:Ei. cbn [fst snd] in *.
  destruct H as [[-> H]|(H1 & H2 & H3 & H4 & ->)].
  - cbn [flagged]. rewrite flagged_empty. destruct (first E u v) as [j|] eqn:Ef; [|done]. destruct (Nat.eqb_spec j i) as [->|]; [|done]. destruct H as [->|]; [|done].
    symmetry. apply sumn_zero. intros w _. unfold lead. by rewrite Nat.eqb_refl.
  - rewrite H2, Nat.eqb_refl. destruct (Nat.even i) eqn:Ev.
    { symmetry. apply sumn_zero. intros w _. unfold lead. rewrite H2. unfold Nat.odd. rewrite Ev. cbn. destruct (first E u w), (first E w v); by rewrite ?andb_false_r. }
    unfold closing. cbn [fst snd]. rewrite filter_len_sum, sum_map, sum_filter_seq.
    rewrite (sumn_by (fun j => snd (event E j)) _ i M) by (intros j Hj; apply event_in; lia).
    apply sumn_ext. intros w Hw. unfold lead. rewrite H2. unfold Nat.odd. rewrite Ev. rewrite (proj2 (Nat.eqb_neq u v)) by done. cbn [negb andb].
    transitivity (sumn (fun j => if match first E u w with Some j' => j =? j' | None => false end then one (negb (u =? w) && negb (w =? v) && match first E w v with Some k => k <? i | None => false end) else 0) i).
    + apply sumn_ext. intros j Hj. rewrite closes_hit by (rewrite ?Ei; (lia || done)). unfold hit. destruct (event E j) as [u' w'] eqn:Ej. cbn [fst snd].
      destruct (Nat.eqb_spec w' w) as [->|Hne].
      * destruct (Nat.eqb_spec u' u) as [->|Hne2].
        -- destruct (first E u w) as [j'|] eqn:Ef; [|by rewrite andb_false_r]. rewrite (Nat.eqb_sym j j'). destruct (j' =? j); [by rewrite andb_true_r|by rewrite andb_false_r].
        -- destruct (first E u w) as [j'|] eqn:Ef; [|done]. destruct (Nat.eqb_spec j j') as [->|]; [|done]. apply first_event in Ef. congruence.
      * destruct (first E u w) as [j'|] eqn:Ef; [|done]. destruct (Nat.eqb_spec j j') as [->|]; [|done]. apply first_event in Ef. congruence.
    + destruct (first E u w) as [j'|] eqn:Ef.
      * rewrite sumn_at. destruct (first E w v) as [k|]; [|by rewrite !andb_false_r; destruct (j' <? i)]. destruct (j' <? i); cbn [andb]; [done|by rewrite andb_false_r].
      * rewrite andb_false_r. by apply sumn_zero.
Qed.
Lemma terms_triangles : sumn term n = triangles E M.
Proof.
  rewrite <- lead_triangles. rewrite (sumn_by (fun j => fst (event E j)) _ n M) by (intros j Hj; by apply event_in).
  apply sumn_ext. intros u Hu. rewrite (sumn_by (fun j => snd (event E j)) _ n M) by (intros j Hj; by apply event_in).
  apply sumn_ext. intros v Hv. transitivity (sumn (fun i => if match first E u v with Some j => i =? j | None => false end then sumn (fun w => one (lead E u v w)) M else 0) n).
  - apply sumn_ext. intros i Hi. pose proof (term_lead i Hi) as H. destruct (event E i) as [u' v'] eqn:Ei. cbn [fst snd]. rewrite H.
    destruct (Nat.eqb_spec v' v) as [->|Hne].
    + destruct (Nat.eqb_spec u' u) as [->|Hne2].
      * destruct (first E u v) as [j|]; [|done]. by rewrite Nat.eqb_sym.
      * destruct (first E u v) as [j|] eqn:Ef; [|done]. destruct (Nat.eqb_spec i j) as [->|]; [|done]. apply first_event in Ef. congruence.
    + destruct (first E u v) as [j|] eqn:Ef; [|done]. destruct (Nat.eqb_spec i j) as [->|]; [|done]. apply first_event in Ef. congruence.
  - destruct (first E u v) as [j|] eqn:Ef.
    + rewrite sumn_at. apply first_spec in Ef. destruct Ef as [Ef _]. by destruct (Nat.ltb_spec j n); [|lia].
    + rewrite sumn_zero by done. symmetry. apply sumn_zero. intros w _. unfold lead. rewrite Ef. by rewrite !andb_false_r.
Qed.

(** All that is ever sent. *)
Definition sent (u v k lim : nat) : nat := wt v (along (SE u) 0 k 0 (fun e => Nat.min lim e)).
Lemma outs_nth u k i : nth_error (outs E u) k = Some i <-> i < n /\ fst (event E i) = u /\ length (List.filter (fun j => fst (event E j) =? u) (seq 0 i)) = k.
Proof. unfold outs, those. rewrite filter_seq_nth, Nat.eqb_eq. tauto. Qed.
Lemma all_sent : sumn (fun v => sumn (fun u => sent u v (length (SE u)) (length (SE u))) M) M = triangles E M.
Proof.
  rewrite <- terms_triangles, sumn_swap. rewrite (sumn_by (fun j => fst (event E j)) _ n M) by (intros j Hj; by apply event_in).
  apply sumn_ext. intros u Hu. transitivity (sum_list_with term (outs E u)).
  - unfold sent, wt. rewrite sumn_sum. unfold along. rewrite sum_flat, Nat.sub_0_r. rewrite <- (sum_seq_nth term 0). replace (length (SE u)) with (length (outs E u)) by (unfold SE; by rewrite map_length).
    apply sum_ext. intros e He. apply in_seq in He. unfold SE at 1. rewrite nth_error_map. destruct (nth_error (outs E u) e) as [i|] eqn:Eo; [|apply nth_error_None in Eo; lia].
    cbn [option_map]. unfold sedge. apply outs_nth in Eo. destruct Eo as (H1 & H2 & H3). unfold term. destruct (flagged (sraw i)); [done|]. cbn [sum_list_with]. rewrite Nat.add_0_r.
    assert (Hv : snd (event E i) < M) by by apply event_in.
    set (v := snd (event E i)) in *. transitivity (sumn (fun v0 => if v0 =? v then closing (Mv v0) (map (fun x => fst (snd x)) (firstn (Nat.min (length (outs E u)) e - 0) (skipn 0 (SE u))), spos i) else 0) M).
    { apply sumn_ext. intros w _. by rewrite (Nat.eqb_sym w v). }
    rewrite (sumn_at (fun v0 => closing (Mv v0) _)). destruct (Nat.ltb_spec v M); [|lia]. f_equal. f_equal. rewrite H2, Nat.sub_0_r. cbn [skipn].
    unfold SE. rewrite drop_0, firstn_map, map_map. cbn [sedge fst snd]. f_equal. rewrite Nat.min_r by lia. rewrite <- H3. apply filter_seq_firstn. lia.
  - unfold outs, those. apply sum_filter_seq.
Qed.
End static.
