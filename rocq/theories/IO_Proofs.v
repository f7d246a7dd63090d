From Verif Require Import Base IO_Spec IO_Model.
Open Scope N_scope.

(** ** ToInt *)
Lemma to_int_app l b : to_int (l ++ [b]) = (to_int l * 10 + (b + 256 - 48) mod 256) mod w32.
Proof. unfold to_int. by rewrite fold_left_app. Qed.
Lemma decimal_app l b : decimal (l ++ [b]) = decimal l * 10 + (b - 48).
Proof.
  induction l as [|d l IH]; simpl.
  - change (10 ^ 0) with 1. lia.
  - rewrite IH, app_length. simpl. replace (N.of_nat (length l + 1)) with (N.succ (N.of_nat (length l))) by lia.
    rewrite N.pow_succ_r'. lia.
Qed.
Lemma to_int_ok l : Forall digit l -> to_int l = decimal l mod 2 ^ 32.
Proof.
  induction l as [|b l IH] using rev_ind; intros H; [done|].
  apply Forall_app in H as [Hl Hb]. apply Forall_inv in Hb.
  rewrite to_int_app, decimal_app, IH by done.
  assert ((b + 256 - 48) mod 256 = b - 48) as ->.
  { unfold digit in Hb. replace (b + 256 - 48) with (b - 48 + 1 * 256) by lia.
    rewrite N.mod_add by done. apply N.mod_small. lia. }
  change w32 with (2 ^ 32). rewrite <- N.add_mod_idemp_l, N.mul_mod_idemp_l by done.
  rewrite N.add_mod_idemp_l by done. done.
Qed.

(** ** Spaces *)
Lemma is_space_ok b : b < 256 -> is_byte_space b = true <-> space b.
Proof.
  intros Hb.
  assert (H : forall n, (n < 256)%nat -> is_byte_space (N.of_nat n) = existsb (N.eqb (N.of_nat n)) [9;10;11;12;13;32]).
  { assert (forallb (fun n => Bool.eqb (is_byte_space (N.of_nat n)) (existsb (N.eqb (N.of_nat n)) [9;10;11;12;13;32])) (seq 0 256) = true) as H by (vm_compute; reflexivity).
    intros n Hn. rewrite forallb_forall in H. apply eqb_prop, H, in_seq. lia. }
  specialize (H (N.to_nat b)). rewrite N2Nat.id in H. rewrite H by lia.
  rewrite existsb_exists. unfold space. split.
  - intros (x & Hx & ->%N.eqb_eq). done.
  - intros Hx. exists b. split; [done|apply N.eqb_refl].
Qed.
Definition isb (b : N) : bool := existsb (N.eqb b) [9;10;11;12;13;32].
Lemma isb_ok b : isb b = true <-> space b.
Proof.
  unfold isb, space. rewrite existsb_exists. split.
  - intros (x & Hx & ->%N.eqb_eq). done.
  - intros Hx. exists b. split; [done|apply N.eqb_refl].
Qed.
Lemma isb_false b : isb b = false <-> ~ space b.
Proof. rewrite <- isb_ok. destruct (isb b); split; congruence. Qed.
Lemma is_space_isb b : b < 256 -> is_byte_space b = isb b.
Proof.
  intros Hb. pose proof (is_space_ok b Hb) as H. pose proof (isb_ok b) as H2.
  destruct (is_byte_space b), (isb b); intuition congruence.
Qed.

(** ** The words of a line, as a function *)
Fixpoint words_from (cur l : list N) : list (list N) :=
  match l with
  | [] => match cur with [] => [] | _ => [rev cur] end
  | c :: l => if isb c then match cur with [] => words_from [] l | _ => rev cur :: words_from [] l end
              else words_from (c :: cur) l
  end.
Lemma words_spaces s l : Forall space s -> words_from [] (s ++ l) = words_from [] l.
Proof. induction 1 as [|b s Hb Hs IH]; simpl; [done|]. apply isb_ok in Hb. by rewrite Hb. Qed.
Lemma words_word w cur l : Forall (fun b => ~ space b) w ->
  words_from cur (w ++ l) = words_from (rev w ++ cur) l.
Proof.
  intros H. revert cur. induction H as [|b w Hb Hw IH]; intros cur; simpl; [done|].
  apply isb_false in Hb. rewrite Hb, IH, <- app_assoc. done.
Qed.
Lemma splits_words l ws : splits l ws -> ws = words_from [] l.
Proof.
  induction 1 as [s Hs|s w Hs Hw Hn|s w c rest ws Hs Hw Hn Hc H IH].
  - rewrite <- (app_nil_r s). by rewrite words_spaces.
  - rewrite words_spaces by done. rewrite <- (app_nil_r w) at 2. rewrite words_word by done. simpl.
    rewrite app_nil_r. destruct (rev w) eqn:E.
    + apply (f_equal (@rev N)) in E. rewrite rev_involutive in E. done.
    + rewrite <- E, rev_involutive. done.
  - rewrite words_spaces, words_word by done. simpl. rewrite app_nil_r.
    apply isb_ok in Hc. rewrite Hc. destruct (rev w) eqn:E.
    + apply (f_equal (@rev N)) in E. rewrite rev_involutive in E. done.
    + rewrite <- E, rev_involutive. by f_equal.
Qed.
Lemma splits_pre s l ws : Forall space s -> splits l ws -> splits (s ++ l) ws.
Proof.
  intros Hs H. destruct H.
  - constructor. by apply Forall_app.
  - rewrite app_assoc. constructor; try done. by apply Forall_app.
  - rewrite app_assoc. constructor; try done. by apply Forall_app.
Qed.
Lemma words_splits l cur : Forall (fun b => ~ space b) cur ->
  splits (rev cur ++ l) (words_from cur l).
Proof.
  revert cur. induction l as [|c l IH]; intros cur Hc; simpl.
  - rewrite app_nil_r. destruct cur as [|b cur]; [apply sp_blank; constructor|].
    change (rev (b :: cur)) with ([] ++ rev (b :: cur)) at 1. constructor; [done| |by apply Forall_rev].
    simpl. by destruct (rev cur).
  - destruct (isb c) eqn:E.
    + apply isb_ok in E. destruct cur as [|b cur].
      * simpl. apply (splits_pre [c]); [by constructor|]. by apply (IH []).
      * change (rev (b :: cur) ++ c :: l) with ([] ++ rev (b :: cur) ++ c :: l). constructor; try done.
        -- simpl. by destruct (rev cur).
        -- by apply Forall_rev.
        -- by apply (IH []).
    + apply isb_false in E. specialize (IH (c :: cur)). simpl in IH.
      rewrite <- app_assoc in IH. apply IH. by constructor.
Qed.
Lemma splits_iff l ws : splits l ws <-> ws = words_from [] l.
Proof. split; [apply splits_words|]. intros ->. by apply (words_splits l []). Qed.

(** ** FastFields *)
Section ff.
  Context (buf : list N) (Hbuf : Forall (fun b => b < 256) buf).

  Lemma byte_at i b : buf !! i = Some b -> is_byte_space b = isb b.
  Proof. intros H. apply is_space_isb. exact (proj1 (Forall_lookup _ _) Hbuf _ _ H). Qed.
  Lemma drop_S_lookup i b : buf !! i = Some b -> drop i buf = b :: drop (S i) buf.
  Proof. intros H. by rewrite (drop_S buf b i). Qed.

  Lemma skip_spaces_ok fuel i : (i <= length buf)%nat -> (length buf <= fuel + i)%nat ->
    let j := skip_spaces fuel buf i in
    (i <= j <= length buf)%nat /\
    (exists s, Forall space s /\ drop i buf = s ++ drop j buf) /\
    (forall b, buf !! j = Some b -> isb b = false).
  Proof.
    revert i. induction fuel as [|f IH]; intros i Hi Hf; simpl.
    - assert (i = length buf) as -> by lia. split; [lia|]. split; [by exists []|].
      intros b Hb. apply lookup_lt_Some in Hb. lia.
    - destruct (buf !! i) as [b|] eqn:E.
      + rewrite (byte_at _ _ E). destruct (isb b) eqn:Eb.
        * apply lookup_lt_Some in E as Hlt. destruct (IH (S i)) as (H1 & (s & H2 & H3) & H4); [lia|lia|].
          split; [lia|]. split; [|done]. exists (b :: s). apply isb_ok in Eb. split; [by constructor|].
          rewrite (drop_S_lookup _ _ E), H3. done.
        * split; [lia|]. split; [by exists []|]. intros b' Hb'. congruence.
      + apply lookup_ge_None in E. split; [lia|]. split; [by exists []|].
        intros b Hb. apply lookup_lt_Some in Hb. lia.
  Qed.

  Definition place (fields : list (list N)) (fidx : nat) (ws : list (list N)) :=
    if (fidx + length ws <=? length fields)%nat
    then Some (take fidx fields ++ ws ++ drop (fidx + length ws) fields) else None.
  Definition finish (r : option (list (list N) * nat * nat)) :=
    match r with
    | None => None
    | Some (fields, start, fidx) =>
        if (start <? length buf)%nat then
          if (fidx <? length fields)%nat then Some (<[fidx := drop start buf]> fields) else None
        else Some fields
    end.
  Lemma place_cons fields fidx w ws : (fidx < length fields)%nat ->
    place (<[fidx := w]> fields) (S fidx) ws = place fields fidx (w :: ws).
  Proof.
    intros H. unfold place. rewrite insert_length. cbn [length].
    replace (S fidx + length ws)%nat with (fidx + S (length ws))%nat by lia.
    destruct (_ <=? _)%nat; [|done]. f_equal.
    rewrite (take_S_r _ _ w) by (by apply list_lookup_insert).
    rewrite <- app_assoc. simpl. rewrite take_insert by lia. do 3 f_equal.
    rewrite drop_insert_gt by lia. done.
  Qed.
  Lemma place_nil fields fidx : (fidx <= length fields)%nat -> place fields fidx [] = Some fields.
  Proof.
    intros H. unfold place. simpl. rewrite Nat.add_0_r.
    destruct (Nat.leb_spec fidx (length fields)); [|lia]. by rewrite take_drop.
  Qed.
  Lemma slice_start i b start : (start <= i)%nat -> buf !! i = Some b ->
    slice buf start (S i) = slice buf start i ++ [b].
  Proof.
    intros H Hb. unfold slice. replace (S i - start)%nat with (S (i - start)) by lia.
    apply take_S_r. rewrite lookup_drop. by replace (start + (i - start))%nat with i by lia.
  Qed.
  Lemma slice_drop a b : (a <= b)%nat -> drop a buf = slice buf a b ++ drop b buf.
  Proof.
    intros H. unfold slice. rewrite <- (take_drop (b - a) (drop a buf)) at 1. f_equal.
    rewrite drop_drop. f_equal. lia.
  Qed.
  Lemma slice_len a b : (a <= b <= length buf)%nat -> length (slice buf a b) = (b - a)%nat.
  Proof. intros H. unfold slice. rewrite take_length, drop_length. lia. Qed.

  Lemma ff_loop_ok fuel : forall fields start i fidx,
    (start <= i <= length buf)%nat -> (length buf <= fuel + i)%nat ->
    (fidx <= length fields)%nat ->
    Forall (fun b => ~ space b) (slice buf start i) ->
    (start = i -> forall b, buf !! i = Some b -> isb b = false) ->
    finish (ff_loop fuel fields buf start i fidx)
    = place fields fidx (words_from [] (drop start buf)).
  Proof.
    assert (Hend : forall fields start fidx,
      (start <= length buf)%nat -> (fidx <= length fields)%nat ->
      Forall (fun b => ~ space b) (drop start buf) ->
      finish (Some (fields, start, fidx)) = place fields fidx (words_from [] (drop start buf))).
    { intros fields start fidx Hs Hf Hn. cbn [finish].
      destruct (Nat.ltb_spec start (length buf)).
      - assert (words_from [] (drop start buf) = [drop start buf]) as ->.
        { symmetry. apply splits_words. apply (sp_last []); [done| |done].
          intros E. apply (f_equal length) in E. rewrite drop_length in E. simpl in E. lia. }
        unfold place. simpl. destruct (Nat.ltb_spec fidx (length fields)), (Nat.leb_spec (fidx + 1) (length fields));
          try lia; [|done].
        f_equal. rewrite insert_take_drop by done. do 3 f_equal. lia.
      - rewrite drop_ge by lia. by rewrite place_nil. }
    induction fuel as [|f IH]; intros fields start i fidx Hi Hfu Hfi Hn Hst; cbn [ff_loop].
    - apply Hend; [lia|done|]. assert (i = length buf) as -> by lia.
      rewrite (slice_drop start (length buf)), drop_all, app_nil_r by lia. done.
    - destruct (buf !! i) as [b|] eqn:E.
      + rewrite (byte_at _ _ E). apply lookup_lt_Some in E as Hlt. destruct (isb b) eqn:Eb; simpl.
        * assert (start <> i) by (intros Es; rewrite (Hst Es _ eq_refl) in Eb; done).
          assert (Hw : forall ws, words_from [] (drop (S i) buf) = ws ->
                    words_from [] (drop start buf) = slice buf start i :: ws).
          { intros ws <-. symmetry. apply splits_words.
            rewrite (slice_drop start i), (drop_S_lookup _ _ E) by lia.
            apply (sp_cons [] _ b); [done| |done|by apply isb_ok|by apply splits_iff].
            intros E2. apply (f_equal length) in E2. rewrite slice_len in E2 by lia. simpl in E2. lia. }
          destruct (Nat.ltb_spec fidx (length fields)).
          -- destruct (skip_spaces_ok (length buf) (S i)) as (H1 & (s & H2 & H3) & H4); [lia|lia|].
             set (j := skip_spaces (length buf) buf (S i)) in *.
             rewrite (IH (<[fidx := slice buf start i]> fields) j j (S fidx)).
             ++ rewrite place_cons by done. f_equal. symmetry. apply Hw.
                rewrite H3. by apply words_spaces.
             ++ lia.
             ++ lia.
             ++ rewrite insert_length. lia.
             ++ unfold slice. rewrite Nat.sub_diag. constructor.
             ++ intros _. apply H4.
          -- rewrite (Hw _ eq_refl). unfold place. simpl.
             destruct (Nat.leb_spec (fidx + S (length (words_from [] (drop (S i) buf)))) (length fields)); [lia|done].
        * apply IH; try lia.
          rewrite (slice_start _ b) by (try done; lia). apply Forall_app. split; [done|].
          constructor; [|constructor]. by apply isb_false.
      + apply lookup_ge_None in E. apply Hend; [lia|done|].
        rewrite (slice_drop start i), (drop_ge buf i), app_nil_r by lia. done.
  Qed.
End ff.

Lemma fast_fields_ok fields buf ws : Forall (fun b => b < 256) buf -> splits buf ws ->
  fast_fields fields buf =
    if (length ws <=? length fields)%nat then Some (ws ++ drop (length ws) fields) else None.
Proof.
  intros Hb Hws. apply splits_words in Hws.
  destruct (skip_spaces_ok buf Hb (length buf) 0) as (H1 & (s & H2 & H3) & H4); [lia|lia|].
  unfold fast_fields. set (i := skip_spaces (length buf) buf 0) in *.
  change (finish buf (ff_loop (length buf) fields buf i i 0) =
    if (length ws <=? length fields)%nat then Some (ws ++ drop (length ws) fields) else None).
  rewrite ff_loop_ok; try done; try lia.
  - rewrite Hws. change buf with (drop 0 buf) at 2 3 4. rewrite H3, words_spaces by done. done.
  - unfold slice. rewrite Nat.sub_diag. constructor.
Qed.

(** ** Lines *)
Lemma index_byte_some c l i : index_byte c l = Some i ->
  exists a r, l = a ++ c :: r /\ length a = i /\ Forall (fun x => x <> c) a.
Proof.
  revert i. induction l as [|x l IH]; intros i H; simpl in H; [done|].
  destruct (N.eqb_spec x c) as [->|Hn].
  - injection H as <-. by exists [], l.
  - destruct (index_byte c l) as [k|]; [|done]. injection H as <-.
    destruct (IH k eq_refl) as (a & r & -> & <- & Ha). exists (x :: a), r. split; [done|]. split; [done|].
    by constructor.
Qed.
Lemma index_byte_none c l : index_byte c l = None <-> Forall (fun x => x <> c) l.
Proof.
  induction l as [|x l IH]; simpl; [by split|]. destruct (N.eqb_spec x c) as [->|Hn].
  - split; [done|]. intros H. by apply Forall_inv in H.
  - destruct (index_byte c l) as [k|]; simpl.
    + split; [done|]. intros H. apply Forall_inv_tail in H. by apply IH in H.
    + split; [|done]. intros _. constructor; [done|]. by apply IH.
Qed.

Lemma lines_from_word a cur l : Forall (fun x => x <> 10) a ->
  lines_from cur (a ++ l) = lines_from (rev a ++ cur) l.
Proof.
  intros H. revert cur. induction H as [|x a Hx Ha IH]; intros cur; simpl; [done|].
  apply N.eqb_neq in Hx. rewrite Hx, IH, <- app_assoc. done.
Qed.
Lemma lines_nl a l : Forall (fun x => x <> 10) a -> lines (a ++ 10 :: l) = a :: lines l.
Proof.
  intros H. unfold lines. rewrite lines_from_word by done. simpl.
  by rewrite app_nil_r, rev_involutive.
Qed.
Lemma lines_last a : Forall (fun x => x <> 10) a -> a <> [] -> lines a = [a].
Proof.
  intros H Hn. unfold lines. rewrite <- (app_nil_r a) at 1. rewrite lines_from_word by done. simpl.
  rewrite app_nil_r. destruct (rev a) eqn:E.
  - apply (f_equal (@rev N)) in E. rewrite rev_involutive in E. done.
  - rewrite <- E, rev_involutive. done.
Qed.

(** What is still to be delivered, and the shape of the state. *)
Definition pending (s : scanner) : list N := slice (sbuf s) (sstart s) (send s) ++ file s.
Definition wf (B : nat) (s : scanner) : Prop :=
  length (sbuf s) = B /\ (sstart s <= send s <= B)%nat.
Definition short_lines (B : nat) (l : list N) : Prop :=
  Forall (fun x => length x < B - B / 2)%nat (lines l).

Lemma shift_loop_ok n i start buf : (start + i + n <= length buf)%nat -> (0 < start)%nat ->
  let r := shift_loop n i start buf in
  length r = length buf /\
  (forall k, (i <= k < i + n)%nat -> r !! k = buf !! (start + k)%nat) /\
  (forall k, (k < i)%nat -> r !! k = buf !! k).
Proof.
  revert i buf. induction n as [|n IH]; intros i buf Hl Hs; simpl.
  - split; [done|]. split; [intros k Hk; lia|done].
  - destruct (lookup_lt_is_Some_2 buf (start + i)) as [b Hb]; [lia|]. rewrite Hb.
    destruct (IH (S i) (<[i := b]> buf)) as (L & H1 & H2); [rewrite insert_length; lia|done|].
    rewrite insert_length in L. split; [done|]. split.
    + intros k Hk. destruct (decide (k = i)) as [->|Hne].
      * rewrite H2 by lia. rewrite Hb. apply list_lookup_insert. lia.
      * rewrite H1 by lia. apply list_lookup_insert_ne. lia.
    + intros k Hk. rewrite H2 by lia. apply list_lookup_insert_ne. lia.
Qed.
Lemma shift_slice start fin buf : (0 < start <= fin)%nat -> (fin <= length buf)%nat ->
  slice (shift_loop (fin - start) 0 start buf) 0 (fin - start) = slice buf start fin.
Proof.
  intros H1 H2. destruct (shift_loop_ok (fin - start) 0 start buf) as (L & P & _); [lia|lia|].
  apply list_eq. intros k. unfold slice. rewrite drop_0, Nat.sub_0_r.
  destruct (decide (k < fin - start)%nat) as [Hk|Hk].
  - rewrite !lookup_take by done. rewrite P by lia. by rewrite lookup_drop.
  - rewrite !lookup_take_ge by lia. done.
Qed.

(** The state at the read: buffer not full. *)
Lemma do_read_ok B s : wf B s -> (send s < B)%nat ->
  let '(s', eof) := do_read s in
  wf B s' /\ pending s' = pending s /\ sstart s' = sstart s /\
  (eof = true -> file s = [] /\ s' = s) /\
  (eof = false -> (length (file s') < length (file s))%nat).
Proof.
  intros [Hl Hb] Hs. unfold do_read. destruct (file s) as [|x f] eqn:E.
  - rewrite <- E. repeat split; try done; try lia.
  - rewrite <- E. assert (Hn : (1 <= read_size s <= Nat.min (B - send s) (length (file s)))%nat).
    { unfold read_size. rewrite Hl. assert (1 <= length (file s))%nat by (rewrite E; simpl; lia).
      destruct (reads s); lia. }
    set (n := read_size s) in *.
    assert (Hlen : length (take n (file s)) = n) by (rewrite take_length; lia).
    repeat split; cbn [sbuf sstart send file]; try lia; try done.
    + rewrite !app_length, Hlen, take_length, drop_length. lia.
    + unfold pending. cbn [sbuf sstart send file]. unfold slice.
      rewrite drop_app_le by (rewrite take_length; lia).
      rewrite take_app_ge by (rewrite drop_length, take_length; lia).
      rewrite <- app_assoc. f_equal.
      { rewrite take_drop_commute. do 2 f_equal. lia. }
      rewrite drop_length, take_length.
      replace (send s + n - sstart s - (send s `min` length (sbuf s) - sstart s))%nat with n by lia.
      rewrite <- Hlen at 1. rewrite take_app. by rewrite take_drop.
    + intros _. rewrite drop_length. lia.
Qed.

Definition expected (l : list N) (r : scan_res) (rest : list N) : Prop :=
  match lines l with
  | [] => r = Nil /\ rest = []
  | x :: _ => r = Token x /\ lines l = x :: lines rest /\ (length rest < length l)%nat
  end.

Lemma expected_nl a r : Forall (fun x => x <> 10) a -> expected (a ++ 10 :: r) (Token a) r.
Proof.
  intros H. unfold expected. rewrite lines_nl by done. split; [done|]. split; [done|].
  rewrite app_length. simpl. lia.
Qed.

Lemma found_line B s i : wf B s ->
  index_byte 10 (slice (sbuf s) (sstart s) (send s)) = Some i ->
  wf B (Scanner (sbuf s) (sstart s + i + 1) (send s) (file s) (reads s)) /\
  expected (pending s) (Token (slice (sbuf s) (sstart s) (sstart s + i)))
    (pending (Scanner (sbuf s) (sstart s + i + 1) (send s) (file s) (reads s))).
Proof.
  intros [Hl Hb] Hi. apply index_byte_some in Hi as (a & r & E & Ha & Hn).
  assert (Hlen : (length (slice (sbuf s) (sstart s) (send s)) = send s - sstart s)%nat).
  { apply slice_len. lia. }
  rewrite E, app_length in Hlen. simpl in Hlen.
  assert (Ea : slice (sbuf s) (sstart s) (sstart s + i) = a).
  { unfold slice in *. replace (sstart s + i - sstart s)%nat with i by lia.
    transitivity (take i (take (send s - sstart s) (drop (sstart s) (sbuf s)))).
    - rewrite take_take. f_equal. lia.
    - rewrite E, <- Ha. apply take_app. }
  assert (Er : slice (sbuf s) (sstart s + i + 1) (send s) = r).
  { unfold slice in *.
    transitivity (drop (i + 1) (take (send s - sstart s) (drop (sstart s) (sbuf s)))).
    - rewrite skipn_firstn_comm, drop_drop. f_equal; [lia|]. f_equal. lia.
    - rewrite E, <- Ha. replace (a ++ 10 :: r) with ((a ++ [10]) ++ r) by (by rewrite <- app_assoc).
      rewrite <- (drop_app (a ++ [10]) r) at 2. f_equal. rewrite app_length. simpl. lia. }
  split.
  - split; cbn [sbuf sstart send]; [done|lia].
  - unfold pending. cbn [sbuf sstart send file]. rewrite E, Ea, Er, <- app_assoc. simpl.
    by apply expected_nl.
Qed.

Lemma scan_ok B fuel : (0 < B)%nat -> forall s, wf B s ->
  Forall (fun x => x <> 10) (slice (sbuf s) (sstart s) (send s)) ->
  short_lines B (pending s) -> (length (file s) + 2 <= fuel)%nat ->
  let '(r, s') := scan fuel s in wf B s' /\ expected (pending s) r (pending s').
Proof.
  intros HB. induction fuel as [|f IH]; intros s Hwf Hn Hsh Hf; [lia|]. cbn [scan].
  set (s1 := if (0 <? sstart s)%nat && (length (sbuf s) / 2 <? sstart s)%nat then _ else s).
  assert (H1 : wf B s1 /\ pending s1 = pending s /\ file s1 = file s /\
    slice (sbuf s1) (sstart s1) (send s1) = slice (sbuf s) (sstart s) (send s) /\
    (send s1 < B)%nat).
  { destruct Hwf as [Hl Hb].
    assert (Hplen : (sstart s < send s)%nat -> (send s - sstart s < B - B / 2)%nat).
    { intros Hlt. unfold short_lines in Hsh. unfold pending in Hsh.
      set (a := slice (sbuf s) (sstart s) (send s)) in *.
      assert (Ha : length a = (send s - sstart s)%nat) by (apply slice_len; lia).
      assert (exists x r, lines (a ++ file s) = (a ++ x) :: r) as (x & r & E).
      { destruct (index_byte 10 (file s)) as [k|] eqn:Ek.
        - apply index_byte_some in Ek as (b & c & -> & _ & Hbn). exists b, (lines c).
          rewrite app_assoc. apply lines_nl. by apply Forall_app.
        - apply index_byte_none in Ek. exists (file s), []. apply lines_last; [by apply Forall_app|].
          intros E. apply app_eq_nil in E as [E _]. rewrite E in Ha. simpl in Ha. lia. }
      rewrite E in Hsh. apply Forall_inv in Hsh. rewrite app_length in Hsh. lia. }
    unfold s1. destruct (Nat.ltb_spec 0 (sstart s)), (Nat.ltb_spec (length (sbuf s) / 2) (sstart s));
      cbn [andb].
    - cbn [sbuf sstart send file]. unfold wf, pending. cbn [sbuf sstart send file].
      rewrite shift_slice by lia.
      destruct (shift_loop_ok (send s - sstart s) 0 (sstart s) (sbuf s)) as (L & _); [lia|lia|].
      rewrite Hl in *. repeat split; try done; lia.
    - repeat split; try done; lia.
    - rewrite Hl in *. exfalso. lia.
    - repeat split; try done; lia. }
  clearbody s1. destruct H1 as (Hwf1 & Hp1 & Hf1 & Hs1 & Hlt).
  assert ((send s1 =? length (sbuf s1))%nat = false) as ->.
  { destruct Hwf1 as [-> _]. apply Nat.eqb_neq. lia. }
  pose proof (do_read_ok B s1 Hwf1 Hlt) as Hr. destruct (do_read s1) as [s2 eof].
  destruct Hr as (Hwf2 & Hp2 & Hst2 & Heof & Hneof). rewrite <- Hp1, <- Hp2.
  set (found := if (sstart s2 <? send s2)%nat then _ else None).
  assert (Hfound : found = index_byte 10 (slice (sbuf s2) (sstart s2) (send s2))).
  { unfold found. destruct (Nat.ltb_spec (sstart s2) (send s2)); [done|]. destruct Hwf2 as [_ ?].
    unfold slice. replace (send s2 - sstart s2)%nat with O by lia. done. }
  rewrite Hfound. clear found Hfound.
  destruct (index_byte 10 _) as [i|] eqn:Ei.
  { by apply found_line. }
  apply index_byte_none in Ei. destruct eof.
  - destruct (Heof eq_refl) as [Hnil ->]. destruct (Nat.ltb_spec (sstart s1) (send s1)) as [Hlt2|Hge].
    + split.
      { destruct Hwf2 as [? ?]. split; cbn [sbuf sstart send]; [done|lia]. }
      unfold expected, pending. cbn [sbuf sstart send file]. rewrite Hnil, app_nil_r.
      assert (Hsl : length (slice (sbuf s1) (sstart s1) (send s1)) = (send s1 - sstart s1)%nat).
      { destruct Hwf2 as [? ?]. apply slice_len. lia. }
      rewrite lines_last; [|done|intros E; rewrite E in Hsl; simpl in Hsl; lia].
      assert (slice (sbuf s1) (send s1) (send s1) ++ [] = []) as ->.
      { unfold slice. by rewrite Nat.sub_diag. }
      split; [done|]. split; [done|]. simpl. lia.
    + split; [done|]. unfold expected.
      assert (pending s1 = []) as ->.
      { unfold pending. rewrite Hnil, app_nil_r. unfold slice.
        by replace (send s1 - sstart s1)%nat with O by lia. }
      done.
  - specialize (Hneof eq_refl). apply IH; [done|done| |].
    + by rewrite Hp2, Hp1.
    + rewrite Hf1 in Hneof. lia.
Qed.

Lemma next_line_ok B s : (0 < B)%nat -> wf B s -> short_lines B (pending s) ->
  let '(r, s') := next_line s in wf B s' /\ expected (pending s) r (pending s').
Proof.
  intros HB Hwf Hsh. unfold next_line. destruct (index_byte 10 _) as [i|] eqn:E.
  - by apply found_line.
  - apply index_byte_none in E. by apply scan_ok.
Qed.

Lemma read_lines_ok B fuel : (0 < B)%nat -> forall s, wf B s -> short_lines B (pending s) ->
  (length (pending s) < fuel)%nat -> read_lines fuel s = (lines (pending s), Nil).
Proof.
  intros HB. induction fuel as [|f IH]; intros s Hwf Hsh Hf; [lia|]. cbn [read_lines].
  pose proof (next_line_ok B s HB Hwf Hsh) as H. destruct (next_line s) as [r s'].
  destruct H as [Hwf' He]. unfold expected in He. destruct (lines (pending s)) as [|x ls] eqn:E.
  - destruct He as [-> _]. done.
  - destruct He as (-> & El & Hl). injection El as ->.
    rewrite IH; [done|done| |lia]. unfold short_lines in *. rewrite E in Hsh.
    by apply Forall_inv_tail in Hsh.
Qed.
