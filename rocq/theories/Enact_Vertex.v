(** Proofs about what EnactTopologyEvents does to one vertex. *)
From Verif Require Import Base Load_Spec Enact_Spec Enact_Model.
Open Scope N_scope.

(** ** Facts about the specification *)
Section spec_facts.
  Context {A : Type} (to : A -> N).
  Implicit Types l : list A.
  Lemma count_app d l1 l2 : count_to to d (l1 ++ l2) = (count_to to d l1 + count_to to d l2)%nat.
  Proof. unfold count_to. by rewrite List.filter_app, app_length. Qed.
  Lemma count_cons d a l : count_to to d (a :: l) = ((if (to a =? d)%N then 1 else 0) + count_to to d l)%nat.
  Proof. unfold count_to. simpl. by destruct (to a =? d). Qed.
  Lemma remove_none d l : remove_first to d l = None <-> count_to to d l = O.
  Proof.
    induction l as [|a l IH]; [done|]. rewrite count_cons. simpl. destruct (to a =? d); [done|].
    simpl. rewrite <- IH. by destruct (remove_first to d l).
  Qed.
  Lemma remove_some d l l' : remove_first to d l = Some l' -> forall x, (count_to to x l' + (if (x =? d)%N then 1 else 0) = count_to to x l)%nat.
  Proof.
    revert l'. induction l as [|a l IH]; intros l' H x; [done|]. simpl in H. rewrite count_cons. destruct (N.eqb_spec (to a) d) as [<-|Hne].
    - injection H as <-. rewrite (N.eqb_sym (to a)). destruct (x =? to a); lia.
    - destruct (remove_first to d l) as [l0|] eqn:E; [|done]. injection H as <-. rewrite count_cons, <- (IH l0 eq_refl x). destruct (to a =? x); lia.
  Qed.
  Definition same_counts l1 l2 : Prop := forall d, count_to to d l1 = count_to to d l2.
  Lemma fifo_counts cs l1 l2 : same_counts l1 l2 ->
    match fifo to l1 cs, fifo to l2 cs with
    | None, None => True
    | Some r1, Some r2 => same_counts r1 r2
    | _, _ => False
    end.
  Proof.
    revert l1 l2. induction cs as [|c cs IH]; intros l1 l2 H; [done|]. destruct c as [a|d]; simpl.
    - apply IH. intros d. by rewrite !count_app, H.
    - destruct (remove_first to d l1) as [r1|] eqn:E1, (remove_first to d l2) as [r2|] eqn:E2; try done.
      + apply IH. intros x. pose proof (remove_some _ _ _ E1 x). pose proof (remove_some _ _ _ E2 x). specialize (H x). lia.
      + apply remove_none in E2. rewrite <- H in E2. apply remove_none in E2. congruence.
      + apply remove_none in E1. rewrite H in E1. apply remove_none in E1. congruence.
  Qed.
  Lemma fifo_app cs1 cs2 l : fifo to l (cs1 ++ cs2) = match fifo to l cs1 with Some l' => fifo to l' cs2 | None => None end.
  Proof.
    revert l. induction cs1 as [|c cs1 IH]; intros l; [done|]. destruct c as [a|d]; simpl; [apply IH|].
    destruct (remove_first to d l); [apply IH|done].
  Qed.
End spec_facts.

(** ** Masks *)
Section masks.
  Context {A : Type}.
  Lemma sublist_in (l1 l2 : list A) x : sublist l1 l2 -> In x l1 -> In x l2.
  Proof. induction 1; simpl; intuition. Qed.
  Lemma picked_cons b x m (a : A) l : picked b (x :: m) (a :: l) = (if Bool.eqb x b then [a] else []) ++ picked b m l.
  Proof. unfold picked. simpl. by destruct (Bool.eqb x b). Qed.
  Lemma picked_len m (l : list A) : length m = length l -> length (picked true m l) = length (List.filter id m).
  Proof.
    revert l. induction m as [|x m IH]; intros [|a l] H; try done. rewrite picked_cons, app_length, IH by (simpl in H; lia). by destruct x.
  Qed.
  Lemma picked_total m (l : list A) : length m = length l -> (length (picked true m l) + length (picked false m l) = length l)%nat.
  Proof.
    revert l. induction m as [|x m IH]; intros [|a l] H; try done. rewrite !picked_cons, !app_length. specialize (IH l ltac:(simpl in H; lia)).
    destruct x; simpl; lia.
  Qed.
  Lemma picked_sublist b m (l : list A) : sublist (picked b m l) l.
  Proof.
    revert l. induction m as [|x m IH]; intros [|a l]; try (unfold picked; simpl; apply sublist_nil_l).
    rewrite picked_cons. destruct (Bool.eqb x b); simpl; constructor; apply IH.
  Qed.
  Lemma picked_none n (l : list A) : length l = n -> picked false (repeat false n) l = l /\ picked true (repeat false n) l = [].
  Proof.
    revert l. induction n as [|n IH]; intros [|a l] H; try done. destruct (IH l) as [E1 E2]; [simpl in H; lia|].
    simpl repeat. rewrite !picked_cons, E1, E2. done.
  Qed.
  Lemma picked_prefix n k (l : list A) : length l = (n + k)%nat ->
    picked false (repeat true n ++ repeat false k) l = drop n l /\ picked true (repeat true n ++ repeat false k) l = take n l.
  Proof.
    revert l. induction n as [|n IH]; intros l H; [by apply picked_none|]. destruct l as [|a l]; [done|].
    destruct (IH l) as [E1 E2]; [simpl in H; lia|]. simpl app. rewrite !picked_cons, E1, E2. done.
  Qed.
End masks.

Lemma mod_add_l (a : N) (n k : nat) : ((a + N.of_nat n) mod w32 + N.of_nat k) mod w32 = (a + N.of_nat (n + k)) mod w32.
Proof. rewrite N.add_mod_idemp_l by done. f_equal. lia. Qed.

Section proofs.
  Context {P : Type}.
  Notation edge := (edge P). Notation ev := (ev P).

  (** ** The mark bit *)
  Definition umk (e : edge) : Prop := pos e < 2 ^ 31.
  Lemma marked_umk e : umk e -> marked e = false.
  Proof.
    unfold umk, marked, MARK. intros H. apply negb_false_iff, N.eqb_eq. apply N.bits_inj_0. intros i. rewrite N.land_spec, N.pow2_bits_eqb.
    destruct (N.eqb_spec 31 i) as [<-|]; [|by rewrite andb_false_r].
    destruct (N.eq_dec (pos e) 0) as [->|]; [done|]. rewrite N.bits_above_log2; [done|]. apply N.log2_lt_pow2; lia.
  Qed.
  Lemma land_mark (e : edge) : N.land (pos (mark e)) MARK = MARK.
  Proof.
    unfold mark, MARK. simpl. apply N.bits_inj. intros i. rewrite N.land_spec, N.lor_spec.
    destruct (N.testbit (pos e) i), (N.testbit (2 ^ 31) i); done.
  Qed.
  Lemma marked_mark (e : edge) : marked (mark e) = true.
  Proof. unfold marked. by rewrite land_mark. Qed.
  Lemma unmark_mark (e : edge) : umk e -> unmark (mark e) = e.
  Proof.
    unfold umk, unmark, mark. intros H. destruct e as [d p q]. simpl in *. f_equal.
    change 2147483647 with (N.ones 31). rewrite N.land_ones.
    assert (Hl : N.land p MARK = 0).
    { pose proof (marked_umk (Edge d p q) H) as E. unfold marked in E. apply negb_false_iff, N.eqb_eq in E. done. }
    assert (N.lor p MARK = p + MARK) as ->.
    { rewrite (N.add_nocarry_lxor _ _ Hl). symmetry. by apply N.lxor_lor. }
    unfold MARK. rewrite <- (N.mul_1_l (2 ^ 31)) at 1. rewrite N.mod_add by done. by apply N.mod_small.
  Qed.

  (** ** A run of deletions, on masks *)
  Definition amk (b : bool) (e : edge) : edge := if b then mark e else e.
  Definition app (m : list bool) (l : list edge) : list edge := zip_with amk m l.

  Fixpoint first (m : list bool) (l : list edge) (d : N) : option nat :=
    match m, l with
    | b :: m, e :: l => if (didx e =? d) && negb b then Some O else option_map S (first m l d)
    | _, _ => None
    end.
  Definition pick (k : nat) (m : list bool) (l : list edge) (d : N) : option nat :=
    match l !! k, m !! k with
    | Some e, Some b => if (didx e =? d) && negb b then Some k else first m l d
    | _, _ => None
    end.
  Fixpoint mrun (k : nat) (m : list bool) (l : list edge) (ds : list N) : option (list bool * bool * list nat) :=
    match ds with
    | [] => Some (m, false, [])
    | d :: ds =>
        match pick k m l d with
        | None => None
        | Some j =>
            match mrun (S k) (<[j := true]> m) l ds with
            | None => None
            | Some (m', slow, ix) => Some (m', negb (Nat.eqb j k) || slow, j :: ix)
            end
        end
    end.

  Lemma app_lookup m l i : length m = length l -> app m l !! i = match l !! i, m !! i with Some e, Some b => Some (amk b e) | _, _ => None end.
  Proof. intros H. unfold app. rewrite lookup_zip_with. destruct (m !! i), (l !! i); done. Qed.
  Lemma marked_amk b e : umk e -> marked (amk b e) = b.
  Proof. intros H. destruct b; [apply marked_mark|by apply marked_umk]. Qed.
  Lemma didx_amk b e : didx (amk b e) = didx e.
  Proof. by destruct b. Qed.
  Lemma find_first m l d : length m = length l -> Forall umk l ->
    find_edge (fun e => (didx e =? d) && negb (marked e)) (app m l) = first m l d.
  Proof.
    revert l. induction m as [|b m IH]; intros [|e l] H Hu; try done. simpl. apply Forall_cons_iff in Hu as [Hu1 Hu2].
    rewrite didx_amk, marked_amk by done. destruct (_ && _); [done|]. by rewrite IH by (simpl in H; try lia; done).
  Qed.
  Lemma first_some m l d j : first m l d = Some j -> m !! j = Some false /\ (exists e, l !! j = Some e /\ didx e = d) /\
    forall i e, (i < j)%nat -> l !! i = Some e -> didx e = d -> m !! i = Some true.
  Proof.
    revert l j. induction m as [|b m IH]; intros [|e l] j H; try done. simpl in H.
    destruct (N.eqb_spec (didx e) d) as [Ed|Ed]; [destruct b|]; simpl in H.
    2: { injection H as <-. split; [done|]. split; [by exists e|]. intros i e' Hi. lia. }
    1, 2: destruct (first m l d) as [j'|] eqn:E; [|done]; injection H as <-; destruct (IH _ _ E) as (H1 & H2 & H3);
      split; [done|]; split; [done|]; intros [|i] e' Hi He Hd; simpl in *; [congruence|]; eapply H3; eauto; lia.
  Qed.
  Lemma first_none m l d : length m = length l -> first m l d = None <-> count_to didx d (picked false m l) = O.
  Proof.
    revert l. induction m as [|b m IH]; intros [|e l] H; try done. simpl. rewrite picked_cons. specialize (IH l ltac:(simpl in H; lia)).
    destruct b; simpl.
    - rewrite andb_false_r. rewrite <- IH. by destruct (first m l d).
    - rewrite andb_true_r, count_cons. destruct (didx e =? d); [done|]. simpl. rewrite <- IH. by destruct (first m l d).
  Qed.
  Lemma app_insert m l j e : length m = length l -> l !! j = Some e -> m !! j = Some false ->
    (match app m l !! j with Some e => <[j := mark e]> (app m l) | None => app m l end) = app (<[j := true]> m) l.
  Proof.
    intros H He Hm. rewrite app_lookup, He, Hm by done. simpl. unfold app. rewrite <- (list_insert_id l j e) at 2 by done.
    rewrite <- insert_zip_with. done.
  Qed.

  Definition is_del (c : ev) : Prop := etype c = DEL.
  Lemma del_run_mrun ds : forall rest l m k sel ix, length m = length l -> Forall umk l -> Forall is_del ds ->
    match rest with [] => True | c :: _ => etype c <> DEL end ->
    del_run k (app m l) sel ix (ds ++ rest) =
      match mrun k m l (map (fun c => didx (eedge c)) ds) with
      | None => None
      | Some (m', slow, ix') => Some ((k + length ds)%nat, app m' l, sel || slow, ix ++ ix', rest)
      end.
  Proof.
    induction ds as [|c ds IH]; intros rest l m k sel ix Hlen Hu Hd Hr.
    - simpl. rewrite orb_false_r, app_nil_r, Nat.add_0_r. destruct rest as [|c rest]; [done|]. simpl.
      destruct (N.eqb_spec (etype c) DEL); [done|done].
    - apply Forall_cons_iff in Hd as [Hc Hd]. simpl. rewrite Hc. simpl. rewrite app_lookup by done. unfold pick.
      destruct (l !! k) as [e|] eqn:El; [|done].
      destruct (m !! k) as [b|] eqn:Em; [|done].
      rewrite didx_amk, marked_amk by (eapply (proj1 (List.Forall_forall _ _) Hu), elem_of_list_In, elem_of_list_lookup_2; eauto).
      destruct ((didx e =? didx (eedge c)) && negb b) eqn:Eb.
      + apply andb_prop in Eb as [_ Eb]. apply negb_true_iff in Eb. subst b.
        pose proof (app_insert m l k e Hlen El Em) as Ha. rewrite app_lookup, El, Em in Ha by done. rewrite Ha.
        rewrite IH by (try done; by rewrite insert_length). rewrite Nat.eqb_refl. simpl.
        destruct (mrun _ _ _ _) as [[[m' slow] ix']|]; [|done]. rewrite <- app_assoc. simpl. replace (k + S (length ds))%nat with (S (k + length ds)) by lia. done.
      + rewrite find_first by done. destruct (first m l (didx (eedge c))) as [j|] eqn:Ef; [|done].
        destruct (first_some _ _ _ _ Ef) as (H1 & (e' & He' & Hd') & _).
        rewrite (app_insert m l j e') by done. rewrite IH by (try done; by rewrite insert_length).
        destruct (mrun _ _ _ _) as [[[m' slow] ix']|]; [|done]. rewrite <- app_assoc. simpl.
        destruct (Nat.eqb_spec j k) as [->|_].
        * exfalso. rewrite El in He'. injection He' as <-. rewrite Em in H1. injection H1 as ->. rewrite Hd', N.eqb_refl in Eb. done.
        * simpl. rewrite orb_true_r. replace (k + S (length ds))%nat with (S (k + length ds)) by lia. done.
  Qed.

  (** ** Facts about mrun *)
  Definition ones (m : list bool) : nat := length (List.filter id m).
  Lemma ones_insert m j : m !! j = Some false -> ones (<[j := true]> m) = S (ones m).
  Proof.
    unfold ones. revert j. induction m as [|b m IH]; intros j H; [done|]. destruct j as [|j]; simpl in *.
    - injection H as ->. done.
    - destruct b; simpl; by rewrite IH.
  Qed.
  Lemma ones_full m : (ones m <= length m)%nat.
  Proof. unfold ones. induction m as [|[] m IH]; simpl; lia. Qed.
  Lemma picked_insert m (l : list edge) j e : m !! j = Some false -> l !! j = Some e ->
    forall x, (count_to didx x (picked false (<[j := true]> m) l) + (if (x =? didx e)%N then 1 else 0) = count_to didx x (picked false m l))%nat.
  Proof.
    revert l j. induction m as [|b m IH]; intros [|e' l] j Hm Hl x; try done. destruct j as [|j]; simpl in *.
    - injection Hm as ->. injection Hl as ->. rewrite !picked_cons. simpl. rewrite count_cons, (N.eqb_sym x). destruct (didx e =? x); lia.
    - rewrite !picked_cons, !count_app, <- (IH l j Hm Hl x). lia.
  Qed.
  Lemma pick_some k m l d j : pick k m l d = Some j -> m !! j = Some false /\ exists e, l !! j = Some e /\ didx e = d.
  Proof.
    unfold pick. destruct (l !! k) as [e|] eqn:El; [|done]. destruct (m !! k) as [b|] eqn:Em; [|done].
    destruct ((didx e =? d) && negb b) eqn:E.
    - intros [= <-]. apply andb_prop in E as [E1 E2]. apply N.eqb_eq in E1. destruct b; [done|]. eauto.
    - intros H. destruct (first_some _ _ _ _ H) as (H1 & H2 & _). done.
  Qed.
  Lemma pick_none k m l d : length m = length l -> ones m = k -> pick k m l d = None <-> count_to didx d (picked false m l) = O.
  Proof.
    intros Hlen Hk. rewrite <- (first_none m l d Hlen). unfold pick.
    destruct (l !! k) as [e|] eqn:El.
    - destruct (m !! k) as [b|] eqn:Em.
      2: { apply lookup_ge_None in Em. apply lookup_lt_Some in El. lia. }
      destruct ((didx e =? d) && negb b) eqn:E; [|done]. split; [done|]. intros Hf. exfalso.
      apply andb_prop in E as [E1 E2]. destruct b; [done|]. clear -El Em E1 Hf. revert l k El Em Hf.
      induction m as [|b m IH]; intros [|e' l] [|k] El Em Hf; try done; simpl in *.
      + injection El as ->. injection Em as ->. by rewrite E1 in Hf.
      + destruct (_ && _); [done|]. destruct (first m l d) eqn:E; [done|]. eauto.
    - split; [|done]. intros _. apply first_none; [done|]. apply lookup_ge_None in El.
      pose proof (picked_total m l Hlen) as Ht. rewrite (picked_len m l Hlen) in Ht. fold (ones m) in Ht.
      destruct (picked false m l); [done|]. simpl in Ht. lia.
  Qed.
  Definition rem (l : list edge) (ds : list N) : option (list edge) := fifo didx l (map (@Remove _) ds).

  Lemma mrun_spec ds : forall k m l, length m = length l -> ones m = k ->
    match mrun k m l ds with
    | None => rem (picked false m l) ds = None
    | Some (m', slow, ix) =>
        length m' = length l /\ ones m' = (k + length ds)%nat /\
        (exists r, rem (picked false m l) ds = Some r /\ same_counts didx (picked false m' l) r) /\
        length ix = length ds /\
        (forall i, m' !! i = Some true <-> m !! i = Some true \/ In i ix) /\ List.NoDup ix /\ (forall i, In i ix -> m !! i = Some false)
    end.
  Proof.
    induction ds as [|d ds IH]; intros k m l Hlen Hk; simpl.
    - split; [done|]. split; [lia|]. split; [by eexists|]. split; [done|]. split; [tauto|]. split; [constructor|done].
    - pose proof (pick_none k m l d Hlen Hk) as Hn. destruct (pick k m l d) as [j|] eqn:Ep.
      2: { assert (E : remove_first didx d (picked false m l) = None) by (apply remove_none, Hn; done). unfold rem. simpl. by rewrite E. }
      destruct (pick_some _ _ _ _ _ Ep) as (Hj & e & He & Hd).
      specialize (IH (S k) (<[j := true]> m) l ltac:(by rewrite insert_length) ltac:(by rewrite ones_insert by done; lia)).
      pose proof (picked_insert m l j e Hj He) as Hc.
      destruct (remove_first didx d (picked false m l)) as [r0|] eqn:Er.
      2: { apply remove_none in Er. specialize (Hc d). rewrite Hd, N.eqb_refl in Hc. lia. }
      assert (Hsame : same_counts didx (picked false (<[j := true]> m) l) r0).
      { intros x. pose proof (remove_some _ _ _ _ Er x). specialize (Hc x). rewrite Hd in Hc. lia. }
      assert (Hrem : rem (picked false m l) (d :: ds) = rem r0 ds) by (unfold rem; simpl; by rewrite Er).
      pose proof (fifo_counts didx (map (@Remove _) ds) _ _ Hsame) as Hf. fold (rem (picked false (<[j:=true]> m) l) ds) (rem r0 ds) in Hf.
      destruct (mrun (S k) (<[j := true]> m) l ds) as [[[m' slow] ix]|]; rewrite Hrem.
      + destruct IH as (I1 & I2 & (r & I3 & I4) & I5 & I6 & I7 & I8). split; [done|]. split; [simpl; lia|].
        split; [|split; [simpl; lia|]].
        * rewrite I3 in Hf. destruct (rem r0 ds) as [r2|]; [|done]. exists r2. split; [done|]. intros x. by rewrite I4, Hf.
        * assert (Hjl : (j < length m)%nat) by (eapply lookup_lt_Some; eauto).
          assert (Hnj : ~ In j ix). { intros Hin. apply I8 in Hin. rewrite list_lookup_insert in Hin by done. done. }
          split; [|split; [by constructor|]].
          -- intros i. rewrite I6. simpl. destruct (Nat.eq_dec i j) as [->|Hne].
             ++ rewrite list_lookup_insert by done. tauto.
             ++ rewrite list_lookup_insert_ne by done. intuition congruence.
          -- intros i [<-|Hin]; [done|]. pose proof (I8 _ Hin) as H. rewrite list_lookup_insert_ne in H by (by intros ->). done.
      + rewrite IH in Hf. by destruct (rem r0 ds).
  Qed.

  (** Without a slow step the run takes the front. *)
  Lemma mrun_fast ds : forall k l m' ix, (k + length ds <= length l)%nat ->
    mrun k (repeat true k ++ repeat false (length l - k)) l ds = Some (m', false, ix) ->
    m' = repeat true (k + length ds) ++ repeat false (length l - (k + length ds)).
  Proof.
    induction ds as [|d ds IH]; intros k l m' ix Hk H; simpl in *.
    - injection H as <- _ . by rewrite Nat.add_0_r.
    - destruct (pick _ _ _ _) as [j|] eqn:Ep; [|done].
      destruct (mrun (S k) _ _ _) as [[[m2 slow2] ix2]|] eqn:Em; [|done]. injection H as E1 E2 _. subst m2.
      apply orb_false_iff in E2 as [E2 E3]. apply negb_false_iff, Nat.eqb_eq in E2. subst j slow2.
      assert (Hi : <[k := true]> (repeat true k ++ repeat false (length l - k)) = repeat true (S k) ++ repeat false (length l - S k)).
      { rewrite insert_app_r_alt by (rewrite repeat_length; lia). rewrite repeat_length, Nat.sub_diag.
        replace (length l - k)%nat with (S (length l - S k)) by lia. simpl. 
        change (true :: repeat true k ++ repeat false (length l - S k)) with ((true :: repeat true k) ++ repeat false (length l - S k)).
        rewrite (repeat_cons k true), <- app_assoc. done. }
      rewrite Hi in Em. apply IH in Em; [|lia]. rewrite Em. f_equal; [f_equal; lia|f_equal; lia].
  Qed.

  (** ** Sorting *)
  Definition key_sorted (key : edge -> N) (l : list edge) : Prop := StronglySorted (fun a b => key a <= key b) l.
  Lemma sorted_sublist key l1 l2 : sublist l1 l2 -> key_sorted key l2 -> key_sorted key l1.
  Proof.
    unfold key_sorted. induction 1 as [|x l1 l2 Hs IH|x l1 l2 Hs IH]; intros H; [done| |].
    - apply StronglySorted_inv in H as [H1 H2]. constructor; [by apply IH|]. rewrite List.Forall_forall in *. intros y Hy. apply H2. by eapply sublist_in.
    - apply StronglySorted_inv in H as [H1 H2]. by apply IH.
  Qed.
  Lemma sort_sorted key l : key_sorted key l -> stable_sort key l = l.
  Proof.
    induction 1 as [|e l Hs IH Hf]; [done|]. simpl. rewrite IH. destruct l as [|e' l]; [done|]. simpl.
    apply Forall_cons_iff in Hf as [Hf _]. apply N.leb_le in Hf as ->. done.
  Qed.
  Lemma insert_low key (e : edge) A B : Forall (fun b => key e < key b) B -> insert_by key e (A ++ B) = insert_by key e A ++ B.
  Proof.
    intros HB. induction A as [|a A IH]; simpl.
    - destruct B as [|b B]; [done|]. simpl. apply Forall_cons_iff in HB as [HB _]. destruct (N.leb_spec (key e) (key b)); [done|lia].
    - destruct (_ <=? _); [done|]. by rewrite IH.
  Qed.
  Lemma insert_high key (e : edge) A B : Forall (fun a => key a < key e) A -> insert_by key e (A ++ B) = A ++ insert_by key e B.
  Proof.
    intros HA. induction A as [|a A IH]; simpl; [done|]. apply Forall_cons_iff in HA as [HA HA'].
    destruct (N.leb_spec (key e) (key a)); [lia|]. by rewrite IH.
  Qed.
  Lemma insert_in key (e : edge) l x : In x (insert_by key e l) <-> x = e \/ In x l.
  Proof.
    induction l as [|y l IH]; simpl; [intuition|]. destruct (_ <=? _); simpl; [intuition|]. rewrite IH. intuition.
  Qed.
  Lemma sort_in key (l : list edge) x : In x (stable_sort key l) <-> In x l.
  Proof. induction l as [|y l IH]; simpl; [done|]. rewrite insert_in, IH. intuition. Qed.
  Lemma sort_split key (p : edge -> bool) l :
    (forall a b, In a l -> In b l -> p a = false -> p b = true -> key a < key b) ->
    stable_sort key l = stable_sort key (List.filter (fun e => negb (p e)) l) ++ stable_sort key (List.filter p l).
  Proof.
    induction l as [|e l IH]; intros H; [done|]. simpl. rewrite IH by (intros a b Ha Hb; apply H; by right).
    destruct (p e) eqn:Ep; simpl.
    - apply insert_high. apply List.Forall_forall. intros a Ha. apply sort_in, filter_In in Ha as [Ha Hp]. apply negb_true_iff in Hp.
      apply H; simpl; auto.
    - apply insert_low. apply List.Forall_forall. intros b Hb. apply sort_in, filter_In in Hb as [Hb Hp].
      apply H; simpl; auto.
  Qed.

  (** ** Taking the marked edges out *)
  Lemma filter_zip (G : bool -> edge -> edge) m l : length m = length l -> (forall b e, In e l -> marked (G b e) = b) ->
    List.filter (fun e => negb (marked e)) (zip_with G m l) = map (G false) (picked false m l) /\
    List.filter marked (zip_with G m l) = map (G true) (picked true m l).
  Proof.
    revert l. induction m as [|b m IH]; intros [|e l] Hl HG; try done. destruct (IH l) as [E1 E2]; [simpl in Hl; lia|intros b' e' He; apply HG; by right|].
    simpl. rewrite !picked_cons, !HG by (by left). destruct b; simpl; rewrite E1, E2; done.
  Qed.
  Context (get_ts get_end : P -> N) (set_ts set_end : N -> P -> P).
  Definition ts_laws : Prop :=
    (forall t p, get_ts (set_ts t p) = t) /\ (forall t t' p, set_ts t (set_ts t' p) = set_ts t p) /\ (forall p, set_ts (get_ts p) p = p).
  Definition ts (e : edge) : N := get_ts (prop e).
  Definition ts_ok (l : list edge) : Prop := ts_laws /\ key_sorted ts l /\ Forall (fun e => ts e < 2 ^ 63) l.

  Lemma high_bit t : t < 2 ^ 63 -> N.lor t (2 ^ 63) = t + 2 ^ 63 /\ N.land (N.lor t (2 ^ 63)) (2 ^ 63 - 1) = t.
  Proof.
    intros H. assert (Hl : N.land t (2 ^ 63) = 0).
    { apply N.bits_inj_0. intros i. rewrite N.land_spec, N.pow2_bits_eqb. destruct (N.eqb_spec 63 i) as [<-|]; [|by rewrite andb_false_r].
      destruct (N.eq_dec t 0) as [->|]; [done|]. rewrite N.bits_above_log2; [done|]. apply N.log2_lt_pow2; lia. }
    assert (E : N.lor t (2 ^ 63) = t + 2 ^ 63) by (rewrite (N.add_nocarry_lxor _ _ Hl); symmetry; by apply N.lxor_lor).
    split; [done|]. rewrite E. change (2 ^ 63 - 1) with (N.ones 63). rewrite N.land_ones.
    rewrite <- (N.mul_1_l (2 ^ 63)) at 1. rewrite N.mod_add by done. by apply N.mod_small.
  Qed.
  Definition fmk (b : bool) (e : edge) : edge := if b then flag_ts get_ts set_ts (mark e) else e.
  Lemma fold_flag (ix : list nat) : forall l : list edge, List.NoDup ix -> forall i : nat,
    fold_left (fun l i => match l !! i with Some e => <[i := flag_ts get_ts set_ts e]> l | None => l end) ix l !! i =
    (if in_dec Nat.eq_dec i ix then flag_ts get_ts set_ts <$> l !! i else l !! i).
  Proof.
    induction ix as [|j ix IH]; intros l Hn i; [done|]. cbn [fold_left].
    apply List.NoDup_cons_iff in Hn as [Hj Hn]. rewrite IH by done.
    assert (E : (match l !! j with Some e => <[j := flag_ts get_ts set_ts e]> l | None => l end) !! i = (if Nat.eq_dec i j then flag_ts get_ts set_ts <$> l !! i else l !! i)).
    { destruct (Nat.eq_dec i j) as [->|Hne].
      - destruct (l !! j) as [e|] eqn:E; [|by rewrite E]. simpl. apply list_lookup_insert. by eapply lookup_lt_Some.
      - destruct (l !! j) as [e|]; [by apply list_lookup_insert_ne|done]. }
    rewrite E. destruct (in_dec Nat.eq_dec i ix) as [H1|H1], (Nat.eq_dec i j) as [H2|H2], (in_dec Nat.eq_dec i (j :: ix)) as [H3|H3]; try done; simpl in H3; exfalso; subst; intuition.
  Qed.

  Lemma take_out_spec by_ts sel m l ix k : length m = length l -> ones m = k -> Forall umk l ->
    (sel = false -> m = repeat true k ++ repeat false (length l - k)) ->
    (by_ts = true -> ts_ok l) -> List.NoDup ix -> (forall i, m !! i = Some true <-> In i ix) ->
    take_out get_ts set_ts by_ts sel k (app m l) ix = (picked false m l, picked true m l).
  Proof.
    intros Hlen Hk Hu Hsel Hts Hnd Hix. unfold take_out.
    assert (Hal : length (app m l) = length l) by (unfold app; rewrite zip_with_length; lia).
    rewrite Hal. assert (Hkl : (k <= length l)%nat) by (pose proof (ones_full m); lia).
    assert (HlenF : length (picked false m l) = (length l - k)%nat).
    { pose proof (picked_total m l Hlen). rewrite (picked_len m l Hlen) in H. fold (ones m) in H. lia. }
    assert (Hmk : forall b e, In e l -> marked (amk b e) = b).
    { intros b e He. apply marked_amk. by eapply List.Forall_forall in Hu. }
    assert (Hun : map unmark (map mark (picked true m l)) = picked true m l).
    { rewrite map_map. rewrite <- (map_id (picked true m l)) at 2. apply map_ext_in. intros e He. apply unmark_mark.
      eapply List.Forall_forall; [exact Hu|]. eapply sublist_in; [apply picked_sublist|done]. }
    destruct sel; simpl.
    2: { specialize (Hsel eq_refl).
      destruct (picked_prefix k (length l - k) l) as [E1 E2]; [lia|]. rewrite <- Hsel in E1, E2. rewrite <- Hun. rewrite E1, E2. f_equal.
      - rewrite Hsel. unfold app. rewrite <- (take_drop k l) at 2. rewrite zip_with_app by (rewrite repeat_length, take_length; lia).
        rewrite drop_app_alt by (rewrite zip_with_length, repeat_length, take_length; lia).
        assert (forall n l', length l' = n -> zip_with amk (repeat false n) l' = l') as ->; [|done|by rewrite drop_length].
        clear. induction n as [|n IH]; intros [|e l'] H; try done. simpl. by rewrite IH by (simpl in H; lia).
      - f_equal. rewrite Hsel. unfold app. rewrite <- (take_drop k l) at 2. rewrite zip_with_app by (rewrite repeat_length, take_length; lia).
        rewrite take_app_alt by (rewrite zip_with_length, repeat_length, take_length; lia).
        assert (forall n l', length l' = n -> zip_with amk (repeat true n) l' = map mark l') as ->; [|done|rewrite take_length; lia].
        clear. induction n as [|n IH]; intros [|e l'] H; try done. simpl. by rewrite IH by (simpl in H; lia). }
    destruct by_ts.
    - destruct (Hts eq_refl) as ((L1 & L2 & L3) & Hs & Hb).
      assert (Hfold : fold_left (fun l i => match l !! i with Some e => <[i := flag_ts get_ts set_ts e]> l | None => l end) ix (app m l) = zip_with fmk m l).
      { apply list_eq. intros i. rewrite fold_flag by done. rewrite app_lookup by done. rewrite lookup_zip_with.
        destruct (l !! i) as [e|] eqn:El; [|destruct (m !! i); simpl; by destruct (in_dec _ _ _)].
        destruct (m !! i) as [b|] eqn:Em.
        2: { apply lookup_ge_None in Em. apply lookup_lt_Some in El. lia. }
        destruct b; simpl.
        - destruct (in_dec _ _ _) as [|Hn]; [done|]. exfalso. apply Hn. by apply Hix.
        - destruct (in_dec _ _ _) as [H|]; [|done]. apply Hix in H. congruence. }
      rewrite Hfold.
      destruct (filter_zip fmk m l Hlen) as [F1 F2].
      { intros b e He. destruct b; [|simpl; apply (Hmk false e He)]. unfold fmk, flag_ts, marked. simpl. by rewrite (land_mark e : N.land (N.lor (pos e) MARK) MARK = MARK). }
      assert (Hin : forall b e, In e (picked b m l) -> In e l).
      { intros b e He. eapply sublist_in; [apply picked_sublist|done]. }
      assert (Hlt : forall e, In e l -> ts e < 2 ^ 63) by (by apply List.Forall_forall).
      assert (Hkey : forall e, In e l -> get_ts (prop (fmk true e)) = ts e + 2 ^ 63).
      { intros e He. unfold fmk, flag_ts. simpl. rewrite L1. apply (high_bit (ts e)). auto. }
      rewrite (sort_split (fun e => get_ts (prop e)) marked).
      2: { intros a b Ha Hb' Hpa Hpb. 
        assert (A : In a (map (fmk false) (picked false m l))) by (rewrite <- F1; apply filter_In; by rewrite Hpa).
        assert (B : In b (map (fmk true) (picked true m l))) by (rewrite <- F2; by apply filter_In).
        apply in_map_iff in A as (a0 & <- & Ha0). apply in_map_iff in B as (b0 & <- & Hb0).
        rewrite Hkey by eauto. simpl. specialize (Hlt a0 (Hin _ _ Ha0)). unfold ts in Hlt. lia. }
      rewrite F1, F2. rewrite (map_ext (fmk false) id) by done. rewrite map_id.
      rewrite (sort_sorted _ (picked false m l)) by (eapply sorted_sublist; [apply picked_sublist|exact Hs]).
      rewrite (sort_sorted _ (map (fmk true) (picked true m l))).
      2: { assert (Hsp : key_sorted ts (picked true m l)) by (eapply sorted_sublist; [apply picked_sublist|exact Hs]).
        assert (Hkp : forall e, In e (picked true m l) -> get_ts (prop (fmk true e)) = ts e + 2 ^ 63) by (intros; eauto).
        revert Hsp Hkp. generalize (picked true m l). clear. induction l as [|e l IH]; intros Hs Hk; [constructor|].
        apply StronglySorted_inv in Hs as [H1 H2]. simpl. constructor; [apply IH; [done|]; intros; apply Hk; by right|].
        apply List.Forall_forall. intros x Hx. apply in_map_iff in Hx as (y & <- & Hy). rewrite !Hk by (simpl; auto).
        rewrite List.Forall_forall in H2. specialize (H2 y Hy). pose proof (Hk e (or_introl eq_refl)) as Hke. unfold fmk at 1 in Hke. rewrite Hke. lia. }
      rewrite take_app_alt, drop_app_alt by done. f_equal. rewrite <- Hun at 2. rewrite !map_map. apply map_ext_in. intros e He.
      assert (Hu' : unflag_ts get_ts set_ts (fmk true e) = mark e).
      { unfold unflag_ts, fmk, flag_ts, mark. cbn [didx pos prop]. rewrite L1, L2. destruct (high_bit (ts e)) as [_ E]; [by eauto|]. unfold ts in E. rewrite E, L3. done. }
      by rewrite Hu'.
    - destruct (filter_zip amk m l Hlen Hmk) as [F1 F2]. fold (app m l) in F1, F2.
      assert (K : forall e, In e (app m l) -> N.land (pos e) MARK = if marked e then MARK else 0).
      { intros e He. unfold app in He. apply elem_of_list_In, elem_of_zip_with in He as (b & e0 & -> & Hb & He).
        apply elem_of_list_In in He. rewrite (Hmk b e0 He). destruct b; [apply land_mark|]. pose proof (Hmk false e0 He) as E. unfold marked in E.
        apply negb_false_iff, N.eqb_eq in E. exact E. }
      rewrite (sort_split (fun e => N.land (pos e) MARK) marked).
      2: { intros a b Ha Hb Hpa Hpb. rewrite (K a Ha), (K b Hb), Hpa, Hpb. done. }
      assert (S : forall p, stable_sort (fun e => N.land (pos e) MARK) (List.filter p (app m l)) = List.filter p (app m l) \/ True) by auto. clear S.
      rewrite (sort_sorted _ (List.filter (fun e => negb (marked e)) (app m l))).
      2: { assert (Hc : forall e, In e (List.filter (fun e => negb (marked e)) (app m l)) -> N.land (pos e) MARK = 0).
        { intros e He. apply filter_In in He as [He Hm]. rewrite (K e He). by destruct (marked e). }
        revert Hc. generalize (List.filter (fun e => negb (marked e)) (app m l)). clear. induction l as [|e l IH]; intros Hc; constructor.
        - apply IH. intros; apply Hc; by right.
        - apply List.Forall_forall. intros x Hx. rewrite !Hc by (simpl; auto). done. }
      rewrite (sort_sorted _ (List.filter marked (app m l))).
      2: { assert (Hc : forall e, In e (List.filter marked (app m l)) -> N.land (pos e) MARK = MARK).
        { intros e He. apply filter_In in He as [He Hm]. rewrite (K e He). by rewrite Hm. }
        revert Hc. generalize (List.filter marked (app m l)). clear. induction l as [|e l IH]; intros Hc; constructor.
        - apply IH. intros; apply Hc; by right.
        - apply List.Forall_forall. intros x Hx. rewrite !Hc by (simpl; auto). done. }
      rewrite F1, F2. rewrite (map_ext (amk false) id) by done. rewrite map_id. rewrite take_app_alt, drop_app_alt by done.
      f_equal. exact Hun.
  Qed.

  (** ** FIFO under the condition of the specification *)
  (** The marked edges to each destination are the first ones. *)
  Definition front (base : list edge) (asked : list N) (m : list bool) : Prop :=
    forall i e, base !! i = Some e ->
      (m !! i = Some true <-> (count_to didx (didx e) (take i base) < count_occ N.eq_dec asked (didx e))%nat).
  Lemma count_step (l : list edge) i e d : l !! i = Some e -> count_to didx d (take (S i) l) = (count_to didx d (take i l) + if (didx e =? d)%N then 1 else 0)%nat.
  Proof. intros H. rewrite (take_S_r l i e H), count_app, count_cons. change (count_to didx d []) with 0%nat. lia. Qed.
  Lemma count_mono (l : list edge) i j d : (i <= j)%nat -> (count_to didx d (take i l) <= count_to didx d (take j l))%nat.
  Proof.
    intros H. rewrite <- (take_drop i (take j l)), take_take, count_app. replace (i `min` j)%nat with i by lia. lia.
  Qed.
  Lemma count_last (l : list edge) j d : (0 < count_to didx d (take j l))%nat ->
    exists i e, (i < j)%nat /\ l !! i = Some e /\ didx e = d /\ S (count_to didx d (take i l)) = count_to didx d (take j l).
  Proof.
    induction j as [|j IH]; intros H; [rewrite take_0 in H; unfold count_to in H; simpl in H; lia|].
    destruct (l !! j) as [e|] eqn:El.
    - rewrite (count_step l j e d El) in *. destruct (N.eqb_spec (didx e) d) as [Ed|Ed].
      + exists j, e. split; [lia|]. split; [done|]. split; [done|]. lia.
      + destruct IH as (i & e' & H1 & H2 & H3 & H4); [lia|]. exists i, e'. split; [lia|]. split; [done|]. split; [done|]. lia.
    - apply lookup_ge_None in El. rewrite take_ge in H by lia. rewrite take_ge in IH by lia. destruct (IH H) as (i & e' & H1 & H2 & H3 & H4).
      exists i, e'. split; [lia|]. rewrite (take_ge _ (S j)) by lia. done.
  Qed.
  Lemma first_least m l d k : length m = length l -> m !! k = Some false -> (exists e, l !! k = Some e /\ didx e = d) ->
    (forall i e, (i < k)%nat -> l !! i = Some e -> didx e = d -> m !! i = Some true) -> first m l d = Some k.
  Proof.
    revert l k. induction m as [|b m IH]; intros [|e l] k Hl Hm (e0 & He & Hd) Hf; try done. simpl.
    destruct k as [|k]; simpl in *.
    - injection Hm as ->. injection He as ->. rewrite Hd, N.eqb_refl. done.
    - destruct (N.eqb_spec (didx e) d) as [Ed|Ed]; simpl.
      + pose proof (Hf 0%nat e ltac:(lia) eq_refl Ed) as H. simpl in H. injection H as ->. simpl. rewrite (IH l k); [done|lia|done|eauto|].
        intros i e' Hi He' Hd'. apply (Hf (S i) e'); [lia|done|done].
      + rewrite (IH l k); [done|lia|done|eauto|]. intros i e' Hi He' Hd'. apply (Hf (S i) e'); [lia|done|done].
  Qed.
  Lemma front_first base asked m d j : length m = length base -> front base asked m -> first m base d = Some j -> front base (asked ++ [d]) (<[j := true]> m).
  Proof.
    intros Hlen Hf H. destruct (first_some _ _ _ _ H) as (H1 & (e0 & H2 & H3) & H4).
    assert (Hj : (j < length m)%nat) by (by eapply lookup_lt_Some).
    assert (Hc : count_to didx d (take j base) = count_occ N.eq_dec asked d).
    { pose proof (Hf j e0 H2) as Hj0. rewrite H3, H1 in Hj0.
      assert (~ (count_to didx d (take j base) < count_occ N.eq_dec asked d)%nat) by (intros Hx; apply Hj0 in Hx; done).
      destruct (Nat.eq_dec (count_to didx d (take j base)) 0%nat) as [E0|E0]; [lia|].
      destruct (count_last base j d) as (i & e & Hi & He & Hd & Hs); [lia|]. pose proof (H4 i e Hi He Hd) as Hm. apply (Hf i e He) in Hm. rewrite Hd in Hm. lia. }
    intros i e He. rewrite count_occ_app. simpl. destruct (N.eq_dec d (didx e)) as [Ed|Ed].
    - destruct (Nat.eq_dec i j) as [->|Hne].
      + rewrite list_lookup_insert by done. rewrite <- Ed, Hc. split; [lia|done].
      + rewrite list_lookup_insert_ne by done. rewrite (Hf i e He), <- Ed. split; [lia|]. intros Hlt.
        assert (count_to didx d (take i base) <> count_to didx d (take j base)) as Hneq; [|lia]. intros E.
        destruct (Nat.lt_ge_cases i j) as [L|L].
        * pose proof (count_mono base (S i) j d L) as M. rewrite (count_step base i e d He), <- Ed, N.eqb_refl in M. lia.
        * assert (S j <= i)%nat as L' by lia. pose proof (count_mono base (S j) i d L') as M. rewrite (count_step base j e0 d H2), H3, N.eqb_refl in M. lia.
    - destruct (Nat.eq_dec i j) as [->|Hne]; [rewrite H2 in He; congruence|]. rewrite list_lookup_insert_ne by done. rewrite (Hf i e He). lia.
  Qed.
  Lemma remove_picked m l d j : length m = length l -> first m l d = Some j -> remove_first didx d (picked false m l) = Some (picked false (<[j := true]> m) l).
  Proof.
    revert l j. induction m as [|b m IH]; intros [|e l] j Hl H; try done. simpl in H. rewrite picked_cons.
    destruct b; simpl in *.
    - rewrite andb_false_r in H. destruct (first m l d) as [j'|] eqn:E; [|done]. injection H as <-. simpl. rewrite picked_cons. simpl. apply IH; [lia|done].
    - rewrite andb_true_r in H. destruct (didx e =? d); [injection H as <-; simpl; by rewrite picked_cons|].
      destruct (first m l d) as [j'|] eqn:E; [|done]. injection H as <-. simpl. rewrite picked_cons. simpl. rewrite (IH l j') by (try lia; done). done.
  Qed.
  Lemma mrun_fifo ds : forall base asked m cs m' slow ix, length m = length base -> front base asked m ->
    orderly_from didx base asked (picked false m base) (map (@Remove _) ds ++ cs) ->
    mrun (length asked) m base ds = Some (m', slow, ix) ->
    rem (picked false m base) ds = Some (picked false m' base) /\ orderly_from didx base (asked ++ ds) (picked false m' base) cs.
  Proof.
    induction ds as [|d ds IH]; intros base asked m cs m' slow ix Hlen Hf Ho H; simpl in *.
    - injection H as <- _ _. by rewrite app_nil_r.
    - destruct Ho as [Ho1 Ho2]. destruct (pick (length asked) m base d) as [j|] eqn:Ep; [|done].
      assert (Hj : first m base d = Some j).
      { unfold pick in Ep. destruct (base !! length asked) as [e|] eqn:Eb; [|done]. destruct (m !! length asked) as [b|] eqn:Em; [|done].
        destruct ((didx e =? d) && negb b) eqn:E; [|done]. injection Ep as <-. apply andb_prop in E as [E1 E2]. apply N.eqb_eq in E1. destruct b; [done|].
        apply first_least; [done|done|eauto|]. intros i e' Hi He' Hd'. apply (Hf i e' He'). rewrite Hd'.
        specialize (Ho1 e). rewrite nth_error_lookup in Ho1. specialize (Ho1 Eb E1).
        pose proof (count_mono base (S i) (length asked) d ltac:(lia)) as M. rewrite (count_step base i e' d He'), Hd', N.eqb_refl in M.
        change (firstn (length asked) base) with (take (length asked) base) in Ho1. lia. }
      rewrite (remove_picked m base d j Hlen Hj) in Ho2.
      destruct (mrun (S (length asked)) (<[j := true]> m) base ds) as [[[m2 sl] ix2]|] eqn:Em; [|done]. injection H as <- _ _.
      replace (S (length asked)) with (length (asked ++ [d])) in Em by (rewrite app_length; simpl; lia).
      destruct (IH base (asked ++ [d]) (<[j := true]> m) cs m2 sl ix2) as [R1 R2]; [by rewrite insert_length|by apply front_first|done|done|].
      split; [unfold rem; simpl; rewrite (remove_picked m base d j Hlen Hj); exact R1|by rewrite <- app_assoc in R2].
  Qed.

  (** ** The rounds of one vertex, without TimeRange *)
  Definition chg (c : ev) : change edge := if etype c =? ADD then Append (eedge c) else Remove (didx (eedge c)).
  Definition is_add (c : ev) : bool := etype c =? ADD.
  Definition adds_of (cs : list ev) : list edge := map eedge (List.filter is_add cs).
  Definition dels_of (cs : list ev) : list ev := List.filter (fun c => negb (is_add c)) cs.
  Definition kinds (cs : list ev) : Prop := Forall (fun c => etype c = ADD \/ etype c = DEL) cs.
  Definition wf (by_ts : bool) (l : list edge) : Prop := Forall umk l /\ (by_ts = true -> ts_ok l).
  Lemma wf_sublist b l1 l2 : sublist l1 l2 -> wf b l2 -> wf b l1.
  Proof.
    intros Hs [H1 H2]. split.
    - rewrite List.Forall_forall in *. intros x Hx. apply H1. by eapply sublist_in.
    - intros Hb. destruct (H2 Hb) as (L & S & F). split; [done|]. split; [by eapply sorted_sublist|].
      rewrite List.Forall_forall in *. intros x Hx. apply F. by eapply sublist_in.
  Qed.
  Lemma add_run_spec (cs : list ev) (l : list edge) : exists a rest, cs = a ++ rest /\ Forall (fun c => etype c = ADD) a /\
    match rest with [] => True | c :: _ => etype c <> ADD end /\ add_run l cs = (l ++ map eedge a, rest).
  Proof.
    revert l. induction cs as [|c cs IH]; intros l.
    - exists [], []. simpl. rewrite app_nil_r. done.
    - simpl. destruct (N.eqb_spec (etype c) ADD) as [E|E].
      + destruct (IH (l ++ [eedge c])) as (a & rest & -> & H1 & H2 & ->). exists (c :: a), rest. simpl. rewrite <- app_assoc. split_and!; try done. by constructor.
      + exists [], (c :: cs). simpl. rewrite app_nil_r. done.
  Qed.
  Lemma del_split cs : exists d rest : list ev, cs = d ++ rest /\ Forall is_del d /\ match rest with [] => True | c :: _ => etype c <> DEL end.
  Proof.
    induction cs as [|c cs IH]; [by exists [], []|]. destruct (N.eq_dec (etype c) DEL) as [E|E].
    - destruct IH as (d & rest & -> & H1 & H2). exists (c :: d), rest. split_and!; try done. by constructor.
    - exists [], (c :: cs). done.
  Qed.
  Lemma filter_all {A} (p : A -> bool) l : Forall (fun x => p x = true) l -> List.filter p l = l.
  Proof. induction 1 as [|x l H _ IH]; [done|]. simpl. by rewrite H, IH. Qed.
  Lemma filter_no {A} (p : A -> bool) l : Forall (fun x => p x = false) l -> List.filter p l = [].
  Proof. induction 1 as [|x l H _ IH]; [done|]. simpl. by rewrite H, IH. Qed.
  Lemma adds_only a : Forall (fun c : ev => etype c = ADD) a -> adds_of a = map eedge a /\ dels_of a = [] /\ map chg a = map (@Append _) (map eedge a).
  Proof.
    intros H. unfold adds_of, dels_of. assert (Forall (fun c => is_add c = true) a) as H' by (eapply List.Forall_impl; [|exact H]; intros c Hc; apply N.eqb_eq, Hc).
    rewrite filter_all by done. rewrite filter_no by (eapply List.Forall_impl; [|exact H']; intros c Hc; simpl in *; by rewrite Hc). split_and!; try done.
    rewrite map_map. apply map_ext_in. intros c Hc. rewrite List.Forall_forall in H. unfold chg. by rewrite (H c Hc).
  Qed.
  Lemma dels_only d : Forall is_del d -> adds_of d = [] /\ dels_of d = d /\ map chg d = map (@Remove _) (map (fun c => didx (eedge c)) d).
  Proof.
    intros H. unfold adds_of, dels_of. assert (Forall (fun c => is_add c = false) d) as H'.
    { eapply List.Forall_impl; [|exact H]. intros c Hc. unfold is_add. by rewrite Hc. }
    rewrite filter_no by done. rewrite filter_all by (eapply List.Forall_impl; [|exact H']; intros c Hc; simpl in *; by rewrite Hc). split_and!; try done.
    rewrite map_map. apply map_ext_in. intros c Hc. rewrite List.Forall_forall in H. unfold chg. by rewrite (H c Hc).
  Qed.
  Lemma fifo_appends (a l : list edge) : fifo didx l (map (@Append _) a) = Some (l ++ a).
  Proof. revert l. induction a as [|e a IH]; intros l; simpl; [by rewrite app_nil_r|]. by rewrite IH, <- app_assoc. Qed.
  Lemma orderly_appends (a : list edge) : forall base asked l cs, a <> [] -> orderly_from didx base asked l (map (@Append _) a ++ cs) -> orderly didx (l ++ a) cs.
  Proof.
    induction a as [|e a IH]; intros base asked l cs Hne H; [done|]. simpl in H. destruct a as [|e2 a]; [exact H|].
    change (l ++ e :: e2 :: a) with (l ++ [e] ++ e2 :: a). rewrite app_assoc. eapply IH; [done|exact H].
  Qed.
  Lemma orderly_any base asked l cs : match cs with [] => True | c :: _ => exists a, c = Append a end -> orderly_from didx base asked l cs -> orderly (A:=edge) didx l cs.
  Proof. destruct cs as [|c cs]; [done|]. intros (a & ->) H. exact H. Qed.



  Definition dests (ds : list ev) : list N := map (fun c => didx (eedge c)) ds.
  Lemma app_none (l : list edge) : app (repeat false (length l)) l = l.
  Proof. unfold app. induction l as [|e l IH]; [done|]. simpl. by rewrite IH. Qed.
  Lemma ones_none n : ones (repeat false n) = 0%nat.
  Proof. unfold ones. by induction n. Qed.
  Lemma none_true n i : repeat false n !! i = Some true -> False.
  Proof. intros H. apply elem_of_list_lookup_2, elem_of_list_In, repeat_spec in H. done. Qed.
  Lemma front_none (l : list edge) : front l [] (repeat false (length l)).
  Proof. intros i e He. split; [|simpl; lia]. intros H. by apply none_true in H. Qed.
  (** One run of deletions. *)
  Lemma one_run by_ts l ds rest sel other : wf by_ts l -> Forall is_del ds -> match rest with [] => True | c :: _ => etype c <> DEL end ->
    match del_run 0 l sel [] (ds ++ rest) with
    | None => rem l (dests ds) = None
    | Some (k, l2, sel2, ix, cs) => cs = rest /\ exists m, length m = length l /\ ones m = length ds /\
        take_out get_ts set_ts by_ts (sel2 || other) k l2 ix = (picked false m l, picked true m l) /\
        exists r, rem l (dests ds) = Some r /\ same_counts didx (picked false m l) r /\
          (forall cs', orderly didx l (map (@Remove _) (dests ds) ++ cs') -> r = picked false m l /\ orderly_from didx l (dests ds) r cs')
    end.
  Proof.
    intros Hwf Hds Hr2.
    set (m0 := repeat false (length l)).
    assert (Hm0 : length m0 = length l) by apply repeat_length.
    pose proof (app_none l) as Happ. fold m0 in Happ.
    pose proof (ones_none (length l)) as Hones. fold m0 in Hones.
    destruct (picked_none (length l) l eq_refl) as [Hp0 _]. fold m0 in Hp0.
    pose proof (del_run_mrun ds rest l m0 0 sel [] Hm0 (proj1 Hwf) Hds Hr2) as Hdr. rewrite Happ in Hdr. rewrite Hdr. clear Hdr.
    fold (dests ds) in *.
    pose proof (mrun_spec (dests ds) 0 m0 l Hm0 Hones) as Hm. rewrite Hp0 in Hm.
    destruct (mrun 0 m0 l (dests ds)) as [[[m' slow] ix]|] eqn:Emr; [|exact Hm].
    destruct Hm as (M1 & M2 & (r & M3 & M4) & M5 & M6 & M7 & M8).
    split; [done|]. exists m'. split; [exact M1|].
    assert (Hdl : length (dests ds) = length ds) by apply map_length. rewrite Hdl in M2.
    split; [exact M2|]. split.
    - apply take_out_spec; try done.
      + apply Hwf.
      + intros Hs. apply orb_false_iff in Hs as [Hs _]. apply orb_false_iff in Hs as [_ ->].
        pose proof (mrun_fast (dests ds) 0 l m' ix) as Hfast. rewrite Hdl, Nat.sub_0_r in Hfast.
        apply Hfast; [|exact Emr]. pose proof (ones_full m'). lia.
      + apply Hwf.
      + intros i. rewrite M6. split; [|by right]. intros [H|H]; [|exact H]. exfalso. by eapply none_true.
    - exists r. split; [exact M3|]. split; [exact M4|]. intros cs' Ho.
      unfold orderly in Ho. rewrite <- Hp0 in Ho at 2.
      destruct (mrun_fifo (dests ds) l [] m0 cs' m' slow ix Hm0 (front_none l) Ho Emr) as [Q1 Q2].
      rewrite Hp0, M3 in Q1. injection Q1 as Q1. by subst r.
  Qed.

  Definition told (c : call P) : report edge := match c with OnAdd k l => Added k l | OnDel g l => Deleted g l end.
  Definition outcome (cs : list ev) (l : list edge) (log : list (call P)) (adds dels : N) (x : option (list edge * bool * list (call P) * N * N)) : Prop :=
    match x with
    | None => fifo didx l (map chg cs) = None
    | Some (l', sel', log', adds', dels') =>
        (exists r, fifo didx l (map chg cs) = Some r /\ same_counts didx l' r /\ (orderly didx l (map chg cs) -> l' = r)) /\
        sublist l' (l ++ adds_of cs) /\ (length l' + length (dels_of cs) = length l + length (adds_of cs))%nat /\
        adds' = (adds + N.of_nat (length (adds_of cs))) mod w32 /\ dels' = (dels + N.of_nat (length (dels_of cs))) mod w32 /\
        (exists lg, log' = log ++ lg /\ reported l (map told lg) l')
    end.
  Lemma outcome_adds a rest l log adds dels x : Forall (fun c : ev => etype c = ADD) a ->
    outcome rest (l ++ map eedge a) (if (length l <? length l + length a)%nat then log ++ [OnAdd (length l) (l ++ map eedge a)] else log) ((adds + N.of_nat (length a)) mod w32) dels x ->
    outcome (a ++ rest) l log adds dels x.
  Proof.
    intros Hadd. destruct (adds_only a Hadd) as (A1 & A2 & A3).
    assert (B1 : adds_of (a ++ rest) = map eedge a ++ adds_of rest) by (unfold adds_of; rewrite List.filter_app, map_app; fold (adds_of a) (adds_of rest); by rewrite A1).
    assert (B2 : dels_of (a ++ rest) = dels_of rest) by (unfold dels_of; rewrite List.filter_app; fold (dels_of a) (dels_of rest); by rewrite A2).
    assert (B3 : fifo didx l (map chg (a ++ rest)) = fifo didx (l ++ map eedge a) (map chg rest)) by (by rewrite map_app, A3, fifo_app, fifo_appends).
    assert (Hord : orderly didx l (map chg (a ++ rest)) -> orderly didx (l ++ map eedge a) (map chg rest)).
    { rewrite map_app, A3. destruct a as [|c1 a]; [simpl; by rewrite app_nil_r|]. apply orderly_appends. done. }
    unfold outcome. rewrite B1, B2, B3. destruct x as [[[[[l' sel'] log'] adds'] dels']|]; [|done].
    intros ((r & R1 & R2 & R3) & S1 & S2 & S3 & S4 & lg & S5 & S6). split; [exists r; split; [done|]; split; [done|]; intros; by apply R3, Hord|].
    rewrite <- app_assoc in S1. rewrite app_length, map_length in S2. rewrite app_length, map_length. split; [done|]. split; [lia|]. split; [rewrite S3; apply mod_add_l|]. split; [done|].
    destruct (Nat.ltb_spec (length l) (length l + length a)) as [L|L].
    - exists (OnAdd (length l) (l ++ map eedge a) :: lg). rewrite <- app_assoc in S5. split; [done|]. simpl. split; [done|]. split; [rewrite app_length, map_length; lia|].
      split; [apply take_app|done].
    - exists lg. split; [done|]. destruct a; [|simpl in L; lia]. simpl in S6. by rewrite app_nil_r in S6.
  Qed.
  Lemma outcome_dels ds rest l m log dels adds x : ds <> [] -> Forall is_del ds -> kinds rest -> match rest with [] => True | c :: _ => etype c <> DEL end ->
    length m = length l -> ones m = length ds ->
    (exists r, rem l (dests ds) = Some r /\ same_counts didx (picked false m l) r /\
          (forall cs', orderly didx l (map (@Remove _) (dests ds) ++ cs') -> r = picked false m l /\ orderly_from didx l (dests ds) r cs')) ->
    outcome rest (picked false m l) (log ++ [OnDel (picked true m l) (picked false m l)]) adds ((dels + N.of_nat (length (picked true m l))) mod w32) x ->
    outcome (ds ++ rest) l log adds dels x.
  Proof.
    intros Hdne Hds Hk Hr2 Hlen Hones (r & M3 & M4 & M5). destruct (dels_only ds Hds) as (D1 & D2 & D3).
    assert (C1 : adds_of (ds ++ rest) = adds_of rest) by (unfold adds_of; rewrite List.filter_app, map_app; fold (adds_of ds) (adds_of rest); by rewrite D1).
    assert (C2 : dels_of (ds ++ rest) = ds ++ dels_of rest) by (unfold dels_of; rewrite List.filter_app; fold (dels_of ds) (dels_of rest); by rewrite D2).
    fold (dests ds) in D3.
    assert (Hff : fifo didx l (map chg (ds ++ rest)) = fifo didx r (map chg rest)).
    { rewrite map_app, D3, fifo_app. unfold rem in M3. by rewrite M3. }
    assert (Hlen1 : length (picked true m l) = length ds) by (rewrite picked_len by done; exact Hones).
    assert (Hlen2 : (length (picked false m l) + length ds = length l)%nat) by (pose proof (picked_total m l Hlen); lia).
    pose proof (fifo_counts didx (map chg rest) _ _ M4) as Hfc.
    unfold outcome. rewrite C1, C2, Hff. destruct x as [[[[[l' sel'] log'] adds'] dels']|].
    - intros ((r2 & R1 & R2 & R3) & S1 & S2 & S3 & S4 & lg & S5 & S6). rewrite R1 in Hfc.
      destruct (fifo didx r (map chg rest)) as [r3|] eqn:Er3; [|done].
      split; [|split; [|split; [|split; [|split]]]].
      + exists r3. split; [done|]. split; [intros d; by rewrite R2|]. intros Ho. rewrite map_app, D3 in Ho. destruct (M5 _ Ho) as [Q1 Q2].
        subst r. rewrite R1 in Er3. injection Er3 as ->. apply R3. eapply orderly_any; [|exact Q2].
        destruct rest as [|c rest]; [done|]. simpl. apply Forall_cons_iff in Hk as [[E|E] _]; [|done]. unfold chg. rewrite E. simpl. eauto.
      + etransitivity; [exact S1|]. apply sublist_app; [apply picked_sublist|done].
      + rewrite app_length. lia.
      + done.
      + rewrite S4, Hlen1, app_length. apply mod_add_l.
      + exists (OnDel (picked true m l) (picked false m l) :: lg). rewrite <- app_assoc in S5. split; [done|]. simpl. split; [by exists m|]. split; [|done].
        intros E. rewrite E in Hlen1. destruct ds; done.
    - intros R. rewrite R in Hfc. by destruct (fifo didx r (map chg rest)).
  Qed.
  Lemma rounds_ok o other fuel : time_range o = false -> forall cs l sel log adds dels,
    (length cs < fuel)%nat -> kinds cs -> wf (by_ts o) (l ++ adds_of cs) -> adds < w32 -> dels < w32 ->
    outcome cs l log adds dels (rounds get_ts get_end set_ts set_end fuel o other l sel cs log adds dels).
  Proof.
    intros Htr. induction fuel as [|fuel IH]; intros cs l sel log adds dels Hfuel Hk Hwf Ha Hd; [lia|].
    assert (Hnil : forall l sel log adds, adds < w32 -> outcome [] l log adds dels (Some (l, sel, log, adds, dels))).
    { clear - Hd. intros l sel log adds Ha. split; [by eexists|]. split; [by rewrite app_nil_r|]. split; [done|].
      change (length (adds_of [])) with 0%nat. change (length (dels_of [])) with 0%nat. rewrite !N.add_0_r. split; [by rewrite N.mod_small|]. split; [by rewrite N.mod_small|]. exists []. by rewrite app_nil_r. }
    destruct cs as [|c0 cs0] eqn:Ecs; [by apply Hnil|].
    cbn [rounds]. rewrite <- Ecs in *. clear Ecs c0 cs0.
    destruct (add_run_spec cs l) as (a & rest & -> & Hadd & Hrest & ->).
    destruct (adds_only a Hadd) as (A1 & A2 & A3).
    assert (B1 : adds_of (a ++ rest) = map eedge a ++ adds_of rest) by (unfold adds_of; rewrite List.filter_app, map_app; fold (adds_of a) (adds_of rest); by rewrite A1).
    rewrite B1, app_assoc in Hwf.
    apply outcome_adds; [done|]. unfold kinds in Hk. apply Forall_app in Hk as [_ Hk].
    rewrite !app_length, map_length. replace (length l + length a - length l)%nat with (length a) by lia.
    set (l1 := l ++ map eedge a) in *. clearbody l1.
    set (log1 := if (length l <? length l + length a)%nat then log ++ [OnAdd (length l) l1] else log). clearbody log1.
    set (adds1 := (adds + N.of_nat (length a)) mod w32). assert (Ha1 : adds1 < w32) by (by apply N.mod_lt). clearbody adds1.
    assert (Hrest' : forall c r, rest = c :: r -> etype c <> ADD) by (intros c r ->; exact Hrest). clear Hrest.
    destruct rest as [|c1 rest1] eqn:Erest; [by apply Hnil|].
    rewrite <- Erest in *. assert (Hlr : rest <> []) by (by rewrite Erest). clear Erest c1 rest1. rewrite Htr.
    destruct (del_split rest) as (ds & rest2 & -> & Hds & Hr2).
    assert (Hdne : ds <> []).
    { intros ->. destruct rest2 as [|c rest2]; [done|]. simpl in *. apply Forall_cons_iff in Hk as [[?|?] _]; [|done]. by eapply Hrest'. }
    apply Forall_app in Hk as [_ Hk].
    destruct (dels_only ds Hds) as (D1 & D2 & D3).
    assert (C1 : adds_of (ds ++ rest2) = adds_of rest2) by (unfold adds_of; rewrite List.filter_app, map_app; fold (adds_of ds) (adds_of rest2); by rewrite D1).
    rewrite C1 in Hwf.
    assert (Hwf1 : wf (by_ts o) l1) by (eapply wf_sublist; [|exact Hwf]; apply sublist_inserts_r; done).
    pose proof (fun other => one_run (by_ts o) l1 ds rest2 sel other Hwf1 Hds Hr2) as H1.
    destruct (del_run 0 l1 sel [] (ds ++ rest2)) as [[[[[k l2] sel2] ix] cs2]|].
    - destruct (H1 (other (length cs2))) as (-> & m & M1 & M2 & M3 & M4). rewrite M3.
      eapply outcome_dels; [exact Hdne|exact Hds|exact Hk|exact Hr2|exact M1|exact M2|exact M4|].
      apply IH; [|exact Hk| |exact Ha1|by apply N.mod_lt].
      + rewrite !app_length in Hfuel. destruct ds; [done|]. simpl in Hfuel. lia.
      + eapply wf_sublist; [|exact Hwf]. apply sublist_app; [apply picked_sublist|done].
    - specialize (H1 false). unfold outcome. rewrite map_app, D3. fold (dests ds). rewrite fifo_app. unfold rem in H1. by rewrite H1.
  Qed.
End proofs.
