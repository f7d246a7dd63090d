(** C28: streams with injected deletions. *)
From Verif Require Import Base Helpers_Model Helpers_Proofs Load_Spec Load_Model Load_Props Enact_Spec Inject_Spec Inject_Model.
Open Scope N_scope.

Section props.
  Context {P : Type}.
  Notation tev := (tev P).
  (** The edge an event is about. *)
  Definition about (e : tev) : N * N * P := (tsrc e, tdst e, tprop e).
  Definition seen (e : tev) : bool * (N * N * P) := (event_type (word e) =? ADD, about e).

  Lemma plays_app (l l1 l2 : list (N * N * P)) es1 es2 : plays l es1 l1 -> plays l1 es2 l2 -> plays l (es1 ++ es2) l2.
  Proof.
    assert (G : forall l l' (H : Permutation l l') es l2, plays l' es l2 -> plays (A:=N * N * P) l es l2).
    { intros l0 l' H es l3 H2. revert l0 H. induction H2 as [l' l3 Hp|l' e es l3 H2 IH|l' l1' e es l3 Hp H2 IH]; intros l0 H.
      - constructor. by rewrite H.
      - constructor. apply IH. by constructor.
      - econstructor; [by rewrite H|exact H2]. }
    induction 1 as [l l' Hp|l e es l' H IH|l l1' e es l' Hp H IH]; intros H2; simpl.
    - by eapply G.
    - constructor. by apply IH.
    - econstructor; [exact Hp|by apply IH].
  Qed.

  Definition is_adds (l : list tev) : Prop := Forall (fun e => event_type (word e) = ADD) l.
  Lemma word_type idx w : event_type (N.lor (N.shiftl idx EVENT_TYPE_BITS mod w64) (N.land w EVENT_TYPE_MASK)) = event_type w.
  Proof.
    unfold event_type, EVENT_TYPE_BITS. change EVENT_TYPE_MASK with (N.ones 2). unfold w64. apply N.bits_inj. intros i.
    rewrite !N.land_spec, N.lor_spec, N.land_spec. destruct (N.ltb_spec i 2).
    - rewrite (N.ones_spec_low 2 i) by done. rewrite N.mod_pow2_bits_low by lia. rewrite N.shiftl_spec_low by done. simpl. by rewrite !andb_true_r.
    - rewrite (N.ones_spec_high 2 i) by done. by rewrite !andb_false_r.
  Qed.
  Lemma word_idx idx w : idx < 2 ^ 62 -> event_idx (N.lor (N.shiftl idx EVENT_TYPE_BITS mod w64) (N.land w EVENT_TYPE_MASK)) = idx.
  Proof.
    intros H. unfold event_idx, EVENT_TYPE_BITS. change EVENT_TYPE_MASK with (N.ones 2). rewrite N.shiftr_lor.
    rewrite N.mod_small; [|rewrite N.shiftl_mul_pow2; unfold w64; change (2 ^ 64) with (2 ^ 62 * 2 ^ 2); revert H; generalize (2 ^ 62); change (2 ^ 2) with 4; lia].
    rewrite N.shiftr_shiftl_l, N.sub_diag, N.shiftl_0_r by done. rewrite N.land_ones, N.shiftr_div_pow2, N.div_small by (by apply N.mod_lt). by rewrite N.lor_0_r.
  Qed.
  Lemma rr_perm {A} (l : list A) k x l' : remove_random l k = Some (x, l') -> Permutation l (x :: l').
  Proof.
    intros H. assert (k < length l)%nat as Hk. { unfold remove_random in H. destruct (l !! k) eqn:E; [|done]. by eapply lookup_lt_Some. }
    destruct (remove_random_ok l k Hk) as (x0 & l0 & H1 & _ & H2). rewrite H1 in H. by injection H as <- <-.
  Qed.

  (** The invariant of the loop. *)
  Record inv (all : list tev) (idx : N) (avail prev acc : list tev) : Prop := {
    inv_all : Permutation (avail ++ prev) all;
    inv_plays : plays [] (map seen acc) (map about prev);
    inv_idx : idx = N.of_nat (length acc);
    inv_num : forall i e, acc !! i = Some e -> N.of_nat i < 2 ^ 62 -> event_idx (word e) = N.of_nat i;
    inv_kind : Forall (fun e => event_type (word e) = ADD \/ event_type (word e) = DEL) acc }.
  Lemma inv_step all coin k idx avail prev acc cur avail' prev' : is_adds all -> inv all idx avail prev acc ->
    inject_step coin k idx avail prev = Some (cur, avail', prev') -> inv all (idx + 1) avail' prev' (acc ++ [cur]).
  Proof.
    intros Ha [I1 I2 I3 I4 I5] H.
    assert (G : exists c kind, cur = with_word c (N.lor (N.shiftl idx EVENT_TYPE_BITS mod w64) (N.land (word c) EVENT_TYPE_MASK)) /\ seen c = (kind, about cur) /\
      (event_type (word c) = ADD \/ event_type (word c) = DEL) /\
      Permutation (avail' ++ prev') (avail ++ prev) /\ plays (map about prev) [(kind, about cur)] (map about prev')).
    { unfold inject_step in H. destruct ((0 <? length prev)%nat && coin).
      - destruct (remove_random prev k) as [[c prev1]|] eqn:Er; [|done]. apply rr_perm in Er. injection H as <- <- <-.
        exists (with_word c DEL), false. split; [done|]. split; [done|]. split; [by right|]. split.
        + rewrite Er, <- app_assoc. done.
        + eapply plays_del; [|by constructor]. rewrite Er. done.
      - destruct (remove_random avail k) as [[c avail1]|] eqn:Er; [|done]. apply rr_perm in Er. injection H as <- <- <-.
        assert (Hc : event_type (word c) = ADD).
        { unfold is_adds in Ha. rewrite List.Forall_forall in Ha. apply Ha. eapply Permutation_in; [exact I1|]. apply in_or_app. left. eapply Permutation_in; [symmetry; exact Er|by left]. }
        exists c, true. split; [done|]. split; [unfold seen; by rewrite Hc|]. split; [by left|]. split.
        + rewrite Er. simpl. rewrite (Permutation_middle avail1 prev c). apply Permutation_app_head. by rewrite Permutation_app_comm.
        + apply plays_add. apply plays_end. rewrite map_app. simpl. by rewrite Permutation_app_comm. }
    destruct G as (c & kind & -> & G2 & G3 & G4 & G5). split.
    - by rewrite G4.
    - rewrite map_app. eapply plays_app; [exact I2|]. simpl. unfold seen in G2 |- *. cbn [word with_word]. rewrite word_type. injection G2 as ->. exact G5.
    - rewrite app_length. simpl. lia.
    - intros i e He Hi. destruct (Nat.lt_ge_cases i (length acc)) as [L|L]; [rewrite lookup_app_l in He by done; by apply I4|].
      rewrite lookup_app_r in He by done. destruct (i - length acc)%nat as [|j] eqn:Ej; [|done]. simpl in He. injection He as <-.
      cbn [word with_word]. replace (N.of_nat i) with idx by lia. apply word_idx. lia.
    - apply Forall_app. split; [done|]. constructor; [|done]. cbn [word with_word]. by rewrite word_type.
  Qed.
  Lemma inject_loop_ok all cs : is_adds all -> forall idx avail prev acc out, inject_loop cs idx avail prev acc = Some out -> inv all idx avail prev acc ->
    exists idx' prev', inv all idx' [] prev' out.
  Proof.
    intros Ha. induction cs as [|[coin k] cs IH]; intros idx avail prev acc out H Hi.
    - destruct avail; [|done]. simpl in H. injection H as <-. eauto.
    - destruct avail as [|a av]; [simpl in H; injection H as <-; eauto|]. cbn [inject_loop] in H.
      destruct (inject_step coin k idx (a :: av) prev) as [[[cur avail'] prev']|] eqn:E; [|done].
      apply (IH _ _ _ _ _ H). by eapply inv_step.
  Qed.

  (** C28.  Every outcome of the random choices for which the loop ends: the stream is playable
      from nothing (each deletion is of an edge added and not deleted before), ends in exactly
      the multiset of edges given, consists of additions and deletions, and is numbered
      consecutively. *)
  Theorem C28_final_structure : forall (sc : list tev) js cs out, is_adds sc -> inject_deletes sc js cs = Some out ->
    plays [] (map seen out) (map about sc) /\
    Forall (fun e => event_type (word e) = ADD \/ event_type (word e) = DEL) out /\
    forall i e, out !! i = Some e -> N.of_nat i < 2 ^ 62 -> event_idx (word e) = N.of_nat i.
  Proof.
    intros sc js cs out Ha H. destruct (inject_loop_ok sc cs Ha _ _ _ _ _ H) as (idx' & prev' & [I1 I2 I3 I4 I5]).
    - split; simpl; try done; [|by constructor]. rewrite app_nil_r. apply shuffle_loop_perm.
    - split; [|done]. simpl in I1. rewrite <- (app_nil_r (map seen out)). eapply plays_app; [exact I2|]. constructor. by rewrite I1.
  Qed.

  (** In the graph a deletion takes the first edge to the destination (C26).  Played that way no
      deletion fails either, and the number of edges between any two vertices is as in the input. *)
  Definition ends (e : N * N * P) : N := snd (fst e).
  Definition change_of (x : bool * (N * N * P)) : change (N * N * P) := if fst x then Append (snd x) else Remove (ends (snd x)).
  Definition from (s : N) (e : N * N * P) : bool := fst (fst e) =? s.
  Theorem C28_fifo : forall (sc : list tev) js cs out, is_adds sc -> inject_deletes sc js cs = Some out -> forall s,
    exists r, fifo ends [] (map change_of (List.filter (fun x => from s (snd x)) (map seen out))) = Some r /\
      forall d, count_to ends d r = length (List.filter (fun e => (tsrc e =? s) && (tdst e =? d)) sc).
  Proof.
    intros sc js cs out Ha H s. destruct (C28_final_structure sc js cs out Ha H) as (Hp & _).
    assert (G : forall l es l', plays l es l' -> forall l0 : list (N * N * P), (forall d, count_to ends d l0 = count_to ends d (List.filter (from s) l)) ->
      exists r, fifo ends l0 (map change_of (List.filter (fun x => from s (snd x)) es)) = Some r /\ forall d, count_to ends d r = count_to ends d (List.filter (from s) l')).
    { clear. assert (CP : forall d (l l' : list (N * N * P)), Permutation l l' -> count_to ends d (List.filter (from s) l) = count_to ends d (List.filter (from s) l')).
      { intros d l l' Hp. unfold count_to. induction Hp as [|x l l' Hp IH|x y l|l l' l'' H1 IH1 H2 IH2]; simpl; [done| | |congruence].
        - destruct (from s x); simpl; [|done]. destruct (ends x =? d); simpl; lia.
        - destruct (from s x), (from s y); simpl; try done; destruct (ends x =? d), (ends y =? d); done. }
      induction 1 as [l l' Hp|l e es l' H IH|l l1 e es l' Hp H IH]; intros l0 H0.
      - exists l0. split; [done|]. intros d. by rewrite H0, (CP d _ _ Hp).
      - cbn [List.filter snd]. destruct (from s e) eqn:Ef.
        + simpl. apply IH. intros d. unfold count_to in *. rewrite List.filter_app, app_length, H0. simpl. rewrite Ef. simpl. destruct (ends e =? d); simpl; lia.
        + apply IH. intros d. simpl. by rewrite Ef.
      - cbn [List.filter snd]. destruct (from s e) eqn:Ef.
        + simpl. change (change_of (false, e)) with (Remove (A:=N * N * P) (ends e)). cbn [fifo].
          assert (Hc : forall d, count_to ends d l0 = (count_to ends d (List.filter (from s) l1) + if (ends e =? d)%N then 1 else 0)%nat).
          { intros d. rewrite H0, (CP d _ _ Hp). simpl. rewrite Ef. unfold count_to. simpl. destruct (ends e =? d); simpl; lia. }
          assert (R : forall l0 : list (N * N * P), (0 < count_to ends (ends e) l0)%nat -> exists r, remove_first ends (ends e) l0 = Some r /\
            forall d, count_to ends d l0 = (count_to ends d r + if (ends e =? d)%N then 1 else 0)%nat).
          { clear. generalize (ends e). intros de. induction l0 as [|a l0 IH]; intros Hp; [unfold count_to in Hp; simpl in Hp; lia|].
            unfold count_to in *. simpl in Hp |- *. destruct (N.eqb_spec (ends a) de) as [E|E].
            - exists l0. split; [done|]. intros d. subst de. destruct (ends a =? d); simpl; lia.
            - destruct (IH Hp) as (r & -> & Hr). exists (a :: r). split; [done|]. intros d. specialize (Hr d). simpl. destruct (ends a =? d); simpl; lia. }
          destruct (R l0) as (r & -> & Hr); [rewrite Hc, N.eqb_refl; lia|]. apply IH. intros d. specialize (Hc d). specialize (Hr d). lia.
        + apply IH. intros d. rewrite H0, (CP d _ _ Hp). simpl. by rewrite Ef. }
    destruct (G _ _ _ Hp [] ltac:(done)) as (r & H1 & H2). exists r. split; [exact H1|]. intros d. rewrite H2. unfold count_to. clear.
    induction sc as [|e sc IH]; [done|]. simpl. unfold from at 1. simpl. destruct (tsrc e =? s); simpl; [|exact IH].
    unfold ends at 1. simpl. destruct (tdst e =? d); simpl; by rewrite IH.
  Qed.

  (** With chance at least 1 and two or more edges the loop never ends. *)
  Theorem C28_certain_deletion_never_ends : forall (sc : list tev) js cs, (2 <= length sc)%nat -> Forall (fun c => fst c = true) cs -> inject_deletes sc js cs = None.
  Proof.
    intros sc js cs Hl Hc. unfold inject_deletes.
    assert (G : forall cs idx avail prev acc, Forall (fun c => fst c = true) cs -> (2 <= length avail + length prev)%nat -> (length prev <= 1)%nat -> inject_loop cs idx avail prev acc = (None : option (list tev))).
    { clear. induction cs as [|[coin k] cs IH]; intros idx avail prev acc Hc H1 H2.
      - destruct avail; [simpl in *; lia|done].
      - apply Forall_cons_iff in Hc as [Hc1 Hc]. simpl in Hc1. subst coin. destruct avail as [|a av] eqn:E; [simpl in *; lia|]. rewrite <- E in *. 
        assert (inject_loop ((true, k) :: cs) idx avail prev acc = match inject_step true k idx avail prev with None => None | Some (cur, avail, prev) => inject_loop cs (idx + 1) avail prev (acc ++ [cur]) end) as -> by (by rewrite E).
        clear E a av. unfold inject_step. rewrite andb_true_r. destruct (Nat.ltb_spec 0 (length prev)).
        + destruct (remove_random prev k) as [[c p]|] eqn:Er; [|done]. apply rr_perm, Permutation_length in Er. simpl in Er. apply IH; [done|rewrite app_length; simpl; lia|lia].
        + destruct (remove_random avail k) as [[c p]|] eqn:Er; [|done]. apply rr_perm, Permutation_length in Er. simpl in Er. apply IH; [done|rewrite app_length; simpl; lia|rewrite app_length; simpl; lia]. }
    apply G; [done| |simpl; lia]. unfold shuffle. rewrite (Permutation_length (shuffle_loop_perm _ _ _ _)). simpl. lia.
  Qed.
  (** There are always choices for which it ends. *)
  Theorem C28_can_end : forall (sc : list tev) js, exists cs out, inject_deletes sc js cs = Some out /\ length out = length sc.
  Proof.
    intros sc js. unfold inject_deletes.
    assert (G : forall n idx avail prev acc, length avail = n -> exists out : list tev, inject_loop (repeat (false, 0%nat) n) idx avail prev acc = Some out /\ length out = (length acc + n)%nat).
    { clear. induction n as [|n IH]; intros idx avail prev acc Hl.
      - destruct avail; [|done]. exists acc. split; [done|lia].
      - destruct (remove_random_ok avail 0) as (x & l' & H1 & _ & H2); [lia|]. apply Permutation_length in H2. simpl in H2.
        destruct avail as [|a av] eqn:E; [done|]. rewrite <- E in *.
        assert (inject_loop (repeat (false, 0%nat) (S n)) idx avail prev acc = match inject_step false 0 idx avail prev with None => None | Some (cur, avail, prev) => inject_loop (repeat (false, 0%nat) n) (idx + 1) avail prev (acc ++ [cur]) end) as -> by (by rewrite E).
        unfold inject_step. rewrite andb_false_r, H1. edestruct (IH (idx + 1) l') as (out & -> & H4); [lia|]. exists out. split; [done|]. rewrite H4, app_length. simpl. lia. }
    destruct (G (length (shuffle js sc)) 0 (shuffle js sc) [] [] eq_refl) as (out & H1 & H2). exists (repeat (false, 0%nat) (length (shuffle js sc))), out. split; [done|].
    rewrite H2. simpl. unfold shuffle. apply Permutation_length, shuffle_loop_perm.
  Qed.
End props.
Print Assumptions C28_final_structure.
Print Assumptions C28_fifo.
Print Assumptions C28_certain_deletion_never_ends.
Print Assumptions C28_can_end.

(** Edge properties need not be retained when edges are parallel: the stream adds the edge with
    property 10, then that with 20, deletes the latter and adds it again; the graph deletes the
    older one. *)
Theorem C28_parallel_properties_refuted : exists (sc : list (tev N)) js cs out,
  inject_deletes sc js cs = Some out /\ map (fun e => (tsrc e, tdst e, tprop e)) sc = [(1, 2, 10); (1, 2, 20); (3, 4, 0)] /\
  fifo ends [] (map change_of (List.filter (fun x => from 1 (snd x)) (map seen out))) = Some [(1, 2, 20); (1, 2, 20)].
Proof.
  exists [Tev 0 1 2 10; Tev 4 1 2 20; Tev 8 3 4 0], (fun i => i), [(false, 0%nat); (false, 1%nat); (true, 1%nat); (false, 0%nat); (false, 0%nat)]. eexists.
  split; [vm_compute; reflexivity|]. split; [reflexivity|]. vm_compute. reflexivity.
Qed.
Print Assumptions C28_parallel_properties_refuted.
Example C28_case : option_map (map (fun e => (event_type (word e), event_idx (word e), about e)))
  (inject_deletes [Tev 0 1 2 10; Tev 4 2 3 20; Tev 8 3 1 30] (fun i => 0%nat) [(false, 1%nat); (false, 0%nat); (true, 0%nat); (true, 0%nat); (false, 2%nat); (false, 0%nat); (false, 0%nat)])
  = Some [(0, 0, (1, 2, 10)); (0, 1, (3, 1, 30)); (1, 2, (1, 2, 10)); (1, 3, (3, 1, 30)); (0, 4, (3, 1, 30)); (0, 5, (2, 3, 20)); (0, 6, (1, 2, 10))].
Proof. vm_compute. reflexivity. Qed.
