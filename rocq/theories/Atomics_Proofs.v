From Verif Require Import Base Atomics_Spec Atomics_Model.

Section proofs.
  Context {V Op : Type} (eqb : V -> V -> bool) (write : Op -> V -> option V).
  Context (eqb_ok : forall a b, eqb a b = true -> a = b).

  (** The effect of an indivisible call. *)
  Definition effect (o : Op) (v : V) : V := match write o v with Some v' => v' | None => v end.

  Definition pending (th : thread (V:=V) (Op:=Op)) : list Op :=
    match loaded th with Some (o, _) => o :: todo th | None => todo th end.

  Record inv (v0 : V) (progs : list (list Op)) (s : state) : Prop := {
    iv_seq : sequential effect v0 (log s) (cell s);
    iv_len : length (threads s) = length progs;
    iv_prog : forall t th p, threads s !! t = Some th -> progs !! t = Some p ->
              p = ops_of t (log s) ++ pending th;
    iv_load : forall t th o old, threads s !! t = Some th -> loaded th = Some (o, old) ->
              is_Some (write o old);
    iv_log : forall t o r, In (t, o, r) (log s) -> t < length progs }.

  Lemma ops_of_snoc t (cs : list (nat * Op * V)) u o (r : V) :
    ops_of t (cs ++ [(u, o, r)]) = ops_of t cs ++ (if Nat.eqb u t then [o] else []).
  Proof.
    unfold ops_of. rewrite List.filter_app, map_app. simpl. destruct (Nat.eqb u t); done.
  Qed.

  Lemma inv_start v0 progs : inv v0 progs (start v0 progs).
  Proof.
    unfold start. split; simpl.
    - constructor.
    - by rewrite map_length.
    - intros t th p Ht Hp. rewrite <- nth_error_lookup, nth_error_map, nth_error_lookup, Hp in Ht.
      simpl in Ht. injection Ht as <-. done.
    - intros t th o old Ht Hl. rewrite <- nth_error_lookup, nth_error_map in Ht.
      destruct (nth_error progs t); simpl in Ht; [|done]. injection Ht as <-. done.
    - done.
  Qed.

  (** Replacing the thread [t] by one with the same or one fewer pending call. *)
  Lemma inv_step v0 progs s t s' :
    inv v0 progs s -> step_thread eqb write s t = Some s' -> inv v0 progs s'.
  Proof.
    intros [I1 I2 I3 I4 I5] Hs. unfold step_thread in Hs.
    destruct (threads s !! t) as [th|] eqn:Et; [|done].
    assert (Htl : t < length (threads s)) by (by eapply lookup_lt_Some).
    assert (Hkeep : forall (th' : thread (V:=V) (Op:=Op)) (lg : list (nat * Op * V)),
      (forall u, u <> t -> ops_of u lg = ops_of u (log s)) ->
      ops_of t lg ++ pending th' = ops_of t (log s) ++ pending th ->
      forall u thu p, <[t:=th']> (threads s) !! u = Some thu -> progs !! u = Some p ->
        p = ops_of u lg ++ pending thu).
    { intros th' lg Hu Ht u thu p Hl Hp. destruct (decide (u = t)) as [->|Hne].
      - rewrite list_lookup_insert in Hl by done. injection Hl as <-.
        rewrite Ht. by apply I3.
      - rewrite list_lookup_insert_ne in Hl by done. rewrite Hu by done. by apply I3. }
    assert (Hlog : forall o r, forall u o' r', In (u, o', r') (log s ++ [(t, o, r)]) -> u < length progs).
    { intros o r u o' r' Hin. apply in_app_iff in Hin as [Hin|[Hin|[]]]; [by eapply I5|].
      injection Hin as <- _ _. by rewrite <- I2. }
    assert (Hload : forall th' : thread (V:=V) (Op:=Op), (forall o old, loaded th' = Some (o, old) -> is_Some (write o old)) ->
      forall u thu o old, <[t:=th']> (threads s) !! u = Some thu -> loaded thu = Some (o, old) ->
        is_Some (write o old)).
    { intros th' H u thu o old Hl. destruct (decide (u = t)) as [->|Hne].
      - rewrite list_lookup_insert in Hl by done. injection Hl as <-. apply H.
      - rewrite list_lookup_insert_ne in Hl by done. by eapply I4. }
    destruct (loaded th) as [[o old]|] eqn:El.
    - destruct (write o old) as [new|] eqn:Ew; [|done].
      destruct (eqb (cell s) old) eqn:Ec; injection Hs as <-.
      + apply eqb_ok in Ec. subst old. split; simpl.
        * replace new with (effect o (cell s)) by (unfold effect; by rewrite Ew).
          by constructor.
        * by rewrite insert_length.
        * apply Hkeep.
          { intros u Hu. rewrite ops_of_snoc. rewrite (proj2 (Nat.eqb_neq t u)) by done.
            by rewrite app_nil_r. }
          { rewrite ops_of_snoc, Nat.eqb_refl. unfold pending. rewrite El. simpl.
            by rewrite <- app_assoc. }
        * by apply Hload.
        * apply Hlog.
      + split; simpl; try done.
        * by rewrite insert_length.
        * apply Hkeep; [done|]. unfold pending. by rewrite El.
        * by apply Hload.
    - destruct (todo th) as [|o rest] eqn:Etd; [done|].
      destruct (write o (cell s)) as [new|] eqn:Ew; injection Hs as <-.
      + split; simpl; try done.
        * by rewrite insert_length.
        * apply Hkeep; [done|]. unfold pending. by rewrite El, Etd.
        * apply Hload. simpl. intros o' old' Ho. injection Ho as <- <-. by rewrite Ew.
      + split; simpl.
        * assert (effect o (cell s) = cell s) as He by (unfold effect; by rewrite Ew).
          rewrite <- He at 2. by constructor.
        * by rewrite insert_length.
        * apply Hkeep.
          { intros u Hu. rewrite ops_of_snoc. rewrite (proj2 (Nat.eqb_neq t u)) by done.
            by rewrite app_nil_r. }
          { rewrite ops_of_snoc, Nat.eqb_refl. unfold pending. rewrite El, Etd. simpl.
            by rewrite <- app_assoc. }
        * by apply Hload.
        * apply Hlog.
  Qed.

  Lemma inv_run v0 progs sched : forall s, inv v0 progs s -> inv v0 progs (run eqb write s sched).
  Proof.
    induction sched as [|t sched IH]; intros s Hi; simpl; [done|].
    apply IH. destruct (step_thread eqb write s t) eqn:E; [|done]. by eapply inv_step.
  Qed.

  Lemma done_ops v0 progs s : inv v0 progs s -> all_done s ->
    forall t p, progs !! t = Some p -> ops_of t (log s) = p.
  Proof.
    intros [I1 I2 I3 I4 I5] Hd t p Hp.
    assert (t < length (threads s)) as Hl by (rewrite I2; by eapply lookup_lt_Some).
    apply lookup_lt_is_Some in Hl as [th Hth].
    pose proof (Forall_lookup_1 _ _ _ _ Hd Hth) as [Hd1 Hd2].
    rewrite (I3 t th p Hth Hp). unfold pending. rewrite Hd2, Hd1. by rewrite app_nil_r.
  Qed.

  (** The log is append-only, and a step appends at most the call of the stepping
      thread. *)
  Lemma run_log_prefix sched : forall s, exists more, log (run eqb write s sched) = log s ++ more.
  Proof.
    induction sched as [|t sched IH]; intros s; simpl.
    - exists []. by rewrite app_nil_r.
    - destruct (step_thread eqb write s t) as [s'|] eqn:E; [|apply IH].
      destruct (IH s') as [more ->].
      assert (exists m, log s' = log s ++ m) as [m ->].
      { unfold step_thread in E. repeat case_match; simplify_eq; simpl;
          try (by exists []; rewrite app_nil_r); by eexists. }
      exists (m ++ more). by rewrite app_assoc.
  Qed.
End proofs.

(** Permutation of all calls when everybody is done. *)
Lemma log_is_all_ops {V Op} (progs : list (list Op)) (lg : list (nat * Op * V)) :
  (forall t o r, In (t, o, r) lg -> t < length progs) ->
  (forall t p, progs !! t = Some p -> ops_of t lg = p) ->
  Permutation (map (fun c => snd (fst c)) lg) (concat progs).
Proof.
  revert lg. induction progs as [|p progs IH] using rev_ind; intros lg Hlt Hops.
  - destruct lg as [|[[t o] r] lg]; [done|].
    specialize (Hlt t o r ltac:(by left)). simpl in Hlt. lia.
  - rewrite concat_app. simpl. rewrite app_nil_r.
    set (n := length progs).
    set (lo := List.filter (fun c : nat * Op * V => negb (Nat.eqb (fst (fst c)) n)) lg).
    assert (Hsplit : Permutation (map (fun c => snd (fst c)) lg)
                      (map (fun c => snd (fst c)) lo ++ ops_of n lg)).
    { unfold lo, ops_of. rewrite <- map_app. apply Permutation_map. clear.
      induction lg as [|c lg IHl]; simpl; [done|].
      destruct (Nat.eqb (fst (fst c)) n); simpl.
      - rewrite <- Permutation_middle. by constructor.
      - by constructor. }
    rewrite Hsplit. apply Permutation_app.
    + apply IH.
      * intros t o r Hin. apply List.filter_In in Hin as [Hin Hne]. simpl in Hne.
        pose proof (Hlt t o r Hin) as Hl. rewrite app_length in Hl. simpl in Hl.
        apply negb_true_iff, Nat.eqb_neq in Hne. unfold n in Hne. lia.
      * intros t q Hq. rewrite <- (Hops t q).
        2:{ by apply lookup_app_l_Some. }
        assert (t <> n) as Htn by (apply lookup_lt_Some in Hq; unfold n; lia).
        unfold ops_of, lo. f_equal. clear -Htn.
        induction lg as [|c lg IHl]; simpl; [done|].
        destruct (Nat.eqb (fst (fst c)) n) eqn:E; simpl.
        -- apply Nat.eqb_eq in E. rewrite (proj2 (Nat.eqb_neq (fst (fst c)) t)) by lia. done.
        -- destruct (Nat.eqb (fst (fst c)) t); [by f_equal|done].
    + rewrite (Hops n p); [done|]. unfold n. by rewrite list_lookup_middle.
Qed.

Lemma sequential_fold {V Op} (ap : Op -> V -> V) v0 cs v :
  sequential ap v0 cs v -> v = fold_left (fun v c => ap (snd (fst c)) v) cs v0.
Proof. induction 1; [done|]. rewrite fold_left_app. simpl. f_equal. exact IHsequential. Qed.
