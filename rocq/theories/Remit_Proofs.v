(** Proofs about the second half of the event pipeline. *)
From Verif Require Import Base Vertex_Model Load_Spec Load_Model Load_Proofs Remit_Spec Remit_Model.
Open Scope N_scope.

Section spec_facts.
  Context {P : Type}.
  Implicit Types l : list (sev P).
  Lemma deliver_from_app b l1 l2 : deliver_from b (l1 ++ l2) = deliver_from b l1 ++ deliver_from (b ++ l1) l2.
  Proof.
    revert b. induction l1 as [|e l1 IH]; intros b; simpl; [by rewrite app_nil_r|]. by rewrite IH, <- app_assoc.
  Qed.
  Lemma deliver_snoc l e : deliver (l ++ [e]) = deliver l ++ [(e, pos_after l e)].
  Proof. unfold deliver. by rewrite deliver_from_app. Qed.
  Lemma deliver_from_fst b l : map fst (deliver_from b l) = l.
  Proof. revert b. induction l as [|e l IH]; intros b; [done|]. simpl. by rewrite IH. Qed.
  Lemma deliver_length l : length (deliver l) = length l.
  Proof. rewrite <- (map_length fst), (deliver_from_fst [] l : map fst (deliver l) = l). done. Qed.
  Lemma adds_app d l1 l2 : adds_to d (l1 ++ l2) = (adds_to d l1 + adds_to d l2)%nat.
  Proof. unfold adds_to. by rewrite List.filter_app, app_length. Qed.
  (** Only the events into the same thread matter for a position. *)
  Lemma adds_filter (f : sev P -> bool) d l : (forall e, dst e = d -> f e = true) -> adds_to d (List.filter f l) = adds_to d l.
  Proof.
    intros H. unfold adds_to. induction l as [|e l IH]; [done|]. simpl. destruct (f e) eqn:Ef; simpl.
    - destruct (_ && _); simpl; by rewrite IH.
    - destruct (N.eqb_spec (dst e) d) as [E|]; [by rewrite H in Ef|]. by rewrite andb_false_r.
  Qed.
  Lemma pos_filter (f : sev P -> bool) e l : (forall e', dst e' = dst e -> f e' = true) -> pos_after (List.filter f l) e = pos_after l e.
  Proof. intros H. unfold pos_after. by rewrite adds_filter. Qed.
End spec_facts.

Section proofs.
  Context {P : Type} (zero : P) (nthr : N).
  Implicit Types s : pipe P.

  Definition pview (r : rev P) : sev P * N :=
    (Sev (event_type (rword r)) (event_idx (rword r)) (rsrc r) (rdst r) (rprop r), rpos r).
  Definition pev (r : rev P) : sev P := fst (pview r).
  Definition inthr (t : nat) (e : sev P) : bool := Nat.eqb (wth nthr (dst e)) t.
  Definition rfor (t : nat) (l : list (rev P)) : list (rev P) := List.filter (fun r => Nat.eqb (wth nthr (rdst r)) t) l.
  Lemma rfor_app t l1 l2 : rfor t (l1 ++ l2) = rfor t l1 ++ rfor t l2.
  Proof. apply List.filter_app. Qed.
  Lemma rfor_pev t l : List.filter (inthr t) (map pev l) = map pev (rfor t l).
  Proof. unfold rfor. induction l as [|r l IH]; [done|]. simpl. unfold inthr at 1. simpl. destruct (Nat.eqb _ t); simpl; by rewrite IH. Qed.

  Definition cur s : list nat := match rst s with RLook t | RSeen t => [t] | _ => [] end.
  Definition pend s : list nat := match bst s with BOrder t => [t] | BPut => [] end.
  (** Events of thread [t] that have passed checkToRemit. *)
  Definition passed s (t : nat) : list (rev P) := rfor t (rlog s) ++ tr s t.
  Definition E s : list (sev P) := map view (emitted s).

  Record good s : Prop := {
    p_order : map (fun e => wth nthr (tdst e)) (emitted s) = map (fun r => wth nthr (rdst r)) (rlog s) ++ cur s ++ ord s ++ pend s;
    p_passed : forall t, List.filter (inthr t) (E s) = map pev (passed s t) ++ map view (fe s t);
    p_pos : forall t, map pview (passed s t) = deliver (map pev (passed s t));
    p_inpos : forall t d, wth nthr d = t -> inpos s t d = N.of_nat (adds_to d (map pev (passed s t))) mod w32;
    p_rlog : exists E2, E s = map pev (rlog s) ++ E2 /\ map pview (rlog s) = deliver (map pev (rlog s));
    p_didx : forall t r, In r (passed s t) -> exists i, verts s t !! i = Some (rdst r) /\ rdidx r = compress (N.of_nat t) (N.of_nat i);
    p_close : bclosed s = true -> todo s = [] /\ bst s = BPut;
    p_done : rst s = RDone -> bclosed s = true /\ ord s = [] }.
  Record always (evs : list (tev P)) s : Prop := {
    p_evs : emitted s ++ todo s = evs;
    p_nodup : forall t, NoDup (verts s t);
    p_taken : forall t, taken s t ++ tq s t = List.filter (fun r => Nat.eqb (wth nthr (rsrc r)) t) (rlog s);
    p_good : spurious s = false -> good s }.

  Lemma fset_eq {A} (f : nat -> A) i x : fset f i x i = x.
  Proof. unfold fset. by rewrite Nat.eqb_refl. Qed.
  Lemma fset_ne {A} (f : nat -> A) i x j : j <> i -> fset f i x j = f j.
  Proof. unfold fset. intros H. by apply Nat.eqb_neq in H as ->. Qed.

  Lemma find_idx_spec raw l i : find_idx raw l = Some i -> l !! i = Some raw.
  Proof.
    revert i. induction l as [|r l IH]; intros i; [done|]. simpl. destruct (N.eqb_spec r raw) as [->|]; [by intros [= <-]|].
    destruct (find_idx raw l) as [j|]; [|done]. intros [= <-]. by apply IH.
  Qed.
  Lemma find_idx_none raw l : find_idx raw l = None -> ~ In raw l.
  Proof.
    induction l as [|r l IH]; [auto|]. simpl. destruct (N.eqb_spec r raw) as [->|]; [done|].
    destruct (find_idx raw l); [done|]. intros _ [?|?]; [done|]. by apply IH.
  Qed.
  Lemma lookup_or_new_spec t l raw vs didx : lookup_or_new t l raw = (vs, didx) ->
    (exists x, vs = l ++ x) /\ (NoDup l -> NoDup vs) /\ exists i, vs !! i = Some raw /\ didx = compress (N.of_nat t) (N.of_nat i).
  Proof.
    unfold lookup_or_new. destruct (find_idx raw l) as [i|] eqn:Ef; intros [= <- <-].
    - split; [exists []; by rewrite app_nil_r|]. split; [done|]. exists i. split; [by apply find_idx_spec|done].
    - split; [eauto|]. split.
      + intros H. apply NoDup_app. split; [done|]. split; [|apply NoDup_singleton]. intros x Hx Hx'. apply elem_of_list_singleton in Hx' as ->.
        apply find_idx_none in Ef. apply Ef. by apply elem_of_list_In.
      + exists (length l). split; [by rewrite lookup_app_r, Nat.sub_diag by lia|done].
  Qed.

  Lemma always_bstep evs s : always evs s -> always evs (bstep nthr s).
  Proof.
    intros [A1 A2 A3 A4]. unfold bstep. destruct (bst s) as [|t] eqn:Eb.
    - destruct (todo s) as [|e rest] eqn:Et; split; simpl; auto.
      + intros Hs. specialize (A4 Hs). destruct A4. split; simpl; auto.
        * unfold cur, pend in *. simpl. by rewrite p_order0, Eb.
        * intros H. apply p_done0 in H as [H1 H2]. done.
      + by rewrite <- app_assoc.
      + intros Hs. specialize (A4 Hs). destruct A4. split; simpl; auto.
        * rewrite map_app, p_order0. unfold cur, pend. simpl. rewrite Eb, app_nil_r, <- !app_assoc. done.
        * intros t. unfold passed, E. simpl. rewrite map_app, List.filter_app. fold (E s). rewrite p_passed0. unfold passed. simpl.
          unfold inthr at 1. simpl. destruct (Nat.eqb_spec (wth nthr (tdst e)) t) as [<-|Hne].
          -- rewrite fset_eq, (map_app view), app_assoc. done.
          -- rewrite fset_ne by done. by rewrite app_nil_r.
        * destruct p_rlog0 as (E2 & H1 & H2). exists (E2 ++ [view e]). split; [|done]. unfold E in *. simpl.
          by rewrite map_app, H1, <- app_assoc.
        * intros H. apply p_close0 in H as [H _]. congruence.
    - split; simpl; auto. intros Hs. specialize (A4 Hs). destruct A4. split; simpl; auto.
      + unfold cur, pend in *. simpl. by rewrite p_order0, Eb, app_nil_r.
      + intros H. apply p_close0 in H as [H1 H2]. congruence.
      + intros H. apply p_done0 in H as [H1 H2]. apply p_close0 in H1 as [_ H1]. congruence.
  Qed.

  Lemma always_gstep evs t s : always evs s -> always evs (gstep t s).
  Proof.
    intros [A1 A2 A3 A4]. unfold gstep. destruct (fe s t) as [|e q] eqn:Ef.
    - destruct (bclosed s) eqn:Ec; [|done]. split; simpl; auto. intros Hs. specialize (A4 Hs). destruct A4. split; simpl; auto.
      intros H. by destruct (p_done0 H).
    - destruct (lookup_or_new t (verts s t) (tdst e)) as [vs didx] eqn:El.
      destruct (lookup_or_new_spec _ _ _ _ _ El) as ((x & Evs) & Hnd & i & Hi & Hdi).
      set (isadd := event_type (word e) =? ADD). set (ip := if isadd then _ else _). set (r := Rev _ _ _ _ _ _).
      split; simpl; auto.
      + intros t'. destruct (Nat.eq_dec t' t) as [->|]; [rewrite fset_eq; auto|by rewrite fset_ne].
      + intros Hs. specialize (A4 Hs).
        set (s' := Pipe _ _ _ _ _ _ _ _ _ _ _ _ _ _ _).
        assert (Hpev : pev r = view e) by done.
        assert (Hp : forall t', passed s' t' = if Nat.eqb t' t then passed s t ++ [r] else passed s t').
        { intros t'. unfold passed, s'. simpl. unfold fset. destruct (Nat.eqb_spec t' t) as [->|]; [by rewrite app_assoc|done]. }
        assert (Hthr : inthr t (view e) = true).
        { destruct A4. assert (In (view e) (List.filter (inthr t) (E s))) as H.
          { rewrite p_passed0, Ef. apply in_app_iff. right. by left. }
          by apply filter_In in H as [_ H]. }
        apply Nat.eqb_eq in Hthr. simpl in Hthr.
        assert (Hpos : rpos r = pos_after (map pev (passed s t)) (view e)).
        { unfold r, pos_after. simpl. unfold isadd. destruct (event_type (word e) =? ADD) eqn:Ea; [|done].
          rewrite (p_inpos _ A4 t (tdst e) Hthr). done. }
        destruct A4. split; simpl; auto.
        * intros t'. rewrite Hp. unfold E. simpl. fold (E s). rewrite p_passed0. unfold fset.
          destruct (Nat.eqb_spec t' t) as [->|]; [|done]. rewrite Ef, map_app, <- app_assoc. simpl. by rewrite Hpev.
        * intros t'. rewrite Hp. destruct (Nat.eqb_spec t' t) as [->|]; [|done].
          rewrite !map_app, p_pos0. simpl. rewrite deliver_snoc. unfold pview at 1. do 3 f_equal. done.
        * intros t' d Hd. rewrite Hp. unfold fset. destruct (Nat.eqb_spec t' t) as [->|]; [|by apply p_inpos0].
          rewrite map_app, adds_app. unfold adds_to at 2. simpl. unfold ip. fold isadd.
          destruct isadd; simpl; [|rewrite Nat.add_0_r; by apply p_inpos0].
          rewrite (N.eqb_sym (tdst e)). destruct (N.eqb_spec d (tdst e)) as [->|]; simpl; [|rewrite Nat.add_0_r; by apply p_inpos0].
          rewrite (p_inpos0 t _ Hd). rewrite N.add_mod_idemp_l by done. f_equal. lia.
        * intros t' r' Hr. rewrite Hp in Hr. unfold fset. destruct (Nat.eqb_spec t' t) as [->|]; [|by apply p_didx0].
          apply in_app_iff in Hr as [Hr|[<-|[]]].
          -- destruct (p_didx0 _ _ Hr) as (j & Hj & Ej). exists j. split; [|done]. rewrite Evs. by apply lookup_app_l_Some.
          -- exists i. done.
  Qed.

  Lemma always_rmove evs s o pc : always evs s -> (cur s ++ ord s = cur (rmove s o pc) ++ o) ->
    (pc = RDone -> bclosed s = true /\ o = []) -> always evs (rmove s o pc).
  Proof.
    intros [A1 A2 A3 A4] Hc Hd. split; simpl; auto. intros Hs. specialize (A4 Hs). destruct A4. split; simpl; auto.
    rewrite p_order0, (app_assoc (cur s)), Hc, <- app_assoc. done.
  Qed.

  Lemma always_rstep evs s : always evs s -> always evs (rstep zero nthr s).
  Proof.
    intros Ha. unfold rstep. destruct (rst s) as [|t|t|] eqn:Er.
    - destruct (ord s) as [|t o] eqn:Eo.
      + destruct (bclosed s) eqn:Ec; [|done]. apply always_rmove; auto. unfold cur. by rewrite Er, Eo.
      + apply always_rmove; auto; [|done]. unfold cur. by rewrite Er, Eo.
    - destruct (tr s t) as [|r q] eqn:Et.
      + apply always_rmove; auto; [|done]. unfold cur. by rewrite Er.
      + destruct Ha as [A1 A2 A3 A4]. split; simpl; auto.
        * intros t'. rewrite List.filter_app. simpl. rewrite <- A3. unfold fset.
          destruct (Nat.eqb_spec t' (wth nthr (rsrc r))) as [->|Hne].
          -- rewrite Nat.eqb_refl, app_assoc. done.
          -- destruct (Nat.eqb_spec (wth nthr (rsrc r)) t') as [E0|]; [congruence|]. by rewrite app_nil_r.
        * intros Hs. specialize (A4 Hs). unfold remit. set (s' := Pipe _ _ _ _ _ _ _ _ _ _ _ _ _ _ _).
          destruct (p_rlog _ A4) as (E2 & HE & Hrl).
          pose proof (p_order _ A4) as Ho. unfold cur in Ho. rewrite Er in Ho.
          (* the next event of E is the one for thread t *)
          assert (HE2 : exists e E2', E2 = view e :: E2' /\ wth nthr (tdst e) = t).
          { unfold E in HE. apply map_eq_app in HE as (l1 & l2 & Eem & El1 & El2). rewrite Eem, map_app in Ho.
            assert (Hlen : map (fun e => wth nthr (tdst e)) l1 = map (fun r => wth nthr (rdst r)) (rlog s)).
            { apply (f_equal (map (fun e => wth nthr (dst e)))) in El1. rewrite !map_map in El1. exact El1. }
            rewrite Hlen in Ho. apply app_inv_head in Ho. destruct l2 as [|e l2]; [done|]. simpl in Ho. injection Ho as Ho _.
            exists e, (map view l2). split; [by rewrite <- El2|done]. }
          destruct HE2 as (e & E2' & -> & Hte).
          assert (Hin : inthr t (view e) = true) by (apply Nat.eqb_eq; exact Hte).
          pose proof (p_passed _ A4 t) as Hp. rewrite HE, List.filter_app in Hp. simpl in Hp. rewrite Hin, rfor_pev in Hp.
          unfold passed in Hp. rewrite map_app, <- app_assoc in Hp. apply app_inv_head in Hp. rewrite Et in Hp. simpl in Hp.
          assert (Hre : view e = pev r) by (apply (f_equal (List.hd (view e))) in Hp; exact Hp).
          assert (Hrt : wth nthr (rdst r) = t).
          { change (rdst r) with (dst (pev r)). rewrite <- Hre. exact Hte. }
          assert (Hpos : rpos r = pos_after (map pev (rlog s)) (pev r)).
          { pose proof (p_pos _ A4 t) as H. unfold passed in H. rewrite Et in H. rewrite !map_app in H. simpl in H.
            unfold deliver in H. rewrite deliver_from_app in H. simpl in H.
            assert (Hl : length (map pview (rfor t (rlog s))) = length (deliver_from [] (map pev (rfor t (rlog s))))).
            { rewrite (deliver_length _ : length (deliver_from [] _) = _), !map_length. done. }
            apply app_inj_1 in H as [_ H]; [|done]. apply (f_equal (fun l => snd (List.hd (pev r, 0) l))) in H. simpl in H. rewrite H.
            rewrite <- rfor_pev. apply pos_filter. intros e' He'. apply Nat.eqb_eq. rewrite He'. exact Hrt. }
          assert (Hpass : forall t', passed s' t' = passed s t').
          { intros t'. unfold passed, s'. simpl. rewrite rfor_app. unfold rfor at 2. simpl. rewrite Hrt. unfold fset.
            rewrite (Nat.eqb_sym t). destruct (Nat.eqb_spec t' t) as [->|]; [by rewrite Et, <- app_assoc|by rewrite app_nil_r]. }
          pose proof (p_order _ A4) as Ho'. destruct A4. split; simpl; auto.
          -- rewrite Ho'. unfold cur, pend. simpl. rewrite Er, map_app, <- app_assoc. simpl. by rewrite Hrt.
          -- intros t'. rewrite Hpass. apply p_passed0.
          -- intros t'. rewrite Hpass. apply p_pos0.
          -- intros t' d Hd. rewrite Hpass. by apply p_inpos0.
          -- exists E2'. split; [unfold E in *; simpl; by rewrite HE, map_app, <- app_assoc, Hre|].
             rewrite !map_app. simpl. rewrite deliver_snoc, Hrl. do 2 f_equal. unfold pview. by rewrite Hpos.
          -- intros t' r' Hr. rewrite Hpass in Hr. by apply p_didx0.
          -- done.
    - destruct (trclosed s t); [|apply always_rmove; auto; [|done]; unfold cur; by rewrite Er].
      destruct Ha as [A1 A2 A3 A4]. split; simpl; auto; [|done].
      intros t'. rewrite List.filter_app. cbn [List.filter]. rewrite <- A3. unfold fset.
      change (rsrc (rev0 zero)) with 0.
      destruct (Nat.eqb_spec t' (wth nthr 0)) as [->|Hne].
      + rewrite Nat.eqb_refl, app_assoc. done.
      + destruct (Nat.eqb_spec (wth nthr 0) t') as [E0|]; [congruence|]. by rewrite app_nil_r.
    - done.
  Qed.

  Lemma always_tstep evs t s : always evs s -> always evs (tstep t s).
  Proof.
    intros [A1 A2 A3 A4]. unfold tstep. destruct (tq s t) as [|r q] eqn:Et; [done|].
    destruct (lookup_or_new t (verts s t) (rsrc r)) as [vs didx] eqn:El.
    destruct (lookup_or_new_spec _ _ _ _ _ El) as ((x & Evs) & Hnd & i & Hi & Hdi). simpl.
    split; simpl; auto.
    - intros t'. destruct (Nat.eq_dec t' t) as [->|]; [rewrite fset_eq; auto|by rewrite fset_ne].
    - intros t'. rewrite <- A3. unfold fset. destruct (Nat.eqb_spec t' t) as [->|]; [|done]. by rewrite Et, <- app_assoc.
    - intros Hs. specialize (A4 Hs). destruct A4. split; simpl; auto.
      intros t' r' Hr. destruct (p_didx0 t' r' Hr) as (j & Hj & Ej). exists j. split; [|done]. unfold fset.
      destruct (Nat.eqb_spec t' t) as [->|]; [|done]. rewrite Evs. by apply lookup_app_l_Some.
  Qed.
  Lemma always_run evs s sched : always evs s -> always evs (prun zero nthr s sched).
  Proof.
    revert s. induction sched as [|w sched IH]; intros s H; [done|]. simpl. apply IH. destruct w; simpl.
    - by apply always_bstep.
    - by apply always_gstep.
    - by apply always_rstep.
    - by apply always_tstep.
  Qed.
  Lemma always_init evs : always evs (pipe_init evs).
  Proof.
    split; simpl; auto; [intros; constructor|]. intros _. split; simpl; auto; try done. exists []. done.
  Qed.
End proofs.
