(** Proofs about TimeRange edges. *)
From Verif Require Import Base Load_Spec Enact_Spec Enact_Model Enact_Vertex Enact_Group Enact_Proofs.
Open Scope N_scope.

(** ** The specification *)
  Lemma find_at {A} (p : A -> bool) l i a : l !! i = Some a -> p a = true -> (forall j b, (j < i)%nat -> l !! j = Some b -> p b = false) -> find p l = Some a.
  Proof.
    revert i. induction l as [|b l IH]; intros [|i] Hi Hp Hf; try done; simpl in *.
    - injection Hi as ->. by rewrite Hp.
    - rewrite (Hf 0%nat b); [|lia|done]. apply (IH i); [done|done|]. intros j c Hj Hc. apply (Hf (S j)); [lia|done].
  Qed.
  Lemma find_none_iff {A} (p : A -> bool) l : find p l = None <-> forall a, In a l -> p a = false.
  Proof. split; [intros H a Ha; by eapply find_none|]. intros H. destruct (find p l) as [a|] eqn:E; [|done]. apply find_some in E as [E1 E2]. rewrite H in E2; done. Qed.
Section finding.
  Context {A : Type} (finish : N -> A -> A).
  Lemma end_first_spec p t l l' : end_first finish p t l = Some l' ->
    exists i a, l !! i = Some a /\ p a = true /\ (forall j b, (j < i)%nat -> l !! j = Some b -> p b = false) /\ l' = <[i := finish t a]> l.
  Proof.
    revert l'. induction l as [|a l IH]; intros l' H; [done|]. simpl in H. destruct (p a) eqn:E.
    - injection H as <-. exists 0%nat, a. split; [done|]. split; [done|]. split; [lia|done].
    - destruct (end_first finish p t l) as [r|] eqn:Er; [|done]. simpl in H. injection H as <-. destruct (IH r eq_refl) as (i & b & H1 & H2 & H3 & ->).
      exists (S i), b. split; [done|]. split; [done|]. split; [|done]. intros [|j] c Hj Hc; [simpl in Hc; congruence|]. apply (H3 j); [lia|done].
  Qed.
  Lemma end_first_none p t l : end_first finish p t l = None <-> forall a, In a l -> p a = false.
  Proof.
    induction l as [|a l IH]; simpl; [done|]. destruct (p a) eqn:E.
    - split; [done|]. intros H. specialize (H a). rewrite E in H. by discriminate H; left.
    - destruct (end_first finish p t l) as [r|]; simpl.
      + split; [done|]. intros H. exfalso. assert (Some r = None); [|done]. apply IH. auto.
      + split; [|done]. intros _ b [<- |Hb]; [done|]. by apply IH.
  Qed.
  Lemma end_first_at p t l i a : l !! i = Some a -> p a = true -> (forall j b, (j < i)%nat -> l !! j = Some b -> p b = false) -> end_first finish p t l = Some (<[i := finish t a]> l).
  Proof.
    revert i. induction l as [|b l IH]; intros [|i] Hi Hp Hf; try done; simpl in *.
    - injection Hi as ->. by rewrite Hp.
    - rewrite (Hf 0%nat b); [|lia|done]. rewrite (IH i); [done|done|done|]. intros j c Hj Hc. apply (Hf (S j)); [lia|done].
  Qed.
End finding.
Section spec.
  Context {A : Type} (to start : A -> N) (ended : A -> bool) (finish : N -> A -> A).
  Lemma end_one_spec d s t l l' : end_one to start ended finish d s t l = Some l' ->
    exists i a, l !! i = Some a /\ to a = d /\ ended a = false /\ l' = <[i := finish t a]> l /\
      ((forall j b, (j < i)%nat -> l !! j = Some b -> ended b = true) \/
       (start a = s /\ forall j b, (j < i)%nat -> l !! j = Some b -> to b = d -> start b = s -> ended b = true)).
  Proof.
    unfold end_one. destruct (find _ l) as [a|] eqn:Ef; [|done]. destruct (N.eqb_spec (to a) d) as [E|E]; intros H.
    - destruct (end_first_spec _ _ _ _ _ H) as (i & b & H1 & H2 & H3 & ->). exists i, b. apply negb_true_iff in H2.
      assert (Hba : find (fun a => negb (ended a)) l = Some b) by (eapply find_at; [exact H1|by rewrite H2|exact H3]). rewrite Hba in Ef. injection Ef as ->.
      split; [done|]. split; [done|]. split; [done|]. split; [done|]. left. intros j c Hj Hc. specialize (H3 j c Hj Hc). by apply negb_false_iff in H3.
    - destruct (end_first_spec _ _ _ _ _ H) as (i & b & H1 & H2 & H3 & ->). apply andb_prop in H2 as [H2 H4]. apply andb_prop in H2 as [H2 H5].
      apply N.eqb_eq in H2, H4. apply negb_true_iff in H5. exists i, b. split; [done|]. split; [done|]. split; [done|]. split; [done|]. right. split; [done|].
      intros j c Hj Hc Hd Hs. specialize (H3 j c Hj Hc). simpl in H3. rewrite Hd, Hs, !N.eqb_refl, andb_true_r in H3. simpl in H3. by apply negb_false_iff in H3.
  Qed.
  Lemma open_insert d l i a t : (forall t a, to (finish t a) = to a) -> l !! i = Some a -> ended a = false -> ended (finish t a) = true ->
    (open_to to ended d (<[i := finish t a]> l) + (if (to a =? d)%N then 1 else 0) = open_to to ended d l)%nat.
  Proof.
    intros finish_to. unfold open_to. revert i. induction l as [|b l IH]; intros [|i] Hi Ha Hf; try done; simpl in *.
    - injection Hi as ->. rewrite finish_to, Ha, Hf, andb_false_r, andb_true_r. destruct (to a =? d); simpl; lia.
    - specialize (IH i Hi Ha Hf). destruct ((to b =? d)%N && negb (ended b)); simpl; lia.
  Qed.
  Lemma ending_app l cs1 cs2 : ending to start ended finish l (cs1 ++ cs2) = match ending to start ended finish l cs1 with Some l => ending to start ended finish l cs2 | None => None end.
  Proof. revert l. induction cs1 as [|[a|d s t] cs1 IH]; intros l; simpl; [done|apply IH|]. destruct (end_one _ _ _ _ d s t l); [apply IH|done]. Qed.
  Lemma ending_appends l a : ending to start ended finish l (map (@TAppend A) a) = Some (l ++ a).
  Proof. revert l. induction a as [|x a IH]; intros l; simpl; [by rewrite app_nil_r|]. rewrite IH. by rewrite <- app_assoc. Qed.
End spec.

Section proofs.
  Context {P : Type} (get_ts get_end : P -> N) (set_ts set_end : N -> P -> P).
  Notation edge := (edge P). Notation ev := (ev P). Notation gt := (gt P).
  Definition end_law : Prop := forall t p, get_end (set_end t p) = t.
  Hypothesis law : end_law.

  Definition ended (e : edge) : bool := negb (get_end (prop e) =? 0).
  Definition tstart (e : edge) : N := get_ts (prop e).
  Definition tchg (c : ev) : tchange edge :=
    if etype c =? ADD then TAppend (eedge c) else TEnd (didx (eedge c)) (get_ts (prop (eedge c))) (get_end (prop (eedge c))).
  Notation ending' := (ending didx tstart ended (end_edge set_end)).
  Notation end_one' := (end_one didx tstart ended (end_edge set_end)).
  Definition timed (cs : list ev) : Prop := Forall (fun c => etype c = DEL -> get_end (prop (eedge c)) <> 0) cs.

  Lemma skip_spec l : forall k, match skip_ended get_end k l with
    | None => forall e, In e l -> ended e = true
    | Some k' => exists i e, k' = (k + i)%nat /\ l !! i = Some e /\ ended e = false /\ forall j b, (j < i)%nat -> l !! j = Some b -> ended b = true
    end.
  Proof.
    unfold ended. induction l as [|e l IH]; intros k; simpl; [done|]. destruct (N.eqb_spec (get_end (prop e)) 0) as [E|E].
    - exists 0%nat, e. split; [lia|]. split; [done|]. rewrite E. split; [done|]. lia.
    - specialize (IH (S k)). apply N.eqb_neq in E. destruct (skip_ended get_end (S k) l) as [k'|].
      + destruct IH as (i & b & -> & H1 & H2 & H3). exists (S i), b. split; [lia|]. split; [done|]. split; [done|].
        intros [|j] c Hj Hc; [simpl in Hc; injection Hc as <-; by rewrite E|]. apply (H3 j); [lia|done].
      + intros b [<- |Hb]; [by rewrite E|by apply IH].
  Qed.
  Lemma find_edge_spec (f : edge -> bool) l : match find_edge f l with
    | None => forall e, In e l -> f e = false
    | Some j => exists e, l !! j = Some e /\ f e = true /\ forall i b, (i < j)%nat -> l !! i = Some b -> f b = false
    end.
  Proof.
    induction l as [|e l IH]; simpl; [done|]. destruct (f e) eqn:E; [exists e; split; [done|]; split; [done|]; lia|].
    destruct (find_edge f l) as [j|]; simpl.
    - destruct IH as (b & H1 & H2 & H3). exists b. split; [done|]. split; [done|]. intros [|i] c Hi Hc; [simpl in Hc; congruence|]. apply (H3 i); [lia|done].
    - intros b [<- |Hb]; [done|by apply IH].
  Qed.

  Lemma end_run_ok cs : forall k l sel del, kinds cs -> timed cs -> (forall j b, (j < k)%nat -> l !! j = Some b -> ended b = true) ->
    match end_run get_ts get_end set_end k l sel del cs with
    | None => ending' l (map tchg cs) = None
    | Some (l', _, del', rest) => exists ds, cs = ds ++ rest /\ Forall is_del ds /\ match rest with [] => True | c :: _ => etype c <> DEL end /\
        length del' = (length del + length ds)%nat /\ ending' l (map tchg ds) = Some l'
    end.
  Proof.
    induction cs as [|c cs IH]; intros k l sel del Hk Ht Hl.
    - simpl. exists []. split_and!; try done; simpl; lia.
    - apply Forall_cons_iff in Hk as [Hc Hk]. apply Forall_cons_iff in Ht as [Htc Ht]. cbn [end_run].
      destruct (N.eqb_spec (etype c) DEL) as [E|E].
      2: { exists []. split_and!; try done; simpl; lia. }
      specialize (Htc E). set (t := get_end (prop (eedge c))) in *. set (d := didx (eedge c)).
      assert (Htch : tchg c = TEnd d (get_ts (prop (eedge c))) t) by (unfold tchg; by rewrite E).
      assert (Hfin : forall e, ended (end_edge set_end t e) = true).
      { intros e. unfold ended, end_edge. simpl. rewrite law. by apply negb_true_iff, N.eqb_neq. }
      assert (Hsk := skip_spec (drop k l) k). destruct (skip_ended get_end k (drop k l)) as [k'|].
      2: { cbn [map]. rewrite Htch. cbn [ending]. unfold end_one. rewrite (proj2 (find_none_iff _ l)); [done|].
        intros a Ha. apply elem_of_list_In, elem_of_list_lookup in Ha as (j & Hj). apply negb_false_iff. destruct (Nat.lt_ge_cases j k) as [L|L]; [by eapply Hl|].
        apply Hsk. apply elem_of_list_In, elem_of_list_lookup. exists (j - k)%nat. rewrite lookup_drop. by replace (k + (j - k))%nat with j by lia. }
      destruct Hsk as (i & e & -> & H1 & H2 & H3). rewrite lookup_drop in H1. rewrite H1.
      assert (H4 : forall j b, (j < k + i)%nat -> l !! j = Some b -> ended b = true).
      { intros j b Hj Hb. destruct (Nat.lt_ge_cases j k) as [L|L]; [by eapply Hl|]. apply (H3 (j - k)%nat); [lia|]. rewrite lookup_drop. by replace (k + (j - k))%nat with j by lia. }
      assert (Hfind : find (fun a => negb (ended a)) l = Some e).
      { eapply find_at; [exact H1|by rewrite H2|]. intros j b Hj Hb. by rewrite (H4 j b Hj Hb). }
      fold d. destruct (didx e =? d) eqn:Ed.
      + assert (Hone : end_one' d (get_ts (prop (eedge c))) t l = Some (<[(k + i)%nat := end_edge set_end t e]> l)).
        { unfold end_one. rewrite Hfind, Ed. apply end_first_at; [done|by rewrite H2|]. intros j b Hj Hb. by rewrite (H4 j b Hj Hb). }
        specialize (IH (S (k + i)) (<[(k + i)%nat := end_edge set_end t e]> l) sel (del ++ [end_edge set_end t e]) Hk Ht).
        match type of IH with ?A -> _ => assert (X : A); [|specialize (IH X); clear X] end.
        { intros j b Hj Hb. destruct (Nat.eq_dec j (k + i)%nat) as [-> |Hne].
          - rewrite list_lookup_insert in Hb by (by eapply lookup_lt_Some). injection Hb as <-. apply Hfin.
          - rewrite list_lookup_insert_ne in Hb by done. apply (H4 j); [lia|done]. }
        destruct (end_run _ _ _ _ _ _ _ _) as [[[[l' sel'] del'] rest]|].
        * destruct IH as (ds & -> & I1 & I2 & I3 & I4). exists (c :: ds). split; [done|]. split; [by constructor|]. split; [done|].
          split; [rewrite I3, app_length; simpl; lia|]. cbn [map]. rewrite Htch. cbn [ending]. rewrite Hone. exact I4.
        * cbn [map]. rewrite Htch. cbn [ending]. by rewrite Hone.
      + pose proof (find_edge_spec (fun e => (didx e =? d) && (get_end (prop e) =? 0) && (get_ts (prop e) =? get_ts (prop (eedge c)))) l) as Hfe.
        assert (Hpe : forall a : edge, (didx a =? d) && negb (ended a) && (tstart a =? get_ts (prop (eedge c))) = (didx a =? d) && (get_end (prop a) =? 0) && (get_ts (prop a) =? get_ts (prop (eedge c)))).
        { intros a. unfold ended, tstart. by rewrite negb_involutive. }
        destruct (find_edge _ l) as [j|].
        * destruct Hfe as (e' & F1 & F2 & F3). rewrite F1.
          assert (Hone : end_one' d (get_ts (prop (eedge c))) t l = Some (<[j := end_edge set_end t e']> l)).
          { unfold end_one. rewrite Hfind, Ed. apply end_first_at; [done|by rewrite Hpe|]. intros i' b Hj Hb. rewrite Hpe. by eapply F3. }
          specialize (IH (k + i)%nat (<[j := end_edge set_end t e']> l) true (del ++ [end_edge set_end t e']) Hk Ht).
          match type of IH with ?A -> _ => assert (X : A); [|specialize (IH X); clear X] end.
          { intros j' b Hj Hb. destruct (Nat.eq_dec j' j) as [-> |Hne].
            - rewrite list_lookup_insert in Hb by (by eapply lookup_lt_Some). injection Hb as <-. apply Hfin.
            - rewrite list_lookup_insert_ne in Hb by done. by apply (H4 j'). }
          destruct (end_run _ _ _ _ _ _ _ _) as [[[[l' sel'] del'] rest]|].
          -- destruct IH as (ds & -> & I1 & I2 & I3 & I4). exists (c :: ds). split; [done|]. split; [by constructor|]. split; [done|].
             split; [rewrite I3, app_length; simpl; lia|]. cbn [map]. rewrite Htch. cbn [ending]. rewrite Hone. exact I4.
          -- cbn [map]. rewrite Htch. cbn [ending]. by rewrite Hone.
        * cbn [map]. rewrite Htch. cbn [ending]. unfold end_one. rewrite Hfind, Ed.
          rewrite (proj2 (end_first_none _ _ _ _)); [done|]. intros a Ha. rewrite Hpe. by apply Hfe.
  Qed.

  Lemma rounds_range o other fuel : time_range o = true -> forall cs l sel log adds dels,
    (length cs < fuel)%nat -> kinds cs -> timed cs -> adds < w32 -> dels < w32 ->
    match rounds get_ts get_end set_ts set_end fuel o other l sel cs log adds dels with
    | None => ending' l (map tchg cs) = None
    | Some (l', _, _, adds', dels') => ending' l (map tchg cs) = Some l' /\
        adds' = (adds + N.of_nat (length (adds_of cs))) mod w32 /\ dels' = (dels + N.of_nat (length (dels_of cs))) mod w32
    end.
  Proof.
    intros Htr. induction fuel as [|fuel IH]; intros cs l sel log adds dels Hfuel Hk Ht Ha Hd; [lia|].
    destruct cs as [|c0 cs0] eqn:Ecs.
    { simpl. split; [done|]. rewrite !N.add_0_r. split; by rewrite N.mod_small. }
    cbn [rounds]. rewrite <- Ecs in *. clear Ecs c0 cs0.
    destruct (add_run_spec cs l) as (a & rest & -> & Hadd & Hrest & ->).
    destruct (adds_only a Hadd) as (A1 & A2 & _).
    assert (A3 : map tchg a = map (@TAppend edge) (map eedge a)).
    { rewrite map_map. apply map_ext_in. intros c Hc. rewrite List.Forall_forall in Hadd. unfold tchg. by rewrite (Hadd c Hc). }
    unfold kinds in Hk. apply Forall_app in Hk as [_ Hk]. unfold timed in Ht. apply Forall_app in Ht as [_ Ht].
    assert (B1 : length (adds_of (a ++ rest)) = (length a + length (adds_of rest))%nat).
    { unfold adds_of in *. rewrite List.filter_app, map_app, app_length. rewrite A1, map_length. done. }
    assert (B2 : dels_of (a ++ rest) = dels_of rest) by (unfold dels_of; rewrite List.filter_app; fold (dels_of a) (dels_of rest); by rewrite A2).
    rewrite B1, B2, map_app, A3, ending_app, ending_appends.
    rewrite !app_length, map_length. replace (length l + length a - length l)%nat with (length a) by lia.
    set (l1 := l ++ map eedge a) in *. clearbody l1.
    set (log1 := if (length l <? length l + length a)%nat then log ++ [OnAdd (length l) l1] else log). clearbody log1.
    destruct rest as [|c1 rest1] eqn:Erest.
    { simpl. split; [done|]. unfold adds_of, dels_of. simpl. rewrite N.add_0_r, Nat.add_0_r. split; [done|by rewrite N.mod_small]. }
    assert (Hlr : rest <> []) by (by rewrite Erest). rewrite Htr. 
    assert (Hrun : exists ds rest2, c1 :: rest1 = ds ++ rest2 /\ ds <> [] /\ True) by (exists [c1], rest1; done). clear Hrun.
    pose proof (end_run_ok (c1 :: rest1) 0 l1 sel [] Hk Ht) as HE.
    match type of HE with ?A -> _ => assert (X : A) by (intros; lia); specialize (HE X); clear X end.
    destruct (end_run _ _ _ _ _ _ _ _) as [[[[l2 sel2] del2] rest2]|]; [|exact HE].
    destruct HE as (ds & Eds & Hds & Hr2 & Hlen & Hend). simpl in Hlen.
    assert (Hdne : ds <> []).
    { intros ->. simpl in Eds. subst rest2. apply Forall_cons_iff in Hk as [[?|?] _]; done. }
    rewrite Eds in *. clear Erest Hlr c1 rest1 Eds Hrest. apply Forall_app in Hk as [_ Hk]. apply Forall_app in Ht as [_ Ht].
    destruct (dels_only ds Hds) as (D1 & D2 & _).
    assert (C1 : adds_of (ds ++ rest2) = adds_of rest2) by (unfold adds_of in *; rewrite List.filter_app, map_app; by rewrite D1).
    assert (C2 : dels_of (ds ++ rest2) = ds ++ dels_of rest2) by (unfold dels_of; rewrite List.filter_app; fold (dels_of ds) (dels_of rest2); by rewrite D2).
    rewrite C1, C2, map_app, ending_app, Hend, app_length.
    set (adds1 := (adds + N.of_nat (length a)) mod w32). set (dels1 := (dels + N.of_nat (length del2)) mod w32).
    specialize (IH rest2 l2 sel2 (log1 ++ [OnDel del2 l2]) adds1 dels1).
    match type of IH with ?A -> _ => assert (X : A); [|specialize (IH X Hk Ht); clear X] end.
    { rewrite !app_length in Hfuel. destruct ds; [done|]. simpl in Hfuel. lia. }
    specialize (IH ltac:(by apply N.mod_lt) ltac:(by apply N.mod_lt)).
    destruct (rounds _ _ _ _ _ _ _ _ _ _ _ _ _) as [[[[[l' sel'] log'] adds'] dels']|]; [|exact IH].
    destruct IH as (I1 & -> & ->). split; [exact I1|]. unfold adds1, dels1. rewrite Hlen. split; apply mod_add_l.
  Qed.

  Definition tchanges (s : N) (evs : list ev) : list (tchange edge) := map tchg (events_of s evs).
  Lemma timed_of s evs : timed evs -> timed (events_of s evs).
  Proof. unfold timed. rewrite !List.Forall_forall. intros H x Hx. apply filter_In in Hx as [Hx _]. auto. Qed.
  Notation enact := (enact get_ts get_end set_ts set_end).
  Notation history := (history get_ts get_end set_ts set_end).
  Lemma enact_range o other evs g sel : time_range o = true -> del_on_expire o = 0 -> clean g -> small evs g -> kinds evs -> timed evs ->
    match enact o other evs g sel with
    | None => exists s, ending' (outs g s) (tchanges s evs) = None
    | Some (g', _, adds', dels', log') =>
        clean g' /\ unique g' <= unique g + N.of_nat (length evs) /\
        (forall s, ending' (outs g s) (tchanges s evs) = Some (outs g' s)) /\
        adds' = N.of_nat (num_add evs) mod w32 /\ dels' = N.of_nat (num_del evs) mod w32
    end.
  Proof.
    intros Htr Hex Hc [Hw1 Hw2] Hk Ht.
    pose proof (enact_ok get_ts get_end set_ts set_end o other evs g sel
      (fun s x => match x with None => ending' (outs g s) (tchanges s evs) = None | Some (l', lg) => ending' (outs g s) (tchanges s evs) = Some l' end)
      (fun s => length (added s evs)) (fun s => length (List.filter (fun e => etype e =? DEL) (events_of s evs))) Hex Hc Hw1 Hw2) as H.
    match type of H with ?A -> _ => assert (X : A); [|specialize (H X); clear X] end.
    { intros s oth sl adds dels Hs Ha Hd.
      pose proof (rounds_range o oth (S (length (events_of s evs))) Htr (events_of s evs) (outs g s) sl [] adds dels (le_n _) (kinds_of s evs Hk) (timed_of s evs Ht) Ha Hd) as HR.
      destruct (rounds _ _ _ _ _ _ _ _ _) as [[[[[l' sel'] lg] adds'] dels']|]; [|exact HR].
      destruct HR as (R1 & R4 & R5). unfold dels_of in R5. rewrite kinds_dels in R5 by (by apply kinds_of).
      split; [exact R1|]. split; [exact R4|exact R5]. }
    destruct (enact o other evs g sel) as [[[[[g' sel'] adds'] dels'] log']|].
    - destruct H as (H1 & H2 & H3 & H4 & H5 & H6 & H7). split; [done|]. split; [done|]. split; [|split].
      + intros s. destruct (in_dec N.eq_dec s (map esrc evs)) as [Hin|Hin]; [by apply H4|]. destruct (H5 s Hin) as [-> _].
        unfold tchanges. by rewrite (events_none s evs Hin).
      + rewrite H6. f_equal. f_equal. unfold num_add, added, adds_of. rewrite <- (tot_events _ (firsts [] (map esrc evs)) evs (firsts_nodup _ _)).
        * apply tot_ext. intros s _. by rewrite map_length.
        * intros e He. apply firsts_in; split; [by apply in_map|by intros []].
      + rewrite H7. f_equal. f_equal. unfold num_del. rewrite <- (tot_events _ (firsts [] (map esrc evs)) evs (firsts_nodup _ _)); [done|].
        intros e He. apply firsts_in; split; [by apply in_map|by intros []].
    - destruct H as (s & _ & H). by exists s.
  Qed.
  Lemma history_range o bs : time_range o = true -> del_on_expire o = 0 -> forall g sel c, clean g ->
    Forall (fun b => N.of_nat (length (fst b)) <= w32) bs -> unique g + N.of_nat (length (stream bs)) < w64 -> kinds (stream bs) -> timed (stream bs) ->
    match history o bs g sel c with
    | None => exists s, ending' (outs g s) (tchanges s (stream bs)) = None
    | Some (g', _, c') =>
        (forall s, ending' (outs g s) (tchanges s (stream bs)) = Some (outs g' s)) /\
        (num_edges c < w32 -> (num_edges c' + N.of_nat (num_del (stream bs))) mod w32 = (num_edges c + N.of_nat (num_add (stream bs))) mod w32 /\ num_edges c' < w32)
    end.
  Proof.
    intros Htr Hex. induction bs as [|[evs other] bs IH]; intros g sel c Hc Hb Hu Hk Ht.
    - unfold stream. simpl. split; [done|]. rewrite !N.add_0_r. done.
    - apply Forall_cons_iff in Hb as [Hb1 Hb]. simpl in Hb1.
      assert (Hst : stream ((evs, other) :: bs) = evs ++ stream bs) by done. rewrite Hst in *. rewrite app_length in Hu.
      unfold kinds in Hk. apply Forall_app in Hk as [Hk1 Hk2]. unfold timed in Ht. apply Forall_app in Ht as [Ht1 Ht2].
      pose proof (enact_range o other evs g sel Htr Hex Hc) as HE.
      match type of HE with ?A -> _ => assert (X : A) by (split; [lia|done]); specialize (HE X Hk1 Ht1); clear X end.
      assert (Htc : forall s, tchanges s (evs ++ stream bs) = tchanges s evs ++ tchanges s (stream bs)) by (intros s; unfold tchanges; by rewrite events_app, map_app).
      cbn [Enact_Model.history]. destruct (enact o other evs g sel) as [[[[[g1 sel1] a1] d1] lg1]|].
      2: { destruct HE as (s & Hs). exists s. rewrite Htc, ending_app. by rewrite Hs. }
      destruct HE as (E1 & E2 & E4 & E5 & E6).
      specialize (IH g1 sel1 (count_batch c a1 d1) E1 Hb).
      match type of IH with ?A -> _ => assert (X : A) by lia; specialize (IH X Hk2 Ht2); clear X end.
      assert (Hna : num_add (evs ++ stream bs) = (num_add evs + num_add (stream bs))%nat) by (unfold num_add; by rewrite List.filter_app, app_length).
      assert (Hnd : num_del (evs ++ stream bs) = (num_del evs + num_del (stream bs))%nat) by (unfold num_del; by rewrite List.filter_app, app_length).
      rewrite Hna, Hnd.
      destruct (history o bs g1 sel1 (count_batch c a1 d1)) as [[[g' sel'] c']|].
      + destruct IH as (I2 & I5). split.
        * intros s. rewrite Htc, ending_app, E4. apply I2.
        * intros Hn. destruct I5 as [I5 I6]; [by apply N.mod_lt|]. split; [|done].
          unfold count_batch in I5. cbn [num_edges] in I5. rewrite !Nat2N.inj_add. eapply edges_mod; [exact E5|exact E6|exact I5].
      + destruct IH as (s & Hs). exists s. rewrite Htc, ending_app, E4. exact Hs.
  Qed.

  (** What the specification of a vertex amounts to. *)
  Definition opens (d : N) (evs : list ev) : nat := open_to didx ended d (adds_of evs).
  Lemma ending_facts cs : kinds cs -> timed cs -> forall l l', ending' l (map tchg cs) = Some l' ->
    map didx l' = map didx (l ++ adds_of cs) /\
    (forall d, (open_to didx ended d l' + length (List.filter (fun c => (etype c =? DEL)%N && (didx (eedge c) =? d)%N) cs) = open_to didx ended d l + opens d cs)%nat) /\
    (forall i e, l !! i = Some e -> ended e = true -> l' !! i = Some e) /\
    (forall i e, l !! i = Some e -> exists e', l' !! i = Some e' /\ (e' = e \/ ended e = false /\ exists t, t <> 0 /\ e' = end_edge set_end t e)).
  Proof.
    intros Hk Ht. induction cs as [|c cs IH]; intros l l' H.
    - simpl in H. injection H as <-. unfold opens, adds_of. simpl. rewrite app_nil_r. split_and!; try done. intros i e He. exists e. auto.
    - apply Forall_cons_iff in Hk as [Hc Hk]. apply Forall_cons_iff in Ht as [Htc Ht]. specialize (IH Hk Ht).
      assert (Hend : forall t e, t <> 0 -> ended (end_edge set_end t e) = true).
      { intros t e Hn. unfold ended, end_edge. simpl. rewrite law. by apply negb_true_iff, N.eqb_neq. }
      destruct Hc as [Hc|Hc].
      + simpl in H. unfold tchg at 1 in H. rewrite Hc in H. simpl in H. destruct (IH _ _ H) as (I1 & I2 & I3 & I4).
        assert (Had : adds_of (c :: cs) = eedge c :: adds_of cs) by (unfold adds_of, is_add; simpl; by rewrite Hc).
        unfold opens. rewrite Had. split; [rewrite I1, <- app_assoc; done|]. split.
        * intros d. specialize (I2 d). simpl. rewrite Hc. simpl. unfold opens, open_to in *. rewrite List.filter_app, app_length in I2. simpl in I2 |- *. destruct ((didx (eedge c) =? d)%N && negb (ended (eedge c))); simpl in *; lia.
        * split; intros i e He; [intros He2; apply I3; [|done]|apply I4]; rewrite lookup_app_l; try done; by eapply lookup_lt_Some.
      + simpl in H. unfold tchg at 1 in H. rewrite Hc in H. simpl in H. specialize (Htc Hc).
        destruct (end_one' _ _ _ l) as [l1|] eqn:E1; [|done]. destruct (end_one_spec _ _ _ _ _ _ _ _ _ E1) as (i & a & A1 & A2 & A3 & -> & _).
        destruct (IH _ _ H) as (I1 & I2 & I3 & I4).
        assert (Had : adds_of (c :: cs) = adds_of cs) by (unfold adds_of, is_add; simpl; by rewrite Hc).
        unfold opens. rewrite Had. split; [|split; [|split]].
        * rewrite I1, !map_app. f_equal. rewrite list_fmap_insert. unfold end_edge. simpl. apply list_insert_id. by rewrite list_lookup_fmap, A1.
        * intros d. specialize (I2 d). simpl. rewrite Hc. simpl.
          pose proof (open_insert didx tstart ended (end_edge set_end) d l i a (get_end (prop (eedge c))) (fun _ _ => eq_refl) A1 A3 (Hend _ _ Htc)) as HO.
          rewrite A2 in HO. unfold opens in *. destruct (didx (eedge c) =? d)%N; simpl in *; lia.
        * intros j e He He2. apply I3; [|done]. destruct (Nat.eq_dec i j) as [<- |Hne]; [congruence|]. by rewrite list_lookup_insert_ne.
        * intros j e He. destruct (Nat.eq_dec i j) as [<- |Hne].
          -- rewrite A1 in He. injection He as <-. set (a' := end_edge set_end (get_end (prop (eedge c))) a) in *.
             exists a'. split.
             ++ apply I3; [|by apply Hend]. apply list_lookup_insert. by eapply lookup_lt_Some.
             ++ right. split; [done|]. by exists (get_end (prop (eedge c))).
          -- apply I4. by rewrite list_lookup_insert_ne.
  Qed.
End proofs.
