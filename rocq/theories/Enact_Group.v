(** Proofs about grouping a batch by source and running over the groups. *)
From Verif Require Import Base Load_Spec Enact_Spec Enact_Model Enact_Vertex.
Open Scope N_scope.

(** ** The specification *)
Lemma existsb_in s ss : existsb (N.eqb s) ss = true <-> In s ss.
Proof. rewrite existsb_exists. split; [intros (x & H & E); apply N.eqb_eq in E; by subst|]. intros H. exists s. by rewrite N.eqb_refl. Qed.
Lemma existsb_not s ss : existsb (N.eqb s) ss = false <-> ~ In s ss.
Proof. rewrite <- existsb_in. by destruct (existsb _ _). Qed.
Lemma firsts_in ss : forall seen s, In s (firsts seen ss) <-> In s ss /\ ~ In s seen.
Proof.
  induction ss as [|s' ss IH]; intros seen s; simpl; [tauto|]. destruct (existsb (N.eqb s') seen) eqn:E.
  - apply existsb_in in E. rewrite IH. split; [tauto|]. intros [[-> |H] Hn]; tauto.
  - apply existsb_not in E. simpl. rewrite IH. simpl. split; [intros [-> |H]; tauto|].
    intros [[-> |H] Hn]; [by left|]. destruct (N.eq_dec s' s) as [-> |Hne]; [by left|right]. tauto.
Qed.
Lemma firsts_nodup ss : forall seen, List.NoDup (firsts seen ss).
Proof.
  induction ss as [|s ss IH]; intros seen; simpl; [constructor|]. destruct (existsb (N.eqb s) seen); [apply IH|].
  constructor; [|apply IH]. rewrite firsts_in. simpl. tauto.
Qed.
Lemma firsts_snoc ss s : forall seen, firsts seen (ss ++ [s]) = firsts seen ss ++ (if existsb (N.eqb s) seen || existsb (N.eqb s) ss then [] else [s]).
Proof.
  induction ss as [|s' ss IH]; intros seen; simpl.
  - rewrite orb_false_r. by destruct (existsb (N.eqb s) seen).
  - rewrite IH. destruct (existsb (N.eqb s') seen) eqn:E.
    + f_equal. destruct (N.eqb_spec s s') as [-> |Hne]; simpl; [by rewrite E|done].
    + simpl. rewrite IH. simpl. f_equal. f_equal. destruct (N.eqb_spec s s') as [-> |Hne]; simpl; [by rewrite orb_true_r|done].
Qed.
Lemma firsts_len ss : (length (firsts [] ss) <= length ss)%nat.
Proof.
  enough (forall seen, (length (firsts seen ss) <= length ss)%nat) by auto.
  induction ss as [|s ss IH]; intros seen; simpl; [lia|]. destruct (existsb (N.eqb s) seen); simpl; specialize (IH seen) as H1; specialize (IH (s :: seen)) as H2; lia.
Qed.

Definition of_src {A} (s : N) (T : list (N * A)) : list A := map snd (List.filter (fun x => (fst x =? s)%N) T).
Lemma of_src_app {A} s (T1 T2 : list (N * A)) : of_src s (T1 ++ T2) = of_src s T1 ++ of_src s T2.
Proof. unfold of_src. by rewrite List.filter_app, map_app. Qed.
Lemma of_src_one {A} s s' (a : A) : of_src s [(s', a)] = if s' =? s then [a] else [].
Proof. unfold of_src. simpl. by destruct (s' =? s). Qed.
Lemma of_src_not {A} s (T : list (N * A)) : ~ In s (map fst T) -> of_src s T = [].
Proof.
  induction T as [|[s' a] T IH]; intros H; [done|]. unfold of_src. simpl in *. destruct (N.eqb_spec s' s) as [-> |Hne]; [tauto|]. apply IH. tauto.
Qed.

Definition sources {A} (T : list (N * A)) : list N := firsts [] (map fst T).
Lemma sources_snoc {A} (T : list (N * A)) s a : sources (T ++ [(s, a)]) = sources T ++ (if existsb (N.eqb s) (map fst T) then [] else [s]).
Proof. unfold sources. rewrite map_app. simpl. rewrite firsts_snoc. done. Qed.
Lemma sources_in {A} (T : list (N * A)) s : In s (sources T) <-> In s (map fst T).
Proof. unfold sources. rewrite firsts_in. simpl. tauto. Qed.

Definition tot (f : N -> nat) (S : list N) : nat := foldr (fun s n => (f s + n)%nat) 0%nat S.
(** Every event belongs to exactly one group. *)
Lemma tot_app f S1 S2 : tot f (S1 ++ S2) = (tot f S1 + tot f S2)%nat.
Proof. induction S1 as [|s S1 IH]; simpl; [done|]. rewrite IH. lia. Qed.
Lemma tot_ext f f' S : (forall s, In s S -> f s = f' s) -> tot f S = tot f' S.
Proof. induction S as [|s S IH]; intros H; simpl; [done|]. rewrite H, IH; [done| |by left]. intros; apply H. by right. Qed.
Lemma tot_parts {A} (p : A -> bool) (T : list (N * A)) : forall S, List.NoDup S -> (forall x, In x T -> In (fst x) S) ->
  tot (fun s => length (List.filter p (of_src s T))) S = length (List.filter p (map snd T)).
Proof.
  induction T as [|[s a] T IH]; intros S Hnd Hin.
  - simpl. induction S as [|s S IHS]; [done|]. simpl. inversion_clear Hnd. apply IHS; done.
  - specialize (IH S Hnd (fun x Hx => Hin x (or_intror Hx))).
    assert (Hs : In s S) by (apply (Hin (s, a)); by left). apply in_split in Hs as (S1 & S2 & ->).
    rewrite tot_app in *. simpl in *. unfold of_src at 2. simpl. rewrite N.eqb_refl. simpl.
    assert (Hn : ~ In s (S1 ++ S2)) by (by apply NoDup_remove_2). rewrite in_app_iff in Hn.
    assert (forall S', ~ In s S' -> tot (fun s0 => length (List.filter p (of_src s0 ((s, a) :: T)))) S' = tot (fun s0 => length (List.filter p (of_src s0 T))) S') as E.
    { intros S' HS'. apply tot_ext. intros s0 Hs0. unfold of_src. simpl. destruct (N.eqb_spec s s0) as [<- |_]; [tauto|done]. }
    rewrite !E by tauto. change (map snd (List.filter (fun x => fst x =? s) T)) with (of_src s T).
    destruct (p a); simpl; lia.
Qed.

Section proofs.
  Context {P : Type}.
  Notation edge := (edge P). Notation ev := (ev P). Notation gt := (gt P).

  Record grp (T : list (N * N)) (g : gt) (uc : N) : Prop := {
    grp_uc : uc = N.of_nat (length (sources T));
    grp_room : (length (sources T) <= length (pbuff g))%nat;
    grp_slot : forall j s, sources T !! j = Some s -> pbuff g !! j = Some (s :: of_src s T);
    grp_free : forall j l, sources T !! j = None -> pbuff g !! j = Some l -> l = [];
    grp_pend : forall j s, sources T !! j = Some s -> pending g s = unique g + N.of_nat j;
    grp_old : forall s, ~ In s (map fst T) -> pending g s < unique g }.

  Definition clean (g : gt) : Prop := (forall s, pending g s < unique g) /\ Forall (fun l => l = []) (pbuff g).
  Lemma clean_grp g : clean g -> grp [] g 0.
  Proof.
    intros [H1 H2]. split; simpl; try done; [lia|]. intros j l _ H. rewrite List.Forall_forall in H2. apply H2. by eapply elem_of_list_In, elem_of_list_lookup_2.
  Qed.
  Lemma insert_grp T g uc s p : grp T g uc -> unique g + N.of_nat (length T) < w64 ->
    exists g' uc', check_insert_pending g s p uc = Some (g', uc') /\ grp (T ++ [(s, p)]) g' uc' /\
      unique g' = unique g /\ tbuff g' = tbuff g /\ outs g' = outs g /\ expired g' = expired g.
  Proof.
    intros [G1 G2 G3 G4 G5 G6] Hw. unfold check_insert_pending.
    assert (Hlen : (length (sources T) <= length T)%nat) by (unfold sources; etransitivity; [apply firsts_len|by rewrite map_length]).
    destruct (existsb (N.eqb s) (map fst T)) eqn:E.
    - assert (Hin : In s (sources T)) by (by apply sources_in, existsb_in).
      apply elem_of_list_In, elem_of_list_lookup in Hin as (j & Hj).
      pose proof (G5 j s Hj) as Hp. pose proof (G3 j s Hj) as Hs.
      destruct (N.ltb_spec (pending g s) (unique g)) as [L|L]; [lia|].
      replace (pending g s - unique g) with (N.of_nat j) by lia. unfold nget, nset. rewrite Nat2N.id, Hs.
      eexists _, _. split; [reflexivity|]. split; [|done].
      assert (Hso : sources (T ++ [(s, p)]) = sources T) by (by rewrite sources_snoc, E, app_nil_r).
      split; cbn [pbuff pending unique]; rewrite ?Hso.
      + done.
      + by rewrite insert_length.
      + intros i s' Hi. rewrite of_src_app, of_src_one. destruct (Nat.eq_dec i j) as [-> |Hne].
        * rewrite Hj in Hi. injection Hi as <-. rewrite N.eqb_refl. rewrite list_lookup_insert by (by eapply lookup_lt_Some). done.
        * rewrite list_lookup_insert_ne by done. rewrite (G3 i s' Hi). destruct (N.eqb_spec s s') as [<- |_]; [|simpl; by rewrite app_nil_r].
          exfalso. apply Hne. pose proof (firsts_nodup (map fst T) []) as ND. fold (sources T) in ND. apply NoDup_ListNoDup in ND.
          eapply NoDup_lookup; [exact ND|exact Hi|exact Hj].
      + intros i l Hi. rewrite list_lookup_insert_ne by (intros ->; congruence). apply G4, Hi.
      + exact G5.
      + intros s' Hs'. apply G6. intros H. apply Hs'. rewrite map_app, in_app_iff. by left.
    - assert (Hnin : ~ In s (map fst T)) by (by apply existsb_not).
      destruct (N.ltb_spec (pending g s) (unique g)) as [L|L]; [|specialize (G6 s Hnin); lia].
      eexists _, _. split; [reflexivity|]. split; [|done].
      assert (Hso : sources (T ++ [(s, p)]) = sources T ++ [s]) by (by rewrite sources_snoc, E).
      assert (Hbuf : exists b, (if N.of_nat (length (pbuff g)) <=? uc then pbuff g ++ [[s; p]]
               else nset (pbuff g) uc (match nget (pbuff g) uc with Some l => l ++ [s; p] | None => [] end)) = b /\
               (length (sources T) < length b)%nat /\ b !! length (sources T) = Some [s; p] /\ (forall i, i <> length (sources T) -> b !! i = pbuff g !! i)).
      { eexists. split; [reflexivity|]. subst uc. destruct (N.leb_spec (N.of_nat (length (pbuff g))) (N.of_nat (length (sources T)))) as [L1|L1].
        - assert (Hl : length (sources T) = length (pbuff g)) by lia. rewrite Hl, app_length. simpl. split; [lia|]. split; [by rewrite list_lookup_middle|].
          intros i Hi. destruct (Nat.lt_ge_cases i (length (pbuff g))) as [Li|Li]; [by rewrite lookup_app_l|].
          rewrite (proj2 (lookup_ge_None (pbuff g) i)) by lia. apply lookup_ge_None. rewrite app_length. simpl. lia.
        - unfold nset, nget. rewrite Nat2N.id, insert_length. split; [lia|]. split.
          + rewrite list_lookup_insert by lia. destruct (lookup_lt_is_Some_2 (pbuff g) (length (sources T))) as [l Hl]; [lia|]. rewrite Hl.
            rewrite (G4 _ l (proj2 (lookup_ge_None (sources T) _) (le_n _)) Hl). done.
          + intros i Hi. by rewrite list_lookup_insert_ne by done. }
      destruct Hbuf as (b & -> & B1 & B2 & B3).
      assert (Hup : (uc + unique g) mod w64 = unique g + N.of_nat (length (sources T))) by (rewrite N.mod_small; lia).
      split; cbn [pbuff pending unique]; rewrite ?Hso, ?app_length; simpl.
      + lia.
      + lia.
      + intros j s' Hj. rewrite of_src_app, of_src_one. destruct (Nat.eq_dec j (length (sources T))) as [-> |Hne].
        * rewrite list_lookup_middle in Hj by done. injection Hj as <-. rewrite N.eqb_refl, B2. by rewrite of_src_not.
        * rewrite B3 by done. assert (Hj' : sources T !! j = Some s').
          { destruct (Nat.lt_ge_cases j (length (sources T))) as [L2|L2]; [by rewrite lookup_app_l in Hj|].
            apply lookup_lt_Some in Hj. rewrite app_length in Hj. simpl in Hj. lia. }
          rewrite (G3 j s' Hj'). destruct (N.eqb_spec s s') as [<- |_]; [|simpl; by rewrite app_nil_r].
          exfalso. apply Hnin, sources_in. by eapply elem_of_list_In, elem_of_list_lookup_2.
      + intros j l Hj. assert (j <> length (sources T)) by (intros ->; by rewrite list_lookup_middle in Hj). rewrite B3 by done. apply G4.
        apply lookup_ge_None in Hj. rewrite app_length in Hj. simpl in Hj. apply lookup_ge_None. lia.
      + intros j s' Hj. unfold upd. destruct (Nat.eq_dec j (length (sources T))) as [-> |Hne].
        * rewrite list_lookup_middle in Hj by done. injection Hj as <-. by rewrite N.eqb_refl.
        * assert (Hj' : sources T !! j = Some s').
          { destruct (Nat.lt_ge_cases j (length (sources T))) as [L2|L2]; [by rewrite lookup_app_l in Hj|].
            apply lookup_lt_Some in Hj. rewrite app_length in Hj. simpl in Hj. lia. }
          destruct (N.eqb_spec s' s) as [-> |_]; [|by apply G5]. exfalso. apply Hnin, sources_in. by eapply elem_of_list_In, elem_of_list_lookup_2.
      + intros s' Hs'. rewrite map_app, in_app_iff in Hs'. simpl in Hs'. unfold upd. destruct (N.eqb_spec s' s) as [-> |_]; [tauto|]. apply G6. tauto.
  Qed.

  (** The batch as (source, place) pairs. *)
  Fixpoint placed (i : N) (evs : list ev) : list (N * N) :=
    match evs with [] => [] | e :: evs => (esrc e, i mod w32) :: placed (i + 1) evs end.
  Lemma placed_length i evs : length (placed i evs) = length evs.
  Proof. revert i. induction evs as [|e evs IH]; intros i; simpl; [done|]. by rewrite IH. Qed.
  Lemma placed_fst i evs : map fst (placed i evs) = map esrc evs.
  Proof. revert i. induction evs as [|e evs IH]; intros i; simpl; [done|]. by rewrite IH. Qed.
  Definition adds_in (evs : list ev) : list (N * ev) := map (fun e => (esrc e, e)) (List.filter (fun e => etype e =? ADD) evs).
  Lemma with_expired_grp T g uc x : grp T g uc -> grp T (with_expired g x) uc.
  Proof. intros []. by split. Qed.
  Lemma gather_grp d evs : forall i T g uc, grp T g uc -> unique g + N.of_nat (length T + length evs) < w64 ->
    exists g' uc', gather d i evs g uc = Some (g', uc') /\ grp (T ++ placed i evs) g' uc' /\
      unique g' = unique g /\ tbuff g' = tbuff g /\ outs g' = outs g /\ expired g' = expired g ++ (if 0 <? d then adds_in evs else []).
  Proof.
    induction evs as [|e evs IH]; intros i T g uc HG Hw.
    - eexists _, _. split; [reflexivity|]. unfold adds_in. simpl. rewrite app_nil_r. split; [done|]. do 3 (split; [done|]). by destruct (0 <? d); rewrite app_nil_r.
    - simpl in Hw. destruct (insert_grp T g uc (esrc e) (i mod w32) HG) as (g1 & uc1 & H1 & H2 & H3 & H4 & H5 & H6); [lia|].
      simpl. rewrite H1.
      set (g2 := if (0 <? d) && (etype e =? ADD) then _ else g1).
      assert (Hg2 : grp (T ++ [(esrc e, i mod w32)]) g2 uc1 /\ unique g2 = unique g /\ tbuff g2 = tbuff g /\ outs g2 = outs g /\
        expired g2 = expired g ++ (if (0 <? d) && (etype e =? ADD) then [(esrc e, e)] else [])).
      { unfold g2. destruct ((0 <? d) && (etype e =? ADD)); simpl.
        - split; [|rewrite H3, H4, H5, H6; done]. destruct H2. by split.
        - by rewrite app_nil_r. }
      clearbody g2. destruct Hg2 as (K1 & K2 & K3 & K4 & K5).
      destruct (IH (i + 1) (T ++ [(esrc e, i mod w32)]) g2 uc1 K1) as (g3 & uc3 & I1 & I2 & I3 & I4 & I5 & I6).
      { rewrite K2, app_length. simpl. lia. }
      exists g3, uc3. rewrite <- app_assoc in I2. split; [done|]. split; [done|]. rewrite I3, I4, I5, I6, K2, K3, K4, K5. do 3 (split; [done|]).
      unfold adds_in. simpl. destruct (0 <? d); simpl; [|by rewrite !app_nil_r]. destruct (etype e =? ADD); simpl; by rewrite <- ?app_assoc, ?app_nil_r.
  Qed.

  (** ** Running over the groups *)
  Context (get_ts get_end : P -> N) (set_ts set_end : N -> P -> P).
  Lemma over_ok o other (ps : N -> list N) (cs : N -> list ev) (V : N -> option (list edge * list (call P)) -> Prop) (na nd : N -> nat) :
    forall S u g sel adds dels log,
    (forall j s, S !! j = Some s -> pbuff g !! (N.to_nat u + j)%nat = Some (s :: ps s)) -> List.NoDup S ->
    (forall s, In s S -> mapM (nget (tbuff g)) (ps s) = Some (cs s)) -> adds < w32 -> dels < w32 ->
    (forall s oth sel adds dels, In s S -> adds < w32 -> dels < w32 ->
      match rounds get_ts get_end set_ts set_end (Datatypes.S (length (cs s))) o oth (outs g s) sel (cs s) [] adds dels with
      | None => V s None
      | Some (l, _, lg, adds', dels') => V s (Some (l, lg)) /\ adds' = (adds + N.of_nat (na s)) mod w32 /\ dels' = (dels + N.of_nat (nd s)) mod w32
      end) ->
    match over_vertices get_ts get_end set_ts set_end o other (length S) u g sel adds dels log with
    | None => exists s, In s S /\ V s None
    | Some (g', _, adds', dels', log') =>
        pending g' = pending g /\ unique g' = unique g /\ tbuff g' = tbuff g /\ expired g' = expired g /\
        (forall i, pbuff g' !! i = if decide (N.to_nat u <= i < N.to_nat u + length S)%nat then Some [] else pbuff g !! i) /\
        (exists lg, log' = log ++ lg /\ forall s, (In s S -> V s (Some (outs g' s, of_src s lg))) /\ (~ In s S -> outs g' s = outs g s /\ of_src s lg = [])) /\
        adds' = (adds + N.of_nat (tot na S)) mod w32 /\ dels' = (dels + N.of_nat (tot nd S)) mod w32
    end.
  Proof.
    induction S as [|s S IH]; intros u g sel adds dels log Hslot Hnd Htb Ha Hd HV.
    - simpl. do 4 (split; [done|]). split; [|].
      { intros i. destruct (decide _) as [H|_]; [lia|done]. }
      split; [exists []; by rewrite app_nil_r|]. rewrite !N.add_0_r. split; by rewrite N.mod_small.
    - cbn [over_vertices length]. unfold nget at 1. pose proof (Hslot 0%nat s eq_refl) as H0. rewrite Nat.add_0_r in H0. rewrite H0.
      rewrite (Htb s) by (by left).
      pose proof (HV s (other u) sel adds dels (or_introl eq_refl) Ha Hd) as Hs.
      destruct (rounds _ _ _ _ _ _ _ _ _ _ _ _ _) as [[[[[l sel'] lg] adds'] dels']|]; [|exists s; split; [by left|done]].
      destruct Hs as (V1 & A1 & D1). inversion_clear Hnd as [|? ? Hnin Hnd'].
      set (g1 := Gt (pending g) (unique g) (nset (pbuff g) u []) (tbuff g) (upd (outs g) s l) (expired g)).
      specialize (IH (u + 1) g1 sel' adds' dels' (log ++ map (pair s) lg)).
      assert (Hne : forall s', In s' S -> outs g1 s' = outs g s').
      { intros s' Hs'. unfold g1, upd. cbn [outs]. destruct (N.eqb_spec s' s) as [-> |_]; done. }
      match type of IH with ?A -> _ => assert (X1 : A) end.
      { intros j s' Hj. unfold g1, nset. cbn [pbuff]. rewrite list_lookup_insert_ne by lia. replace (N.to_nat (u + 1) + j)%nat with (N.to_nat u + Datatypes.S j)%nat by lia. by apply Hslot. }
      specialize (IH X1 Hnd'). 
      match type of IH with ?A -> _ => assert (X2 : A) end.
      { intros s' Hs'. apply Htb. by right. }
      specialize (IH X2).
      match type of IH with ?A -> ?B -> ?C -> _ => assert (X3 : A) by (rewrite A1; by apply N.mod_lt); assert (X4 : B) by (rewrite D1; by apply N.mod_lt); assert (X5 : C) end.
      { intros s' oth sl a d Hs' Ha' Hd'. rewrite (Hne s' Hs'). apply HV; [by right|done|done]. }
      specialize (IH X3 X4 X5).
      assert (Hroom : (N.to_nat u < length (pbuff g))%nat) by (by eapply lookup_lt_Some).
      destruct (over_vertices _ _ _ _ _ _ _ _ _ _ _ _ _) as [[[[[g' sel2] adds2] dels2] log2]|].
      + destruct IH as (I1 & I2 & I3 & I4 & I5 & (lg2 & I6 & I7) & I8 & I9). do 4 (split; [done|]). split; [|split; [|split]].
        * intros i. rewrite I5. simpl length. destruct (decide _) as [Hi|Hi].
          -- destruct (decide _); [done|lia].
          -- unfold g1, nset. cbn [pbuff]. destruct (Nat.eq_dec i (N.to_nat u)) as [-> |Hi'].
             ++ rewrite list_lookup_insert by done. destruct (decide _); [done|lia].
             ++ rewrite list_lookup_insert_ne by done. destruct (decide _); [lia|done].
        * exists (map (pair s) lg ++ lg2). rewrite app_assoc. split; [done|]. intros s'.
          assert (Hlg : of_src s' (map (pair s) lg ++ lg2) = if s =? s' then lg ++ of_src s' lg2 else of_src s' lg2).
          { rewrite of_src_app. clear. unfold of_src. induction lg as [|c lg IH]; simpl; [by destruct (s =? s')|]. destruct (s =? s'); simpl; [by rewrite IH|done]. }
          rewrite Hlg. clear Hlg. destruct (I7 s') as [J1 J2]. split.
          -- intros [<- |Hs'].
             ++ destruct (J2 Hnin) as [J3 J4]. rewrite N.eqb_refl, J3, J4, app_nil_r. unfold g1, upd. cbn [outs]. by rewrite N.eqb_refl.
             ++ destruct (N.eqb_spec s s') as [<- |_]; [done|]. by apply J1.
          -- intros Hs'. simpl in Hs'. destruct J2 as [J3 J4]; [tauto|]. destruct (N.eqb_spec s s') as [<- |Hn]; [tauto|]. split; [|done].
             rewrite J3. unfold g1, upd. cbn [outs]. destruct (N.eqb_spec s' s) as [-> |_]; [done|done].
        * rewrite I8, A1. simpl tot. apply mod_add_l.
        * rewrite I9, D1. simpl tot. apply mod_add_l.
      + destruct IH as (s' & Hs' & HV'). exists s'. split; [by right|done].
  Qed.

End proofs.
