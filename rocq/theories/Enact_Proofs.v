(** Proofs about whole batches and histories. *)
From Verif Require Import Base Load_Spec Enact_Spec Enact_Model Enact_Vertex Enact_Group.
Open Scope N_scope.

(** ** The condition of the specification *)
Section orderly.
  Context {A : Type} (to : A -> N).
  (** The condition depends on the current list only through the run so far. *)
  Fixpoint dels (cs : list (change A)) : list N :=
    match cs with Remove d :: cs => d :: dels cs | _ => [] end.
  Lemma rem_same l d r : remove_first to d l = Some r -> exists l1 e l2, l = l1 ++ e :: l2 /\ r = l1 ++ l2 /\ to e = d /\ count_to to d l1 = 0%nat.
  Proof.
    revert r. induction l as [|a l IH]; intros r H; simpl in *; [done|]. destruct (N.eqb_spec (to a) d) as [E|E].
    - injection H as ->. exists [], a, r. done.
    - destruct (remove_first to d l) as [r'|]; [|done]. injection H as <-. destruct (IH r' eq_refl) as (l1 & e & l2 & -> & -> & H1 & H2).
      exists (a :: l1), e, l2. split_and!; try done. rewrite count_cons, H2. destruct (N.eqb_spec (to a) d); done.
  Qed.
  (** No two deletions in a row. *)
  Fixpoint spaced (cs : list (change A)) : Prop :=
    match cs with
    | Remove _ :: cs' => match cs' with Remove _ :: _ => False | _ => spaced cs' end
    | Append _ :: cs => spaced cs
    | [] => True
    end.
  Lemma spaced_orderly cs : forall l, spaced cs -> orderly to l cs.
  Proof.
    unfold orderly. induction cs as [|c cs IH]; intros l H; [done|]. destruct c as [a|d].
    - apply (IH (l ++ [a])). exact H.
    - split; [intros e _ _; simpl; done|]. destruct (remove_first to d l) as [r|]; [|done].
      destruct cs as [|[a|d'] cs]; [done| |done]. simpl in *. specialize (IH r). simpl in IH. by apply IH.
  Qed.
  (** Deletions always name the destination of the oldest edge. *)
  Fixpoint oldest_first (l : list A) (cs : list (change A)) : Prop :=
    match cs with
    | [] => True
    | Append a :: cs => oldest_first (l ++ [a]) cs
    | Remove d :: cs => match l with e :: l => to e = d /\ oldest_first l cs | [] => False end
    end.
  Lemma oldest_from cs : forall base k l, drop k base = l -> (k <= length base)%nat -> oldest_first l cs -> orderly_from to base (map to (take k base)) l cs /\ exists r, fifo to l cs = Some r.
  Proof.
    induction cs as [|c cs IH]; intros base k l Hd Hk H; [by eauto|]. destruct c as [a|d]; simpl in *.
    - apply (IH (l ++ [a]) 0%nat); [done|lia|done].
    - destruct l as [|e l]; [done|]. destruct H as [He H]. simpl. rewrite He, N.eqb_refl.
      assert (Hbk : base !! k = Some e).
      { rewrite <- (take_drop k base), Hd. rewrite lookup_app_r by (rewrite take_length; lia). rewrite take_length. by replace (k - k `min` length base)%nat with 0%nat by lia. }
      destruct (IH base (S k) l) as [I1 I2].
      + apply (drop_S base e k) in Hbk. rewrite Hd in Hbk. by injection Hbk.
      + apply lookup_lt_Some in Hbk. lia.
      + done.
      + split; [|done]. split.
        * intros e' _ _. rewrite map_length, take_length. replace (k `min` length base)%nat with k by lia.
          change (firstn k base) with (take k base). unfold count_to. generalize (take k base). clear.
          induction l as [|a l IH]; [done|]. simpl. destruct (N.eqb_spec (to a) d) as [E|E]; destruct (N.eq_dec (to a) d); simpl; try done; lia.
        * rewrite (take_S_r base k e Hbk), map_app in I1. simpl in I1. by rewrite He in I1.
  Qed.
  (** No two edges to the same destination at any time. *)
  Definition no_parallel (l : list A) (cs : list (change A)) : Prop :=
    forall cs1 cs2 r, cs = cs1 ++ cs2 -> fifo to l cs1 = Some r -> List.NoDup (map to r).
  Lemma count_nodup d (l : list A) : List.NoDup (map to l) -> (count_to to d l <= 1)%nat.
  Proof.
    induction l as [|a l IH]; intros H; [unfold count_to; simpl; lia|]. simpl in H. inversion_clear H as [|? ? H1 H2]. specialize (IH H2). rewrite count_cons.
    destruct (N.eqb_spec (to a) d) as [E|E]; [|lia].
    assert (count_to to d l = 0)%nat; [|lia]. unfold count_to. destruct (List.filter _ l) as [|x f] eqn:Ef; [done|].
    assert (In x (List.filter (fun a => (to a =? d)%N) l)) as Hx by (rewrite Ef; by left). apply filter_In in Hx as [Hx1 Hx2]. apply N.eqb_eq in Hx2.
    exfalso. apply H1. rewrite E, <- Hx2. by apply in_map.
  Qed.
  Lemma no_parallel_from cs : forall base asked l, fifo to base (map (@Remove _) asked) = Some l -> List.NoDup (map to base) -> no_parallel l cs -> orderly_from to base asked l cs.
  Proof.
    induction cs as [|c cs IH]; intros base asked l Hf Hb H; [done|]. destruct c as [a|d]; simpl.
    - assert (Hnp : no_parallel (l ++ [a]) cs).
      { intros cs1 cs2 r -> Hr. apply (H (Append a :: cs1) cs2 r); [done|]. exact Hr. }
      apply IH; [done| |done]. apply (H [Append a] cs (l ++ [a])); done.
    - split.
      + intros e He Hd. pose proof (count_nodup d base Hb) as Hc. rewrite nth_error_lookup in He.
        assert (count_to to d (take (length asked) base) = 0)%nat as E; [|change (firstn (length asked) base) with (take (length asked) base); lia].
        rewrite <- (take_drop_middle base (length asked) e He) in Hc. rewrite count_app, count_cons, Hd, N.eqb_refl in Hc. lia.
      + destruct (remove_first to d l) as [r|] eqn:Er; [|done]. apply IH; [|done|].
        * rewrite map_app, fifo_app, Hf. simpl. by rewrite Er.
        * intros cs1 cs2 r' -> Hr'. apply (H (Remove d :: cs1) cs2 r'); [done|]. simpl. by rewrite Er.
  Qed.
End orderly.

Lemma edges_sub w n a d : w <> 0 -> ((n + (a mod w + w - d mod w) mod w) mod w + d) mod w = (n + a) mod w.
Proof.
  intros Hw. rewrite <- (N.add_mod_idemp_l _ d), (N.mod_mod (n + _)) by done. rewrite (N.add_mod_idemp_r n) by done. rewrite N.add_mod_idemp_l by done.
  pose proof (N.mod_lt d w Hw). pose proof (N.div_mod d w Hw) as Hd.
  replace (n + (a mod w + w - d mod w)) with (n + a mod w + (w - d mod w)) by lia.
  rewrite <- (N.add_mod_idemp_r _ d) by done.
  replace (n + a mod w + (w - d mod w) + d mod w) with (n + a mod w + 1 * w) by lia.
  rewrite N.mod_add by done. by rewrite N.add_mod_idemp_r.
Qed.
Lemma edges_mod n a d a1 d1 a2 d2 n' : a1 = a mod w32 -> d1 = d mod w32 ->
  (n' + d2) mod w32 = ((n + (a1 + w32 - d1) mod w32) mod w32 + a2) mod w32 ->
  (n' + (d + d2)) mod w32 = (n + (a + a2)) mod w32.
Proof.
  intros -> -> H. assert (Hw : w32 <> 0) by done. revert H Hw. generalize w32. intros w H Hw.
  replace (n' + (d + d2)) with ((n' + d2) + d) by lia. rewrite <- N.add_mod_idemp_l, H, N.add_mod_idemp_l by done.
  replace ((n + (a mod w + w - d mod w) mod w) mod w + a2 + d) with ((n + (a mod w + w - d mod w) mod w) mod w + d + a2) by lia.
  rewrite <- N.add_mod_idemp_l, edges_sub, N.add_mod_idemp_l by done. f_equal. lia.
Qed.

Section proofs.
  Context {P : Type}.
  Notation edge := (edge P). Notation ev := (ev P). Notation gt := (gt P).
  Definition events_of (s : N) (evs : list ev) : list ev := List.filter (fun e => esrc e =? s) evs.
  Lemma mapM_some {A B} (f : A -> option B) (l : list A) (k : list B) : Forall2 (fun a b => f a = Some b) l k -> mapM f l = Some k.
  Proof. induction 1 as [|a b l k H _ IH]; [done|]. simpl. by rewrite H, IH. Qed.
  Lemma placed_of s evs : forall i tb, (forall j e, evs !! j = Some e -> tb !! (N.to_nat i + j)%nat = Some e) -> i + N.of_nat (length evs) <= w32 ->
    Forall2 (fun p e => nget tb p = Some e) (of_src s (placed i evs)) (events_of s evs).
  Proof.
    induction evs as [|e evs IH]; intros i tb H Hw; [constructor|]. simpl in Hw. unfold of_src, events_of. simpl.
    assert (Forall2 (fun p e => nget tb p = Some e) (of_src s (placed (i + 1) evs)) (events_of s evs)) as Hr.
    { apply IH; [|lia]. intros j e' Hj. replace (N.to_nat (i + 1) + j)%nat with (N.to_nat i + S j)%nat by lia. by apply H. }
    destruct (esrc e =? s); [|exact Hr]. simpl. constructor; [|exact Hr]. unfold nget. rewrite N.mod_small by lia.
    specialize (H 0%nat e eq_refl). by rewrite Nat.add_0_r in H.
  Qed.

  Definition changes (s : N) (evs : list ev) : list (change edge) := map chg (events_of s evs).
  Definition added (s : N) (evs : list ev) : list edge := adds_of (events_of s evs).
  Definition num_add (evs : list ev) : nat := length (List.filter (fun e => etype e =? ADD) evs).
  Definition num_del (evs : list ev) : nat := length (List.filter (fun e => etype e =? DEL) evs).

  Lemma events_app s e1 e2 : events_of s (e1 ++ e2) = events_of s e1 ++ events_of s e2.
  Proof. apply List.filter_app. Qed.
  Lemma added_app s e1 e2 : added s (e1 ++ e2) = added s e1 ++ added s e2.
  Proof. unfold added, adds_of. by rewrite events_app, List.filter_app, map_app. Qed.
  Lemma changes_app s e1 e2 : changes s (e1 ++ e2) = changes s e1 ++ changes s e2.
  Proof. unfold changes. by rewrite events_app, map_app. Qed.
  Lemma events_none s evs : ~ In s (map esrc evs) -> events_of s evs = [].
  Proof.
    unfold events_of. induction evs as [|e evs IH]; intros H; [done|]. simpl in *. destruct (N.eqb_spec (esrc e) s) as [<- |_]; [tauto|]. apply IH. tauto.
  Qed.
  Lemma kinds_of s evs : kinds evs -> kinds (events_of s evs).
  Proof. unfold kinds. rewrite !List.Forall_forall. intros H x Hx. apply filter_In in Hx as [Hx _]. auto. Qed.
  Lemma of_src_events s (evs : list ev) : of_src s (map (fun e => (esrc e, e)) evs) = events_of s evs.
  Proof. unfold of_src, events_of. induction evs as [|e evs IH]; [done|]. simpl. destruct (esrc e =? s); simpl; by rewrite IH. Qed.
  Lemma tot_events (p : ev -> bool) S evs : List.NoDup S -> (forall e, In e evs -> In (esrc e) S) ->
    tot (fun s => length (List.filter p (events_of s evs))) S = length (List.filter p evs).
  Proof.
    intros H1 H2. pose proof (tot_parts p (map (fun e => (esrc e, e)) evs) S H1) as H.
    rewrite map_map, map_id in H. rewrite <- H.
    - apply tot_ext. intros s _. by rewrite of_src_events.
    - intros x Hx. apply in_map_iff in Hx as (e & <- & He). by apply H2.
  Qed.
  Lemma kinds_dels evs : kinds evs -> List.filter (fun c : ev => negb (is_add c)) evs = List.filter (fun e => etype e =? DEL) evs.
  Proof.
    intros H. induction H as [|e evs He _ IH]; [done|]. simpl. unfold is_add at 1. destruct He as [-> | ->]; simpl; by rewrite IH.
  Qed.

  Context (get_ts get_end : P -> N) (set_ts set_end : N -> P -> P).
  Notation enact := (enact get_ts get_end set_ts set_end).
  Notation rounds := (rounds get_ts get_end set_ts set_end).

  (** Groups of a state in which every change can be looked up. *)
  Lemma over_groups o other T cs (V : N -> option (list edge * list (call P)) -> Prop) (na nd : N -> nat) g uc sel : grp T g uc -> unique g + N.of_nat (length T) < w64 ->
    (forall s, In s (map fst T) -> Forall2 (fun p e => nget (tbuff g) p = Some e) (of_src s T) (cs s)) ->
    (forall s oth sel adds dels, In s (map fst T) -> adds < w32 -> dels < w32 ->
      match rounds (Datatypes.S (length (cs s))) o oth (outs g s) sel (cs s) [] adds dels with
      | None => V s None
      | Some (l, _, lg, adds', dels') => V s (Some (l, lg)) /\ adds' = (adds + N.of_nat (na s)) mod w32 /\ dels' = (dels + N.of_nat (nd s)) mod w32
      end) ->
    match over_vertices get_ts get_end set_ts set_end o other (N.to_nat uc) 0 (Gt (pending g) ((unique g + uc) mod w64) (pbuff g) (tbuff g) (outs g) (expired g)) sel 0 0 [] with
    | None => exists s, In s (map fst T) /\ V s None
    | Some (g', _, adds', dels', log') =>
        clean g' /\ unique g' = unique g + N.of_nat (length (sources T)) /\ tbuff g' = tbuff g /\ expired g' = expired g /\
        (forall s, In s (map fst T) -> V s (Some (outs g' s, of_src s log'))) /\ (forall s, ~ In s (map fst T) -> outs g' s = outs g s /\ of_src s log' = []) /\
        adds' = N.of_nat (tot na (sources T)) mod w32 /\ dels' = N.of_nat (tot nd (sources T)) mod w32
    end.
  Proof.
    intros HG Hw Hcs HV. pose proof (firsts_len (map fst T)) as Hl. rewrite map_length in Hl. fold (sources T) in Hl.
    destruct HG as [G1 G2 G3 G4 G5 G6]. subst uc. rewrite Nat2N.id.
    set (g1 := Gt (pending g) _ (pbuff g) (tbuff g) (outs g) (expired g)).
    pose proof (over_ok get_ts get_end set_ts set_end o other (fun s => of_src s T) cs V na nd (sources T) 0 g1 sel 0 0 []) as H.
    match type of H with ?A -> _ => assert (X : A) by (intros j s Hj; by apply G3); specialize (H X); clear X end.
    specialize (H (firsts_nodup _ _)).
    match type of H with ?A -> _ => assert (X : A) by (intros s Hs; apply mapM_some, Hcs; by apply sources_in); specialize (H X); clear X end.
    specialize (H eq_refl eq_refl).
    match type of H with ?A -> _ => assert (X : A) by (intros s oth sl a d Hs; apply HV; by apply sources_in); specialize (H X); clear X end.
    destruct (over_vertices _ _ _ _ _ _ _ _ _ _ _ _ _) as [[[[[g' sel'] adds'] dels'] log']|].
    - destruct H as (I1 & I2 & I3 & I4 & I5 & (lg & -> & I7) & I8 & I9).
      assert (Hun : unique g' = unique g + N.of_nat (length (sources T))) by (rewrite I2; unfold g1; cbn [unique]; apply N.mod_small; lia).
      split; [|split; [exact Hun|]; split; [exact I3|]; split; [exact I4|]; split; [|split; [|split; [exact I8|exact I9]]]].
      + split.
        * intros s. rewrite Hun, I1. unfold g1. cbn [pending]. destruct (in_dec N.eq_dec s (map fst T)) as [Hin|Hin].
          -- apply sources_in, elem_of_list_In, elem_of_list_lookup in Hin as (j & Hj). rewrite (G5 j s Hj). apply lookup_lt_Some in Hj. lia.
          -- specialize (G6 s Hin). lia.
        * apply List.Forall_forall. intros l Hin. apply elem_of_list_In, elem_of_list_lookup in Hin as (j & Hj). rewrite I5 in Hj.
          destruct (decide _) as [|Hn]; [congruence|]. eapply G4; [|exact Hj]. apply lookup_ge_None. simpl in Hn. lia.
      + intros s Hs. apply I7. by apply sources_in.
      + intros s Hs. apply I7. by rewrite sources_in.
    - destruct H as (s & Hs & HV'). exists s. split; [by apply sources_in|done].
  Qed.

  (** ** A batch without expiry *)
  Lemma enact_ok o other evs g sel (V : N -> option (list edge * list (call P)) -> Prop) (na nd : N -> nat) :
    del_on_expire o = 0 -> clean g -> unique g + N.of_nat (length evs) < w64 -> N.of_nat (length evs) <= w32 ->
    (forall s oth sel adds dels, In s (map esrc evs) -> adds < w32 -> dels < w32 ->
      match rounds (Datatypes.S (length (events_of s evs))) o oth (outs g s) sel (events_of s evs) [] adds dels with
      | None => V s None
      | Some (l, _, lg, adds', dels') => V s (Some (l, lg)) /\ adds' = (adds + N.of_nat (na s)) mod w32 /\ dels' = (dels + N.of_nat (nd s)) mod w32
      end) ->
    match enact o other evs g sel with
    | None => exists s, In s (map esrc evs) /\ V s None
    | Some (g', _, adds', dels', log') =>
        clean g' /\ unique g' <= unique g + N.of_nat (length evs) /\ expired g' = expired g /\
        (forall s, In s (map esrc evs) -> V s (Some (outs g' s, of_src s log'))) /\ (forall s, ~ In s (map esrc evs) -> outs g' s = outs g s /\ of_src s log' = []) /\
        adds' = N.of_nat (tot na (firsts [] (map esrc evs))) mod w32 /\ dels' = N.of_nat (tot nd (firsts [] (map esrc evs))) mod w32
    end.
  Proof.
    intros Hex Hc Hw Hw2 HV. unfold enact. rewrite Hex. simpl.
    set (g1 := Gt (pending g) (unique g) (pbuff g) (put_batch evs (tbuff g)) (outs g) (expired g)).
    assert (Hc1 : clean g1) by exact Hc.
    destruct (gather_grp 0 evs 0 [] g1 0 (clean_grp _ Hc1)) as (g2 & uc & H1 & H2 & H3 & H4 & H5 & H6); [simpl; exact Hw|].
    rewrite H1. simpl in H2.
    assert (Hfst : map fst (placed 0 evs) = map esrc evs) by apply placed_fst.
    pose proof (over_groups o other (placed 0 evs) (fun s => events_of s evs) V na nd g2 uc sel H2) as H.
    rewrite placed_length, H3, H4, H5, Hfst in H. unfold sources in H. rewrite Hfst in H. specialize (H Hw).
    match type of H with ?A -> _ => assert (X : A) end.
    { intros s _. apply placed_of; [|by simpl]. intros j e Hj. unfold g1, put_batch. cbn [tbuff]. simpl. rewrite lookup_app_l; [done|]. by eapply lookup_lt_Some. }
    specialize (H X HV). rewrite H3, H4, H5.
    destruct (over_vertices _ _ _ _ _ _ _ _ _ _ _ _ _) as [[[[[g' sel'] adds'] dels'] log']|]; [|exact H].
    destruct H as (I1 & I2 & I3 & I4 & I5 & I6 & I7 & I8). split; [done|]. split.
    - rewrite I2. pose proof (firsts_len (map esrc evs)) as Hl. rewrite map_length in Hl. cbn [unique g1]. lia.
    - split; [|done]. rewrite I4, H6. simpl. by rewrite app_nil_r.
  Qed.

  (** ** One batch, edges without end times, no expiry *)
  Definition small (evs : list ev) (g : gt) : Prop := unique g + N.of_nat (length evs) < w64 /\ N.of_nat (length evs) <= w32.
  Definition vertex_after (l : list edge) (evs : list ev) (s : N) (l' : list edge) (calls : list (call P)) : Prop :=
    (exists r, fifo didx l (changes s evs) = Some r /\ same_counts didx l' r /\ (orderly didx l (changes s evs) -> l' = r)) /\
    sublist l' (l ++ added s evs) /\
    (length l' + num_del (events_of s evs) = length l + length (added s evs))%nat /\
    reported l (map told calls) l'.
  Lemma enact_plain o other evs g sel : time_range o = false -> del_on_expire o = 0 -> clean g -> small evs g -> kinds evs ->
    (forall s, wf get_ts set_ts (by_ts o) (outs g s ++ added s evs)) ->
    match enact o other evs g sel with
    | None => exists s, fifo didx (outs g s) (changes s evs) = None
    | Some (g', _, adds', dels', log') =>
        clean g' /\ unique g' <= unique g + N.of_nat (length evs) /\ expired g' = expired g /\
        (forall s, vertex_after (outs g s) evs s (outs g' s) (of_src s log')) /\
        adds' = N.of_nat (num_add evs) mod w32 /\ dels' = N.of_nat (num_del evs) mod w32
    end.
  Proof.
    intros Htr Hex Hc [Hw1 Hw2] Hk Hwf.
    pose proof (enact_ok o other evs g sel
      (fun s x => match x with None => fifo didx (outs g s) (changes s evs) = None | Some (l', lg) => vertex_after (outs g s) evs s l' lg end)
      (fun s => length (added s evs)) (fun s => length (List.filter (fun e => etype e =? DEL) (events_of s evs))) Hex Hc Hw1 Hw2) as H.
    match type of H with ?A -> _ => assert (X : A); [|specialize (H X); clear X] end.
    { intros s oth sl adds dels Hs Ha Hd.
      pose proof (rounds_ok get_ts get_end set_ts set_end o oth (S (length (events_of s evs))) Htr (events_of s evs) (outs g s) sl [] adds dels (le_n _) (kinds_of s evs Hk) (Hwf s) Ha Hd) as HR.
      destruct (rounds _ _ _ _ _ _ _ _ _) as [[[[[l' sel'] lg] adds'] dels']|]; [|exact HR].
      destruct HR as (R1 & R2 & R3 & R4 & R5 & lg' & -> & R6). unfold dels_of in R3, R5. rewrite kinds_dels in R3, R5 by (by apply kinds_of).
      split; [|split; [exact R4|exact R5]]. split; [exact R1|]. split; [exact R2|]. split; [exact R3|exact R6]. }
    destruct (enact o other evs g sel) as [[[[[g' sel'] adds'] dels'] log']|].
    - destruct H as (H1 & H2 & H3 & H4 & H5 & H6 & H7). split; [done|]. split; [done|]. split; [done|]. split; [|split].
      + intros s. destruct (in_dec N.eq_dec s (map esrc evs)) as [Hin|Hin]; [by apply H4|]. destruct (H5 s Hin) as [-> ->].
        unfold vertex_after, changes, added. rewrite (events_none s evs Hin). simpl. split; [by eexists|]. rewrite app_nil_r. done.
      + rewrite H6. f_equal. f_equal. unfold num_add, added, adds_of. rewrite <- (tot_events _ (firsts [] (map esrc evs)) evs (firsts_nodup _ _)).
        * apply tot_ext. intros s _. by rewrite map_length.
        * intros e He. apply firsts_in; split; [by apply in_map|by intros []].
      + rewrite H7. f_equal. f_equal. unfold num_del. rewrite <- (tot_events _ (firsts [] (map esrc evs)) evs (firsts_nodup _ _)); [done|].
        intros e He. apply firsts_in; split; [by apply in_map|by intros []].
    - destruct H as (s & _ & H). by exists s.
  Qed.

  (** ** Histories *)
  Notation history := (history get_ts get_end set_ts set_end).
  Definition stream (bs : list (list ev * (N -> nat -> bool))) : list ev := concat (map fst bs).
  Lemma fifo_none_app {A} (to : A -> N) l l' cs1 cs2 r : fifo to l cs1 = Some r -> same_counts to l' r -> fifo to l' cs2 = None -> fifo to l (cs1 ++ cs2) = None.
  Proof. intros H1 H2 H3. rewrite fifo_app, H1. pose proof (fifo_counts to cs2 _ _ H2) as H. rewrite H3 in H. by destruct (fifo to r cs2). Qed.
  Lemma history_plain o bs : time_range o = false -> del_on_expire o = 0 -> forall g sel c, clean g ->
    Forall (fun b => N.of_nat (length (fst b)) <= w32) bs -> unique g + N.of_nat (length (stream bs)) < w64 -> kinds (stream bs) ->
    (forall s, wf get_ts set_ts (by_ts o) (outs g s ++ added s (stream bs))) ->
    match history o bs g sel c with
    | None => exists s, fifo didx (outs g s) (changes s (stream bs)) = None
    | Some (g', _, c') =>
        clean g' /\
        (forall s, (exists r, fifo didx (outs g s) (changes s (stream bs)) = Some r /\ same_counts didx (outs g' s) r) /\
          sublist (outs g' s) (outs g s ++ added s (stream bs)) /\
          (length (outs g' s) + num_del (events_of s (stream bs)) = length (outs g s) + length (added s (stream bs)))%nat) /\
        (num_adds c < w32 -> num_adds c' = (num_adds c + N.of_nat (num_add (stream bs))) mod w32) /\
        (num_dels c < w32 -> num_dels c' = (num_dels c + N.of_nat (num_del (stream bs))) mod w32) /\
        (num_edges c < w32 -> (num_edges c' + N.of_nat (num_del (stream bs))) mod w32 = (num_edges c + N.of_nat (num_add (stream bs))) mod w32 /\ num_edges c' < w32)
    end.
  Proof.
    intros Htr Hex. induction bs as [|[evs other] bs IH]; intros g sel c Hc Hb Hu Hk Hwf.
    - unfold stream. simpl. split; [done|]. split.
      { intros s. unfold changes, added. simpl. split; [by eexists|]. rewrite app_nil_r. done. }
      rewrite !N.add_0_r. split; [intros; by rewrite N.mod_small|]. split; [intros; by rewrite N.mod_small|done].
    - apply Forall_cons_iff in Hb as [Hb1 Hb]. simpl in Hb1.
      assert (Hst : stream ((evs, other) :: bs) = evs ++ stream bs) by done. rewrite Hst in *. rewrite app_length in Hu.
      unfold kinds in Hk. apply Forall_app in Hk as [Hk1 Hk2].
      pose proof (enact_plain o other evs g sel Htr Hex Hc) as HE.
      match type of HE with ?A -> _ => assert (X : A) by (split; [lia|done]); specialize (HE X Hk1); clear X end.
      match type of HE with ?A -> _ => assert (X : A); [|specialize (HE X); clear X] end.
      { intros s. eapply wf_sublist; [|apply (Hwf s)]. rewrite added_app, app_assoc. by apply sublist_inserts_r. }
      cbn [Enact_Model.history]. destruct (enact o other evs g sel) as [[[[[g1 sel1] a1] d1] lg1]|].
      2: { destruct HE as (s & Hs). exists s. rewrite changes_app, fifo_app. by rewrite Hs. }
      destruct HE as (E1 & E2 & E3 & E4 & E5 & E6).
      specialize (IH g1 sel1 (count_batch c a1 d1) E1 Hb).
      match type of IH with ?A -> _ => assert (X : A) by lia; specialize (IH X Hk2); clear X end.
      match type of IH with ?A -> _ => assert (X : A); [|specialize (IH X); clear X] end.
      { intros s. eapply wf_sublist; [|apply (Hwf s)]. rewrite added_app, app_assoc. destruct (E4 s) as (_ & S & _). by apply sublist_app. }
      assert (Hna : num_add (evs ++ stream bs) = (num_add evs + num_add (stream bs))%nat) by (unfold num_add; by rewrite List.filter_app, app_length).
      assert (Hnd : num_del (evs ++ stream bs) = (num_del evs + num_del (stream bs))%nat) by (unfold num_del; by rewrite List.filter_app, app_length).
      rewrite Hna, Hnd.
      destruct (history o bs g1 sel1 (count_batch c a1 d1)) as [[[g' sel'] c']|].
      + destruct IH as (I1 & I2 & I3 & I4 & I5). split; [done|]. split; [|split; [|split]].
        * intros s. destruct (E4 s) as ((r1 & F1 & F2 & _) & S1 & L1 & _). destruct (I2 s) as ((r2 & G1 & G2) & S2 & L2).
          pose proof (fifo_counts didx (changes s (stream bs)) _ _ F2) as Hfc. rewrite G1 in Hfc.
          rewrite changes_app, fifo_app, F1. destruct (fifo didx r1 (changes s (stream bs))) as [r3|]; [|done].
          split; [exists r3; split; [done|]; intros d; by rewrite G2|]. split.
          -- etransitivity; [exact S2|]. rewrite added_app, app_assoc. by apply sublist_app.
          -- unfold num_del. rewrite events_app, List.filter_app, app_length, added_app, app_length. unfold num_del in L1, L2. clear - L1 L2. lia.
        * intros Hn. rewrite I3 by (by apply N.mod_lt). unfold count_batch. cbn [num_adds]. rewrite E5.
          rewrite N.add_mod_idemp_r, N.add_mod_idemp_l by done. f_equal. lia.
        * intros Hn. rewrite I4 by (by apply N.mod_lt). unfold count_batch. cbn [num_dels]. rewrite E6.
          rewrite N.add_mod_idemp_r, N.add_mod_idemp_l by done. f_equal. lia.
        * intros Hn. destruct I5 as [I5 I6]; [by apply N.mod_lt|]. split; [|done].
          unfold count_batch in I5. cbn [num_edges] in I5. rewrite !Nat2N.inj_add. eapply edges_mod; [exact E5|exact E6|exact I5].
      + destruct IH as (s & Hs). exists s. destruct (E4 s) as ((r1 & F1 & F2 & _) & _). rewrite changes_app. by eapply fifo_none_app.
  Qed.

  (** Add-only streams. *)
  Lemma adds_fifo evs s l : Forall (fun e : ev => etype e = ADD) (events_of s evs) -> fifo didx l (changes s evs) = Some (l ++ added s evs) /\ orderly didx l (changes s evs).
  Proof.
    intros H. destruct (adds_only _ H) as (A1 & _ & A3). unfold changes, added. rewrite A3, A1. split; [apply fifo_appends|].
    apply spaced_orderly. generalize (map eedge (events_of s evs)). clear. by induction l.
  Qed.
End proofs.
