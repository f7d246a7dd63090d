(** The edges that the threads receive, as lists per source vertex. *)
From Verif Require Import Base Load_Spec Remit_Spec Remit_Model Remit_Proofs.
Open Scope N_scope.

Section link.
  Context {P T : Type} (ts : P -> T).

  Definition is_add_from (u : nat) (x : sev P * N) : bool := ((kind (fst x) =? ADD) && (src (fst x) =? N.of_nat u))%bool.
  (** What is kept of an event: destination, what matters of the property (timestamp, weight), position. *)
  Definition edge_of (x : sev P * N) : nat * (T * nat) := (N.to_nat (dst (fst x)), (ts (prop (fst x)), N.to_nat (snd x))).
  (** The edges of [u] among received events, in order. *)
  Definition edges_from (l : list (sev P * N)) (u : nat) : list (nat * (T * nat)) := map edge_of (List.filter (is_add_from u) l).

  Lemma filter_lookup {A} (f : A -> bool) l a x : List.filter f l !! a = Some x ->
    exists i, l !! i = Some x /\ f x = true /\ a = length (List.filter f (take i l)).
  Proof.
    revert a. induction l as [|y l IH]; intros a H; [done|]. simpl in H. destruct (f y) eqn:Ey.
    - destruct a as [|a]; [injection H as ->; by exists O|]. destruct (IH a H) as (i & H1 & H2 & ->). exists (S i). simpl. by rewrite Ey.
    - destruct (IH a H) as (i & H1 & H2 & ->). exists (S i). simpl. by rewrite Ey.
  Qed.
  Lemma deliver_lookup (l : list (sev P)) i : deliver l !! i = (fun e => (e, pos_after (take i l) e)) <$> (l !! i).
  Proof.
    unfold deliver. assert (G : forall l b j, deliver_from b l !! j = (fun e => (e, pos_after (b ++ take j l) e)) <$> ((l : list (sev P)) !! j)).
    { clear. induction l as [|e l IH]; intros b j; [by destruct j|]. destruct j as [|j]; [simpl; by rewrite app_nil_r|].
      simpl. rewrite IH, <- app_assoc. done. }
    by rewrite G.
  Qed.
  Lemma adds_take d (l : list (sev P)) i j : (i <= j)%nat -> (adds_to d (take i l) <= adds_to d (take j l))%nat.
  Proof.
    intros H. replace (take i l) with (take i (take j l)) by (rewrite take_take; f_equal; lia).
    rewrite <- (take_drop i (take j l)) at 2. rewrite adds_app. lia.
  Qed.
  Lemma adds_here (l : list (sev P)) i e : l !! i = Some e -> kind e = ADD -> adds_to (dst e) (take (S i) l) = S (adds_to (dst e) (take i l)).
  Proof.
    intros H K. rewrite (take_S_r l i e H), adds_app. unfold adds_to at 2. cbn [List.filter]. rewrite K, !N.eqb_refl. simpl. lia.
  Qed.
  Lemma adds_le d (l : list (sev P)) i : (adds_to d (take i l) <= adds_to d l)%nat.
  Proof. rewrite <- (take_drop i l) at 2. rewrite adds_app. lia. Qed.

  Definition few (l : list (sev P)) : Prop := forall d, N.of_nat (adds_to d l) <= 2 ^ 32.
  Lemma edges_lookup l u i d a p : few l -> edges_from (deliver l) u !! i = Some (d, (a, p)) ->
    exists j e, l !! j = Some e /\ kind e = ADD /\ src e = N.of_nat u /\ dst e = N.of_nat d /\ ts (prop e) = a /\
      p = adds_to (dst e) (take j l) /\ (p < adds_to (dst e) l)%nat /\ i = length (List.filter (is_add_from u) (take j (deliver l))).
  Proof.
    intros HF H. unfold edges_from in H. rewrite list_lookup_fmap in H. destruct (List.filter _ _ !! i) as [x|] eqn:E; [|done].
    apply filter_lookup in E as (j & E1 & E2 & E3). rewrite deliver_lookup in E1. destruct (l !! j) as [e|] eqn:El; [|done].
    cbn in E1. injection E1 as <-. unfold is_add_from in E2. cbn [fst] in E2. apply andb_prop in E2 as [K Hu]. apply N.eqb_eq in K, Hu.
    cbn in H. injection H as H1 H2 H3. exists j, e.
    assert (Hlt : (adds_to (dst e) (take j l) < adds_to (dst e) l)%nat).
    { pose proof (adds_here l j e El K). pose proof (adds_le (dst e) l (S j)). lia. }
    pose proof (HF (dst e)). unfold pos_after in H3. rewrite K in H3. cbn in H3. rewrite N.mod_small in H3 by lia. rewrite Nat2N.id in H3.
    split_and!; try done; try lia.
  Qed.

  Lemma slot_index (l : list (sev P)) j1 j2 e1 e2 : l !! j1 = Some e1 -> l !! j2 = Some e2 -> kind e1 = ADD -> kind e2 = ADD -> dst e1 = dst e2 ->
    (j1 < j2)%nat -> (adds_to (dst e1) (take j1 l) < adds_to (dst e2) (take j2 l))%nat.
  Proof.
    intros H1 H2 K1 K2 D Hlt. pose proof (adds_here l j1 e1 H1 K1). pose proof (adds_take (dst e1) l (S j1) j2 ltac:(lia)). rewrite <- D. lia.
  Qed.
End link.
