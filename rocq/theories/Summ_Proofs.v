From Verif Require Import Base Summ_Spec Summ_Model.
Open Scope nat_scope.

Section sort.
Context {T : Type} (lt : T -> T -> bool) (key : nat -> T).
Lemma sink_perm x rp : Permutation (sink lt key x rp) (x :: rp).
Proof. induction rp as [|y r IH]; cbn; [done|]. destruct (lt _ _); [|done]. rewrite IH. apply perm_swap. Qed.
Lemma sinks_perm l rp : Permutation (fold_left (fun rp x => sink lt key x rp) l rp) (rev l ++ rp).
Proof.
  revert rp. induction l as [|x l IH]; intros rp; cbn [fold_left rev]; [done|]. rewrite IH, sink_perm, <- app_assoc. done.
Qed.
Definition after i j := before lt key j i.
Lemma before_trans : weak lt -> forall i j k, before lt key i j -> before lt key j k -> before lt key i k.
Proof.
  intros [W1 W2 W3] i j k [A|[A A']] [B|[B B']].
  - left; eauto.
  - left. destruct (lt (key i) (key k)) eqn:E; [done|]. exfalso. pose proof (W3 _ _ _ E B). congruence.
  - left. destruct (lt (key i) (key k)) eqn:E; [done|]. exfalso. pose proof (W3 _ _ _ A E). congruence.
  - right. split; [eauto|lia].
Qed.
Lemma sink_sorted x rp : weak lt -> (forall y, In y rp -> y < x) -> StronglySorted after rp -> StronglySorted after (sink lt key x rp).
Proof.
  intros W Hx Hs. induction Hs as [|y r Hs IH Hy]; cbn [sink]. { repeat constructor. }
  destruct (lt (key x) (key y)) eqn:E.
  - constructor. { apply IH. intros z Hz. apply Hx. by right. }
    apply list.Forall_forall. intros z Hz. apply elem_of_list_In in Hz. eapply Permutation_in in Hz; [|apply sink_perm]. destruct Hz as [<-|Hz]; [by left|].
    eapply list.Forall_forall in Hy; [exact Hy|by apply elem_of_list_In].
  - constructor. { by constructor. } assert (Hyx : after x y). { right. split; [done|]. apply Hx. by left. }
    constructor; [done|]. eapply list.Forall_impl; [exact Hy|]. intros z Hz. eapply before_trans; eauto.
Qed.
Lemma sinks_sorted n m rp : weak lt -> (forall y, In y rp -> y < m) -> StronglySorted after rp -> StronglySorted after (fold_left (fun rp x => sink lt key x rp) (seq m n) rp).
Proof.
  intros W. revert m rp. induction n as [|n IH]; intros m rp Hm Hs; cbn [seq fold_left]; [done|].
  apply IH; [|by apply sink_sorted]. intros y Hy. eapply Permutation_in in Hy; [|apply sink_perm]. destruct Hy as [<-|Hy]; [lia|]. apply Hm in Hy. lia.
Qed.
Lemma sorted_snoc {A} (R : A -> A -> Prop) l x : StronglySorted R l -> (forall y, In y l -> R y x) -> StronglySorted R (l ++ [x]).
Proof.
  intros Hs. induction Hs as [|y r Hs IH Hy]; intros H; cbn. { repeat constructor. }
  constructor. { apply IH. intros z Hz. apply H. by right. } apply Forall_app. split; [done|]. constructor; [|done]. apply H. by left.
Qed.
Lemma sorted_rev l : StronglySorted after l -> StronglySorted (before lt key) (rev l).
Proof.
  intros Hs. induction Hs as [|y r Hs IH Hy]; cbn; [constructor|]. apply sorted_snoc; [done|]. intros z Hz. apply in_rev in Hz.
  eapply list.Forall_forall in Hy; [exact Hy|by apply elem_of_list_In].
Qed.
Lemma give_ordered n : weak lt -> ordered lt key n (give_indexes lt key n).
Proof.
  intros W. unfold give_indexes. split.
  - rewrite <- Permutation_rev, sinks_perm, app_nil_r, <- Permutation_rev. done.
  - apply sorted_rev, sinks_sorted; [done|by intros y []|constructor].
Qed.
Lemma before_asym : weak lt -> forall i j, before lt key i j -> before lt key j i -> False.
Proof.
  intros W i j H1 H2. pose proof (before_trans W _ _ _ H1 H2) as [H|[_ H]]; [|lia]. rewrite (wk_irrefl _ W) in H. done.
Qed.
Lemma ordered_unique l : weak lt -> forall l', Permutation l l' -> StronglySorted (before lt key) l -> StronglySorted (before lt key) l' -> l = l'.
Proof.
  intros W. induction l as [|x l IH]; intros l' Hp H1 H2. { by apply Permutation_nil in Hp. }
  destruct l' as [|x' l']. { symmetry in Hp. by apply Permutation_nil in Hp. }
  inversion H1 as [|? ? S1 F1]; inversion H2 as [|? ? S2 F2]; subst.
  assert (x = x') as <-.
  { destruct (Nat.eq_dec x x') as [|Hn]; [done|exfalso].
    assert (I1 : In x (x' :: l')) by (eapply Permutation_in; [exact Hp|by left]). assert (I2 : In x' (x :: l)) by (eapply Permutation_in; [symmetry; exact Hp|by left]).
    destruct I1 as [|I1]; [congruence|]. destruct I2 as [|I2]; [congruence|].
    eapply list.Forall_forall in F1; [|by apply elem_of_list_In]. eapply list.Forall_forall in F2; [|by apply elem_of_list_In]. by eapply before_asym. }
  f_equal. apply IH; [by eapply Permutation_cons_inv|done|done].
Qed.
End sort.

Lemma weak_gt : weak (fun x y => y <? x).
Proof. split; intros *; rewrite ?Nat.ltb_irrefl, ?Nat.ltb_lt, ?Nat.ltb_ge; lia. Qed.
Lemma weak_lt : weak (fun x y => x <? y).
Proof. split; intros *; rewrite ?Nat.ltb_irrefl, ?Nat.ltb_lt, ?Nat.ltb_ge; lia. Qed.

Lemma bump_some a i : i < length a -> exists b, bump a i = Some b /\ length b = length a /\ (forall j, nth j b 0 = nth j a 0 + (if j =? i then 1 else 0)).
Proof.
  revert i. induction a as [|c a IH]; intros i Hi; cbn in Hi; [lia|]. destruct i as [|i]; cbn [bump].
  - eexists. split; [done|]. split; [done|]. intros [|j]; cbn; lia.
  - destruct (IH i) as (b & -> & Hl & Hn); [lia|]. eexists. split; [done|]. split; [cbn; lia|]. intros [|j]; cbn; [lia|]. apply Hn.
Qed.
Lemma bump_none a i : length a <= i -> bump a i = None.
Proof. revert i. induction a as [|c a IH]; intros [|i] Hi; cbn in *; try done; try lia. by rewrite IH by lia. Qed.
Lemma occurs_cons x y l : occurs x (y :: l) = (if x =? y then 1 else 0) + occurs x l.
Proof. unfold occurs. cbn. by destruct (x =? y). Qed.
Lemma bump_all_none l : fold_left (fun o x => match o with Some a => bump a x | None => None end) l (@None (list nat)) = None.
Proof. by induction l. Qed.
Lemma bump_all_some a l : (forall x, In x l -> x < length a) -> exists b, bump_all a l = Some b /\ length b = length a /\ (forall j, nth j b 0 = nth j a 0 + occurs j l).
Proof.
  unfold bump_all. revert a. induction l as [|x l IH]; intros a H; cbn [fold_left]. { exists a. split_and!; [done|done|]. intros j. unfold occurs. cbn. lia. }
  destruct (bump_some a x) as (b & -> & Hl & Hn); [apply H; by left|]. destruct (IH b) as (b' & -> & Hl' & Hn'). { intros y Hy. rewrite Hl. apply H. by right. }
  exists b'. split_and!; [done|lia|]. intros j. rewrite Hn', Hn, occurs_cons. lia.
Qed.
Lemma bump_all_out a l x : In x l -> length a <= x -> bump_all a l = None.
Proof.
  unfold bump_all. revert a. induction l as [|y l IH]; intros a Hi Hx; [done|]. destruct Hi as [->|H]; cbn [fold_left].
  - rewrite bump_none by done. apply bump_all_none.
  - destruct (Nat.lt_ge_cases y (length a)) as [Hy|Hy].
    + destruct (bump_some a y Hy) as (b & -> & Hl & _). apply IH; [done|lia].
    + rewrite bump_none by done. apply bump_all_none.
Qed.

Lemma occurs_zero x l : occurs x l = 0 <-> ~ In x l.
Proof.
  induction l as [|y l IH]. { cbn. unfold occurs. cbn. tauto. } rewrite occurs_cons. destruct (Nat.eqb_spec x y); cbn; split; intros; try lia; try tauto.
  - intros [|]; [congruence|]. tauto.
Qed.

Lemma sum_occurs l n : (forall x, In x l -> x < n) -> list_sum (map (fun i => occurs i l) (seq 0 n)) = length l.
Proof.
  induction l as [|y l IH]; intros H.
  - clear H. assert (G : forall m, list_sum (map (fun i => occurs i []) (seq m n)) = 0); [|apply G]. induction n as [|n IHn]; intros m; cbn; [done|]. apply IHn.
  - cbn [length]. rewrite <- IH by (intros x Hx; apply H; by right). assert (Hy : y < n) by (apply H; by left). clear H IH.
    assert (G : forall m k, list_sum (map (fun i => occurs i (y :: l)) (seq m k)) = (if (m <=? y) && (y <? m + k) then 1 else 0)%bool + list_sum (map (fun i => occurs i l) (seq m k))).
    { intros m k. revert m. induction k as [|k IHk]; intros m; cbn [seq map list_sum fold_right].
      - destruct (Nat.leb_spec m y), (Nat.ltb_spec y (m + 0)); cbn; lia.
      - unfold list_sum in *. cbn [fold_right]. rewrite IHk, occurs_cons. destruct (Nat.eqb_spec m y), (Nat.leb_spec m y), (Nat.leb_spec (S m) y), (Nat.ltb_spec y (m + S k)), (Nat.ltb_spec y (S m + k)); cbn; lia. }
    rewrite G. destruct (Nat.leb_spec 0 y), (Nat.ltb_spec y (0 + n)); cbn; lia.
Qed.

Definition cinv (l : list nat) (r : list nat * nat) : Prop :=
  length (fst r) = snd r + 1 /\ (forall x, In x l -> x <= snd r) /\ (snd r = 0 \/ In (snd r) l) /\ (forall j, nth j (fst r) 0 = occurs j l).
Lemma colour_ok l : exists r, colour_stat l = Some r /\ cinv l r.
Proof.
  unfold colour_stat. induction l as [|c l IH] using rev_ind.
  { eexists. split; [reflexivity|]. split_and!; cbn; try done; try tauto. intros [|[|j]]; done. }
  rewrite fold_left_app. cbn [fold_left]. destruct IH as ([all mx] & -> & H1 & H2 & H3 & H4). cbn [fst snd colour_one] in *.
  set (all' := if length all <=? c then _ else _).
  assert (Hl : length all' = Nat.max (length all) (c + 1)). { unfold all'. destruct (Nat.leb_spec (length all) c); [rewrite app_length, repeat_length|]; lia. }
  assert (Hn : forall j, nth j all' 0 = nth j all 0).
  { intros j. unfold all'. destruct (Nat.leb_spec (length all) c) as [Hc|]; [|done]. destruct (Nat.lt_ge_cases j (length all)); [by rewrite app_nth1|].
    rewrite app_nth2, (nth_overflow all) by done. apply nth_repeat. }
  clearbody all'. destruct (bump_some all' c) as (b & -> & Hb & Hbn); [lia|]. eexists. split; [reflexivity|]. unfold cinv. cbn [fst snd].
  assert (Ho : forall j, occurs j (l ++ [c]) = occurs j l + if j =? c then 1 else 0).
  { intros j. unfold occurs. rewrite List.filter_app, app_length. cbn. by destruct (j =? c). }
  destruct (Nat.ltb_spec mx c).
  - split_and!; [lia| | |].
    + intros x Hx. apply in_app_iff in Hx as [Hx|[<-|[]]]; [apply H2 in Hx|]; lia.
    + right. apply in_app_iff. right. by left.
    + intros j. rewrite Hbn, Hn, H4, Ho. done.
  - split_and!; [lia| | |].
    + intros x Hx. apply in_app_iff in Hx as [Hx|[<-|[]]]; [apply H2 in Hx|]; lia.
    + destruct H3 as [|H3]; [by left|]. right. apply in_app_iff. by left.
    + intros j. rewrite Hbn, Hn, H4, Ho. done.
Qed.
