From Verif Require Import Base IO_Spec IO_Model IO_Proofs Tool_Spec Tool_Model.
From Coq Require Import Permutation Sorted.
Open Scope nat_scope.

(** ** Loading *)
Lemma upd_eq {A} (f : nat -> A) i x : upd f i x i = x.
Proof. unfold upd. by rewrite Nat.eqb_refl. Qed.
Lemma upd_ne {A} (f : nat -> A) i j x : j <> i -> upd f i x j = f j.
Proof. intros H. unfold upd. by destruct (Nat.eqb_spec j i). Qed.
Lemma all_below_iff q f : all_below q f = true <-> forall i, i < q -> f i = true.
Proof. unfold all_below. rewrite forallb_forall. split; intros H i Hi; apply H; [apply in_seq; lia|apply in_seq in Hi; lia]. Qed.
Lemma share_app q i k a b : share q i k (a ++ b) = share q i k a ++ share q i (k + length a) b.
Proof.
  revert k. induction a as [|x a IH]; intros k; cbn [app share length]; [by rewrite Nat.add_0_r|].
  rewrite IH, <- app_assoc. by rewrite Nat.add_succ_r.
Qed.
Lemma concat_app2 {A} (f g : nat -> list A) l : Permutation (concat (map (fun i => f i ++ g i) l)) (concat (map f l) ++ concat (map g l)).
Proof.
  induction l as [|x l IH]; [done|]. cbn. rewrite IH, <- !app_assoc. apply Permutation_app_head. rewrite !app_assoc.
  apply Permutation_app_tail, Permutation_app_comm.
Qed.
Lemma concat_one {A} (x : list A) m q : m < q -> concat (map (fun i => if m =? i then x else []) (seq 0 q)) = x.
Proof.
  intros H. replace q with (m + (1 + (q - m - 1))) by lia. rewrite seq_app, map_app, concat_app, seq_app, map_app, concat_app. cbn [seq map concat].
  assert (Z : forall l, (forall i, In i l -> i <> m) -> concat (map (fun i => if m =? i then x else []) l) = []).
  { induction l as [|i l IH]; intros Hl; [done|]. cbn. destruct (Nat.eqb_spec m i) as [->|]; [exfalso; by apply (Hl i); [left|]|]. apply IH. intros j Hj. apply Hl. by right. }
  cbn [plus]. rewrite Nat.eqb_refl, !Z, !app_nil_r; [done|intros i Hi; apply in_seq in Hi; lia..].
Qed.
Lemma share_perm q ls : 0 < q -> forall k, Permutation (concat (map (fun i => share q i k ls) (seq 0 q))) (kept ls).
Proof.
  intros Hq. induction ls as [|l ls IH]; intros k; cbn [share].
  - assert (forall s, concat (map (fun _ : nat => @nil (list N)) s) = []) as -> by (induction s; done). done.
  - rewrite concat_app2, IH. rewrite concat_one by (by apply Nat.mod_upper_bound; lia).
    unfold kept. cbn. by destruct (comment l).
Qed.
(** How many numbers from [k] are [i] modulo [q]. *)
Fixpoint nums (q i k m : nat) : nat := match m with O => 0 | S m => nums q i k m + (if (k + m) mod q =? i then 1 else 0) end.
Lemma nums_sum q k m : 0 < q -> list_sum (map (fun i => nums q i k m) (seq 0 q)) = m.
Proof.
  intros Hq. induction m as [|m IH]; cbn [nums].
  - clear. induction (seq 0 q) as [|x l IHl]; [done|]. exact IHl.
  - assert (H : forall l, list_sum (map (fun i => nums q i k m + (if (k + m) mod q =? i then 1 else 0)) l) =
      list_sum (map (fun i => nums q i k m) l) + length (concat (map (fun i => if (k + m) mod q =? i then [tt] else []) l))).
    { induction l as [|i l IHl]; [done|]. cbn -[list_sum]. unfold list_sum in *. cbn [foldr fold_right]. rewrite IHl, app_length. destruct ((k + m) mod q =? i); cbn; lia. }
    rewrite H, IH, concat_one by (by apply Nat.mod_upper_bound; lia). cbn. lia.
Qed.

Section load.
Context (cap q : nat) (ls : list line) (Hq : 0 < q) (Hcap : 0 < cap).
Record linv (s : lst) : Prop := Linv {
  l_pos : forall i, i < q -> epos s i <= length ls;
  l_mine : forall i, i < q -> mine s i = nums q i 1 (epos s i);
  l_got : forall i, i < q -> got s i ++ chan s i = share q i 1 (firstn (epos s i) ls);
  l_ed : forall i, i < q -> edone s i = true -> epos s i = length ls;
  l_closed : closed s <= q /\ (0 < closed s -> forall i, i < q -> edone s i = true);
  l_dd : forall i, i < q -> ddone s i = true -> i < closed s /\ chan s i = [];
  l_res : forall r, result s = Some r -> r = (concat (map (fun i => share q i 1 ls) (seq 0 q)), length ls) }.
Lemma linv_start : linv lstart.
Proof. clear Hcap Hq cap. constructor; cbn; try done; intros; lia. Qed.
Lemma linv_step s a : linv s -> linv (lstep cap q ls s a).
Proof.
  clear Hcap. intros L. destruct a as [i|i|]; cbn [lstep].
  - destruct (Nat.ltb_spec i q) as [Hi|]; [|done]. cbn [negb orb]. destruct (edone s i) eqn:Ed; [done|].
    assert (Hopen : closed s = 0). { destruct (l_closed s L) as [_ H]. destruct (closed s); [done|]. rewrite H in Ed by lia. done. }
    destruct (ls !! epos s i) as [l|] eqn:El.
    2: { apply lookup_ge_None in El. constructor; cbn; try apply L.
      - intros j Hj. destruct (decide (j = i)) as [->|Hne]; [|rewrite upd_ne by done; by apply L]. intros _. pose proof (l_pos s L i Hi). lia.
      - rewrite Hopen. split; [lia|]. intros; lia. }
    assert (Hlt : epos s i < length ls) by (by apply lookup_lt_Some in El).
    assert (Hf : firstn (S (epos s i)) ls = firstn (epos s i) ls ++ [l]) by (by apply take_S_r).
    assert (Hlen : length (firstn (epos s i) ls) = epos s i) by (rewrite firstn_length; lia).
    assert (Hn : nums q i 1 (S (epos s i)) = nums q i 1 (epos s i) + (if S (epos s i) mod q =? i then 1 else 0)) by done.
    assert (Hs : share q i 1 (firstn (S (epos s i)) ls) = share q i 1 (firstn (epos s i) ls) ++ (if S (epos s i) mod q =? i then kept [l] else [])).
    { rewrite Hf, share_app, Hlen. cbn [share plus]. by rewrite app_nil_r. }
    destruct (Nat.eqb_spec (S (epos s i) mod q) i) as [Em|Em]; cbn [negb].
    + destruct (has_hash l) eqn:Eh.
      * assert (kept [l] = []) as Ek. { unfold kept. cbn. change (comment l) with (has_hash l). by rewrite Eh. }
        rewrite Ek, app_nil_r in Hs.
        constructor; cbn; try apply L.
        -- intros j Hj. destruct (decide (j = i)) as [->|Hne]; [rewrite upd_eq; lia|rewrite upd_ne by done; by apply L].
        -- intros j Hj. destruct (decide (j = i)) as [->|Hne]; [rewrite !upd_eq, (l_mine s L i Hi); cbn [nums]; cbn [plus]; rewrite Em, Nat.eqb_refl; lia|rewrite !upd_ne by done; by apply L].
        -- intros j Hj. destruct (decide (j = i)) as [->|Hne]; [rewrite !upd_eq, Hs; by apply L|rewrite !upd_ne by done; by apply L].
        -- intros j Hj H. destruct (decide (j = i)) as [->|Hne]; [congruence|rewrite upd_ne by done; by apply L].
      * assert (kept [l] = [l]) as Ek. { unfold kept. cbn. change (comment l) with (has_hash l). by rewrite Eh. }
        rewrite Ek in Hs. rewrite Em. destruct (length (chan s i) <? cap); [|done].
        constructor; cbn; try apply L.
        -- intros j Hj. destruct (decide (j = i)) as [->|Hne]; [rewrite upd_eq; lia|rewrite upd_ne by done; by apply L].
        -- intros j Hj. destruct (decide (j = i)) as [->|Hne]; [rewrite !upd_eq, (l_mine s L i Hi); cbn [nums]; cbn [plus]; rewrite Em, Nat.eqb_refl; lia|rewrite !upd_ne by done; by apply L].
        -- intros j Hj. destruct (decide (j = i)) as [->|Hne]; [rewrite !upd_eq, Hs, app_assoc; by rewrite (l_got s L)|rewrite !upd_ne by done; by apply L].
        -- intros j Hj H. destruct (decide (j = i)) as [->|Hne]; [congruence|rewrite upd_ne by done; by apply L].
        -- intros j Hj H. exfalso. destruct (l_dd s L j Hj H). lia.
    + rewrite app_nil_r in Hs. constructor; cbn; try apply L.
      * intros j Hj. destruct (decide (j = i)) as [->|Hne]; [rewrite upd_eq; lia|rewrite upd_ne by done; by apply L].
      * intros j Hj. destruct (decide (j = i)) as [->|Hne]; [rewrite !upd_eq, (l_mine s L i Hi); cbn [nums plus]; rewrite (proj2 (Nat.eqb_neq _ _) Em); lia|rewrite !upd_ne by done; by apply L].
      * intros j Hj. destruct (decide (j = i)) as [->|Hne]; [rewrite !upd_eq, Hs; by apply L|rewrite !upd_ne by done; by apply L].
      * intros j Hj H. destruct (decide (j = i)) as [->|Hne]; [congruence|rewrite upd_ne by done; by apply L].
  - destruct (Nat.ltb_spec i q) as [Hi|]; [|done]. cbn [negb orb]. destruct (ddone s i) eqn:Ed; [done|].
    destruct (chan s i) as [|l r] eqn:Ec.
    + destruct (Nat.ltb_spec i (closed s)) as [Hc|]; [|done]. constructor; cbn; try apply L.
      intros j Hj. destruct (decide (j = i)) as [->|Hne]; [done|rewrite upd_ne by done; by apply L].
    + constructor; cbn; try apply L.
      * intros j Hj. destruct (decide (j = i)) as [->|Hne]; [|rewrite !upd_ne by done; by apply L].
        rewrite !upd_eq, <- (l_got s L i Hi), Ec, <- app_assoc. done.
      * intros j Hj. destruct (decide (j = i)) as [->|Hne]; [congruence|rewrite upd_ne by done; by apply L].
  - destruct (all_below q (edone s)) eqn:Ee; [|done]. cbn [negb]. pose proof (proj1 (all_below_iff q _) Ee) as He.
    destruct (Nat.ltb_spec (closed s) q) as [Hc|Hc].
    + constructor; cbn; try apply L; [split; [lia|done]|]. intros j Hj H. destruct (l_dd s L j Hj H). split; [lia|done].
    + destruct (all_below q (ddone s)) eqn:Edd; [|done]. cbn [negb]. pose proof (proj1 (all_below_iff q _) Edd) as Hd.
      destruct (result s) as [r0|] eqn:Er; [done|]. constructor; cbn; try apply L.
      intros r [= <-].
      assert (H1 : map (got s) (seq 0 q) = map (fun i => share q i 1 ls) (seq 0 q)).
      { apply map_ext_in. intros i Hi. apply in_seq in Hi. pose proof (l_got s L i ltac:(lia)) as H. destruct (l_dd s L i ltac:(lia) (Hd i ltac:(lia))) as [_ H'].
        rewrite H', app_nil_r, (l_ed s L i ltac:(lia) (He i ltac:(lia))) in H. by rewrite firstn_all in H. }
      assert (H2 : map (mine s) (seq 0 q) = map (fun i => nums q i 1 (length ls)) (seq 0 q)).
      { apply map_ext_in. intros i Hi. apply in_seq in Hi. rewrite (l_mine s L i) by lia. by rewrite (l_ed s L i ltac:(lia) (He i ltac:(lia))). }
      by rewrite H1, H2, nums_sum.
Qed.
Lemma linv_run sched : forall s, linv s -> linv (lrun cap q ls s sched).
Proof. induction sched as [|a sched IH]; intros s L; [done|]. cbn. apply IH. by apply linv_step. Qed.

(** It ends: every step does nothing or lowers a measure. *)
Definition mass (s : lst) : nat :=
  list_sum (map (fun i => 4 * (length ls - epos s i) + (if edone s i then 0 else 1) + 2 * length (chan s i) + (if ddone s i then 0 else 1)) (seq 0 q))
  + (q - closed s) + (match result s with Some _ => 0 | None => 1 end).
Lemma sum_lower (f g : nat -> nat) i m : i < m -> g i < f i -> (forall j, j <> i -> g j = f j) -> list_sum (map g (seq 0 m)) < list_sum (map f (seq 0 m)).
Proof.
  intros Hi H1 H2. induction m as [|m IH]; [lia|]. rewrite seq_S, !map_app, !list_sum_app. cbn. destruct (decide (i = m)) as [->|Hne].
  - rewrite (map_ext_in g f); [lia|]. intros j Hj. apply in_seq in Hj. apply H2. lia.
  - rewrite (H2 m) by lia. pose proof (IH ltac:(lia)). lia.
Qed.
Lemma lstep_lower s a : linv s -> lstep cap q ls s a = s \/ mass (lstep cap q ls s a) < mass s.
Proof.
  intros L. destruct a as [i|i|]; cbn [lstep].
  - destruct (Nat.ltb_spec i q) as [Hi|]; [|by left]. cbn [negb orb]. destruct (edone s i) eqn:Ed; [by left|].
    destruct (ls !! epos s i) as [l|] eqn:El.
    2: { right. unfold mass. cbn [epos edone chan ddone closed result]. do 2 apply Nat.add_lt_mono_r. apply (sum_lower _ _ i q Hi).
      - rewrite upd_eq, Ed. lia.
      - intros j Hj. by rewrite upd_ne. }
    assert (Hlt : epos s i < length ls) by (by apply lookup_lt_Some in El).
    destruct (Nat.eqb_spec (S (epos s i) mod q) i) as [Em|Em]; cbn [negb].
    + destruct (has_hash l).
      * right. unfold mass. cbn [epos edone chan ddone closed result]. do 2 apply Nat.add_lt_mono_r. apply (sum_lower _ _ i q Hi).
        -- rewrite upd_eq. lia.
        -- intros j Hj. by rewrite upd_ne.
      * rewrite Em. destruct (length (chan s i) <? cap); [|by left].
        right. unfold mass. cbn [epos edone chan ddone closed result]. do 2 apply Nat.add_lt_mono_r. apply (sum_lower _ _ i q Hi).
        -- rewrite !upd_eq, app_length. cbn [length]. lia.
        -- intros j Hj. by rewrite !upd_ne.
    + right. unfold mass. cbn [epos edone chan ddone closed result]. do 2 apply Nat.add_lt_mono_r. apply (sum_lower _ _ i q Hi).
      * rewrite upd_eq. lia.
      * intros j Hj. by rewrite upd_ne.
  - destruct (Nat.ltb_spec i q) as [Hi|]; [|by left]. cbn [negb orb]. destruct (ddone s i) eqn:Ed; [by left|].
    destruct (chan s i) as [|l r] eqn:Ec.
    + destruct (Nat.ltb_spec i (closed s)) as [Hc|]; [|by left].
      right. unfold mass. cbn [epos edone chan ddone closed result]. do 2 apply Nat.add_lt_mono_r. apply (sum_lower _ _ i q Hi).
      * rewrite upd_eq, Ed. lia.
      * intros j Hj. by rewrite upd_ne.
    + right. unfold mass. cbn [epos edone chan ddone closed result]. do 2 apply Nat.add_lt_mono_r. apply (sum_lower _ _ i q Hi).
      * rewrite upd_eq, Ec. cbn [length]. lia.
      * intros j Hj. by rewrite upd_ne.
  - destruct (all_below q (edone s)); [|by left]. cbn [negb]. destruct (Nat.ltb_spec (closed s) q) as [Hc|Hc].
    + right. unfold mass. cbn [epos edone chan ddone closed result]. lia.
    + destruct (all_below q (ddone s)); [|by left]. cbn [negb]. destruct (result s) eqn:Er; [by left|].
      right. unfold mass. cbn [epos edone chan ddone closed result]. rewrite Er. lia.
Qed.

(** Someone can go on. *)
Definition everyone (r : list actor) : Prop := In Main r /\ forall i, i < q -> In (Enq i) r /\ In (Deq i) r.
Lemma below_dec (f : nat -> bool) m : (forall i, i < m -> f i = true) \/ exists i, i < m /\ f i = false.
Proof.
  induction m as [|m [IH|(i & Hi & H)]]; [left; lia| |right; exists i; split; [lia|done]].
  destruct (f m) eqn:E; [|right; exists m; split; [lia|done]]. left. intros i Hi. destruct (decide (i = m)) as [->|]; [done|]. apply IH. lia.
Qed.
Lemma lstuck s : linv s -> result s = None -> exists a, lstep cap q ls s a <> s /\ match a with Enq i | Deq i => i < q | Main => True end.
Proof.
  intros L Hr.
  assert (Hlow : forall a, mass (lstep cap q ls s a) < mass s -> lstep cap q ls s a <> s) by (intros a H E; rewrite E in H; lia).
  destruct (below_dec (edone s) q) as [He|(i & Hi & He)].
  - destruct (Nat.lt_ge_cases (closed s) q) as [Hc|Hc].
    + exists Main. split; [|done]. cbn [lstep]. rewrite (proj2 (all_below_iff q (edone s)) He), (proj2 (Nat.ltb_lt _ _) Hc). cbn. intros E. apply (f_equal closed) in E. cbn in E. lia.
    + destruct (below_dec (ddone s) q) as [Hd|(i & Hi & Hd)].
      * exists Main. split; [|done]. cbn [lstep]. rewrite (proj2 (all_below_iff q (edone s)) He), (proj2 (Nat.ltb_ge _ _) Hc), (proj2 (all_below_iff q (ddone s)) Hd), Hr.
        cbn. intros E. apply (f_equal result) in E. cbn in E. congruence.
      * exists (Deq i). split; [|done]. cbn [lstep]. rewrite (proj2 (Nat.ltb_lt _ _) Hi), Hd. cbn [negb orb]. destruct (chan s i) as [|l r] eqn:Ec.
        -- assert (Hic : i < closed s) by lia. rewrite (proj2 (Nat.ltb_lt _ _) Hic). intros E. apply (f_equal (fun s => ddone s i)) in E. cbn in E. rewrite upd_eq in E. congruence.
        -- intros E. apply (f_equal (fun s => length (chan s i))) in E. cbn in E. rewrite upd_eq, Ec in E. cbn in E. lia.
  - destruct (chan s i) as [|l r] eqn:Ec.
    + exists (Enq i). split; [|done]. cbn [lstep]. rewrite (proj2 (Nat.ltb_lt _ _) Hi), He. cbn [negb orb]. destruct (ls !! epos s i) as [l|] eqn:El.
      * destruct (Nat.eqb_spec (S (epos s i) mod q) i) as [Em|Em]; cbn [negb].
        -- destruct (has_hash l).
           ++ intros E. apply (f_equal (fun s => epos s i)) in E. cbn in E. rewrite upd_eq in E. lia.
           ++ rewrite Em, Ec. cbn [length]. rewrite (proj2 (Nat.ltb_lt _ _) Hcap). intros E. apply (f_equal (fun s => epos s i)) in E. cbn in E. rewrite upd_eq in E. lia.
        -- intros E. apply (f_equal (fun s => epos s i)) in E. cbn in E. rewrite upd_eq in E. lia.
      * intros E. apply (f_equal (fun s => edone s i)) in E. cbn in E. rewrite upd_eq in E. congruence.
    + exists (Deq i). split; [|done]. cbn [lstep]. rewrite (proj2 (Nat.ltb_lt _ _) Hi). cbn [negb orb].
      destruct (ddone s i) eqn:Ed; [destruct (l_dd s L i Hi Ed); congruence|]. rewrite Ec.
      intros E. apply (f_equal (fun s => length (chan s i))) in E. cbn in E. rewrite upd_eq, Ec in E. cbn in E. lia.
Qed.
Lemma lround r : forall s, linv s -> mass (lrun cap q ls s r) <= mass s /\ ((forall a, In a r -> lstep cap q ls s a = s) \/ mass (lrun cap q ls s r) < mass s).
Proof.
  induction r as [|a r IH]; intros s L; [split; [done|by left]|]. cbn [lrun fold_left]. fold (lrun cap q ls (lstep cap q ls s a) r).
  destruct (IH _ (linv_step s a L)) as [H1 H2]. destruct (lstep_lower s a L) as [E|E].
  - rewrite E in *. split; [done|]. destruct H2 as [H2|H2]; [left|by right]. intros b [<-|Hb]; [done|by apply H2].
  - split; [lia|]. right. lia.
Qed.
Lemma lend rounds : forall s, linv s -> Forall everyone rounds -> mass s <= length rounds -> result (lrun cap q ls s (concat rounds)) <> None.
Proof.
  assert (Hstay : forall l s, result s <> None -> result (lrun cap q ls s l) <> None).
  { induction l as [|a l IH]; intros s H; [done|]. cbn. apply IH. destruct a as [i|i|]; cbn [lstep]; repeat case_match; cbn; congruence. }
  induction rounds as [|r rounds IH]; intros s L HF Hm.
  - cbn in *. unfold mass in Hm. destruct (result s); [done|lia].
  - cbn [concat]. unfold lrun. rewrite fold_left_app. inversion HF as [|? ? [E1 E2] HF']; subst.
    change (result (lrun cap q ls (lrun cap q ls s r) (concat rounds)) <> None).
    destruct (result s) as [x|] eqn:Er; [by apply Hstay, Hstay; rewrite Er|].
    destruct (lround r s L) as [_ [H|H]].
    + destruct (lstuck s L Er) as (a & Ha & Hi). exfalso. apply Ha, H. destruct a as [i|i|]; [by apply E2..|done].
    + apply IH; [by apply linv_run|done|]. cbn in Hm. lia.
Qed.
End load.

(** ** Sorting *)
Lemma str_lt_iff a : forall b, str_lt a b = true <-> before a b.
Proof.
  induction a as [|x a IH]; intros [|y b]; cbn; try done. destruct (N.eqb_spec x y) as [->|Hne].
  - rewrite IH. split; [auto|]. intros [H|[_ H]]; [lia|done].
  - rewrite N.ltb_lt. split; [auto|]. intros [H|[H _]]; done.
Qed.
Lemma before_irrefl a : ~ before a a.
Proof. induction a as [|x a IH]; cbn; [by intros []|]. intros [H|[_ H]]; [lia|done]. Qed.
Lemma before_trans a : forall b c, before a b -> before b c -> before a c.
Proof.
  induction a as [|x a IH]; intros [|y b] [|z c]; cbn; try done. intros [H1|[-> H1]] [H2|[-> H2]]; [left; lia..|]. right. split; [done|]. by apply (IH b).
Qed.
Lemma before_total a : forall b, ~ before a b -> ~ before b a -> a = b.
Proof.
  induction a as [|x a IH]; intros [|y b]; cbn; try done; try (by intros H1 H2; exfalso; auto).
  intros H1 H2. assert (x = y) as -> by (destruct (N.lt_total x y) as [|[|]]; [exfalso; auto|done|exfalso; auto]).
  f_equal. apply IH; intros H; [apply H1|apply H2]; auto.
Qed.
Lemma before_dec a b : before a b \/ ~ before a b.
Proof. destruct (str_lt a b) eqn:E; [left; by apply str_lt_iff|right; rewrite <- str_lt_iff; congruence]. Qed.

Definition key (pos : nat) (l : line) : list N := nth pos (words_from [] l) [].
Definition fine (l : line) : Prop := Forall (fun b => (b < 256)%N) l /\ length (words_from [] l) <= 5.
Lemma stamp_key pos l w : stamp pos l w <-> w = key pos l.
Proof.
  unfold stamp, key. split.
  - intros (ws & H & ->). apply splits_iff in H. by rewrite H.
  - intros ->. exists (words_from [] l). split; [by apply splits_iff|done].
Qed.
Lemma fields_ok f l : Forall (fun b => (b < 256)%N) l ->
  fast_fields f l = if length (words_from [] l) <=? length f then Some (words_from [] l ++ drop (length (words_from [] l)) f) else None.
Proof. intros H. apply fast_fields_ok; [done|by apply splits_iff]. Qed.
Lemma lookup_key pos (ws f : list (list N)) : length ws <= length f -> pos < length f ->
  (ws ++ drop (length ws) f) !! pos = Some (if pos <? length ws then nth pos ws [] else nth pos f []).
Proof.
  intros H1 H2. destruct (Nat.ltb_spec pos (length ws)) as [Hp|Hp].
  - rewrite lookup_app_l by done. destruct (lookup_lt_is_Some_2 ws pos Hp) as [x Hx]. rewrite Hx. f_equal. symmetry. by apply nth_lookup_Some.
  - rewrite lookup_app_r by done. rewrite lookup_drop. replace (length ws + (pos - length ws)) with pos by lia.
    destruct (lookup_lt_is_Some_2 f pos H2) as [x Hx]. rewrite Hx. f_equal. symmetry. by apply nth_lookup_Some.
Qed.
Lemma less_ok pos a b : fine a -> fine b -> pos < 5 -> less pos a b = Some (str_lt (key pos a) (key pos b)).
Proof.
  intros [A1 A2] [B1 B2] Hp. unfold less. rewrite fields_ok by done. rewrite replicate_length.
  rewrite (proj2 (Nat.leb_le _ _) A2). set (wa := words_from [] a) in *. set (wb := words_from [] b) in *.
  set (f := wa ++ drop (length wa) (replicate 5 [])).
  assert (Hlen : length f = 5) by (unfold f; rewrite app_length, drop_length, replicate_length; lia).
  assert (Hf : f !! pos = Some (nth pos wa [])).
  { unfold f. rewrite lookup_key by (rewrite ?replicate_length; lia). destruct (Nat.ltb_spec pos (length wa)); [done|]. rewrite (nth_overflow wa) by lia.
    f_equal. do 5 (destruct pos as [|pos]; [done|]); lia. }
  rewrite Hf, fields_ok by done. fold wb. rewrite Hlen, (proj2 (Nat.leb_le _ _) B2). rewrite lookup_key by lia. f_equal.
  unfold key. fold wa wb. destruct (Nat.ltb_spec pos (length wb)) as [H|H]; [done|].
  rewrite (nth_overflow wb) by lia. rewrite (nth_lookup_Some f pos [] (nth pos wa [])) by done.
  destruct (str_lt (nth pos wa []) (nth pos wa [])) eqn:E; [by apply str_lt_iff, before_irrefl in E|]. by destruct (nth pos wa []).
Qed.

Lemma ss_app {A} (R : A -> A -> Prop) a b : StronglySorted R a -> StronglySorted R b -> (forall x y, In x a -> In y b -> R x y) -> StronglySorted R (a ++ b).
Proof.
  induction a as [|x a IH]; intros HA HB H; [done|]. inversion HA as [|? ? HA' HF]; subst. cbn. constructor.
  - apply IH; [done|done|]. intros y z Hy Hz. apply H; [by right|done].
  - apply Forall_app. split; [done|]. apply Forall_forall. intros z Hz. apply H; [by left|done].
Qed.
Lemma ss_part {A} (R : A -> A -> Prop) a b : StronglySorted R (a ++ b) -> StronglySorted R a /\ StronglySorted R b.
Proof.
  induction a as [|x a IH]; intros H; [split; [constructor|done]|]. inversion H as [|? ? H1 H2]; subst. apply Forall_app in H2 as [H2 _].
  destruct (IH H1). split; [by constructor|done].
Qed.

Section sort.
Context (pos : nat) (Hpos : pos < 5).
Definition klt (a b : line) : Prop := before (key pos a) (key pos b).
Lemma klt_dec a b : klt a b \/ ~ klt a b.
Proof. apply before_dec. Qed.
Lemma less_klt a b : fine a -> fine b -> exists o, less pos a b = Some o /\ (o = true <-> klt a b).
Proof. intros H1 H2. eexists. split; [by apply less_ok|apply str_lt_iff]. Qed.
(** A line finds its place. *)
Lemma insert_ok x r : fine x -> Forall fine r -> StronglySorted (fun a b => ~ klt a b) r ->
  exists a b, r = a ++ b /\ insert pos x r = Some (a ++ x :: b) /\ Forall (fun y => klt x y) a /\ Forall (fun y => ~ klt x y) b.
Proof.
  intros Hx. induction r as [|y r IH]; intros HF HS.
  - exists [], []. by split_and!.
  - inversion HF as [|? ? Hy HF']; inversion HS as [|? ? HS' Hle]; subst. destruct (less_klt x y Hx Hy) as (o & E & Ho). cbn [insert]. rewrite E. destruct o.
    + destruct (IH HF' HS') as (a & b & -> & -> & Ha & Hb). exists (y :: a), b. split_and!; [done|done| |done]. constructor; [by apply Ho|done].
    + exists [], (y :: r). split_and!; [done|done|done|]. assert (Hxy : ~ klt x y) by (intros H; by apply Ho in H). constructor; [done|].
      eapply Forall_impl; [|exact Hle]. cbn. intros z Hyz Hxz. destruct (klt_dec y x) as [Hyx|Hyx].
      * apply Hyz. by apply (before_trans _ (key pos x)).
      * apply Hyz. unfold klt in *. rewrite <- (before_total _ _ Hxy Hyx). done.
Qed.
Lemma sorted_rev r : StronglySorted (fun a b => ~ klt a b) r <-> StronglySorted (fun a b => ~ klt b a) (rev r).
Proof.
  assert (H : forall (R : line -> line -> Prop) l, StronglySorted R l -> StronglySorted (fun a b => R b a) (rev l)).
  { intros R l. induction l as [|x l IH]; intros HS; [constructor|]. inversion HS; subst. cbn.
    apply ss_app; [by apply IH|by repeat constructor|]. intros y z Hy [<-|[]]. apply in_rev in Hy. rewrite Forall_forall in H2. by apply H2. }
  split; intros HS; [by apply (H _ _) in HS|]. apply (H _ _) in HS. by rewrite rev_involutive in HS.
Qed.
Lemma filter_none {A} (p : A -> bool) l : (forall x, In x l -> p x = false) -> List.filter p l = [].
Proof. induction l as [|x l IH]; intros H; [done|]. cbn. rewrite (H x) by (by left). apply IH. intros y Hy. apply H. by right. Qed.
Lemma stable_ok ls : forall r dn, Forall fine ls -> Forall fine r -> sorted_by klt dn (rev r) ->
  exists l', stable pos r ls = Some l' /\ sorted_by klt (dn ++ ls) l'.
Proof.
  induction ls as [|x ls IH]; intros r dn Hls Hr HS.
  - exists (rev r). rewrite app_nil_r. done.
  - inversion Hls as [|? ? Hx Hls']; subst. destruct HS as (H1 & H2 & H3). pose proof (proj2 (sorted_rev r) H2) as H2'.
    destruct (insert_ok x r Hx Hr H2') as (a & b & -> & E & Ha & Hb). cbn [stable]. rewrite E.
    apply Forall_app in Hr as [Hra Hrb]. rewrite rev_app_distr in H1, H2, H3. apply ss_part in H2 as [S1 S2].
    rewrite Forall_forall in Ha, Hb.
    destruct (IH (a ++ x :: b) (dn ++ [x])) as (l' & E' & HS').
    + done.
    + apply Forall_app. split; [done|by constructor].
    + rewrite rev_app_distr. cbn [rev]. split_and!.
      * rewrite H1. rewrite <- !app_assoc. apply Permutation_app_head. cbn [app]. symmetry. rewrite Permutation_app_comm. cbn [app]. done.
      * rewrite <- app_assoc. apply ss_app; [done| |].
        -- cbn [app]. constructor; [done|]. apply Forall_forall. intros z Hz Hzx. apply in_rev in Hz.
           apply (before_irrefl (key pos x)). apply (before_trans _ (key pos z)); [by apply Ha|done].
        -- intros y z Hy Hz Hzy. apply in_rev in Hy. pose proof (Hb y Hy) as Hxy. cbn [app] in Hz. destruct Hz as [<-|Hz]; [done|]. apply in_rev in Hz.
           apply Hxy. by apply (before_trans _ (key pos z)); [apply Ha|].
      * intros p Hp. assert (Hp' : forall u v, In u dn -> In v dn -> p u = true -> p v = true -> ~ klt u v).
        { intros u v Hu Hv. apply Hp; apply in_app_iff; by left. }
        pose proof (H3 p Hp') as H. rewrite !List.filter_app in *. cbn [List.filter]. rewrite <- H.
        destruct (p x) eqn:Ex; [|by rewrite !app_nil_r].
        assert (List.filter p (rev a) = []) as ->; [|by rewrite !app_nil_r].
        apply filter_none. intros z Hz. apply in_rev in Hz. destruct (p z) eqn:Ez; [|done]. exfalso. apply (Hp x z); [apply in_app_iff; right; by left| |done|done|by apply Ha].
        apply in_app_iff. left. apply (Permutation_in z (Permutation_sym H1)). apply in_app_iff. right. by apply -> in_rev.
    + exists l'. split; [done|]. by rewrite <- app_assoc in HS'.
Qed.
Lemma tool_sort_ok ls : Forall fine ls -> exists l', tool_sort pos ls = Some l' /\ sorted_by klt ls l'.
Proof.
  intros H. apply (stable_ok ls [] []); [done|done|]. split_and!; [done|constructor|done].
Qed.
End sort.
(** A line with too many words makes it panic. *)
Lemma less_none pos a b : Forall (fun c => (c < 256)%N) a -> Forall (fun c => (c < 256)%N) b -> 5 < length (words_from [] a) \/ 5 < length (words_from [] b) -> less pos a b = None.
Proof.
  intros Ha Hb H. unfold less. rewrite fields_ok by done. rewrite replicate_length.
  destruct (Nat.leb_spec (length (words_from [] a)) 5) as [Hl|]; [|done]. destruct H as [H|H]; [lia|].
  set (f := _ ++ _). destruct (f !! pos); [|done]. rewrite fields_ok by done.
  assert (Hlen : length f = 5) by (unfold f; rewrite app_length, drop_length, replicate_length; lia).
  rewrite Hlen. by destruct (Nat.leb_spec (length (words_from [] b)) 5) as [Hl'|]; [lia|].
Qed.
Lemma less_some pos a b o : Forall (fun c => (c < 256)%N) a -> Forall (fun c => (c < 256)%N) b -> less pos a b = Some o ->
  length (words_from [] a) <= 5 /\ length (words_from [] b) <= 5.
Proof.
  intros Ha Hb H. destruct (Nat.le_gt_cases (length (words_from [] a)) 5) as [|H1]; [|rewrite less_none in H by auto; done].
  destruct (Nat.le_gt_cases (length (words_from [] b)) 5) as [|H2]; [done|rewrite less_none in H by auto; done].
Qed.
Lemma insert_some pos x r r' : Forall (fun c => (c < 256)%N) x -> Forall (Forall (fun c => (c < 256)%N)) r -> insert pos x r = Some r' ->
  Permutation (x :: r) r' /\ (r <> [] -> length (words_from [] x) <= 5) /\ (forall y, In y r -> length r = 1 -> length (words_from [] y) <= 5).
Proof.
  intros Hx. revert r'. induction r as [|y r IH]; intros r' HF E.
  - injection E as <-. done.
  - inversion HF as [|? ? Hy HF']; subst. cbn in E. destruct (less pos x y) as [o|] eqn:El; [|done]. destruct (less_some _ _ _ _ Hx Hy El) as [L1 L2].
    assert (Hone : forall z, In z (y :: r) -> length (y :: r) = 1 -> length (words_from [] z) <= 5).
    { intros z Hz Hl. destruct r; [|done]. by destruct Hz as [<-|[]]. }
    destruct o.
    + destruct (insert pos x r) as [r''|] eqn:Ei; [|done]. injection E as <-. destruct (IH r'' HF' eq_refl) as (P & _ & _).
      split_and!; [|done|done]. rewrite perm_swap. by rewrite P.
    + injection E as <-. by split_and!.
Qed.
Lemma stable_some pos ls : forall r l', Forall (Forall (fun c => (c < 256)%N)) ls -> Forall (Forall (fun c => (c < 256)%N)) r -> stable pos r ls = Some l' ->
  2 <= length (r ++ ls) -> (length r <> 1 -> Forall (fun y => length (words_from [] y) <= 5) r) -> forall y, In y (r ++ ls) -> length (words_from [] y) <= 5.
Proof.
  induction ls as [|x ls IH]; intros r l' Hls Hr E Hl Hone y Hy.
  - rewrite app_nil_r in *. assert (Hn : length r <> 1) by lia. pose proof (Hone Hn) as H. rewrite Forall_forall in H. by apply H.
  - inversion Hls as [|? ? Hx Hls']; subst. cbn in E. destruct (insert pos x r) as [r'|] eqn:Ei; [|done].
    destruct (insert_some _ _ _ _ Hx Hr Ei) as (P & P1 & P2).
    assert (Hlen : length r' = S (length r)) by (by rewrite <- P).
    apply (IH r' l').
    + done.
    + rewrite Forall_forall. intros z Hz. apply (Permutation_in z (Permutation_sym P)) in Hz. destruct Hz as [<-|Hz]; [done|]. rewrite Forall_forall in Hr. by apply Hr.
    + done.
    + rewrite app_length in *. cbn in Hl. lia.
    + intros Hn. rewrite Forall_forall. intros z Hz. apply (Permutation_in z (Permutation_sym P)) in Hz.
      assert (Hne : r <> []) by (intros ->; cbn in Hlen; lia).
      destruct Hz as [<-|Hz]; [by apply P1|]. destruct (decide (length r = 1)) as [H1|H1]; [by apply P2|].
      pose proof (Hone H1) as H. rewrite Forall_forall in H. by apply H.
    + apply in_app_iff in Hy as [Hy|[<-|Hy]]; apply in_app_iff; [left|left|by right]; apply (Permutation_in _ P); [by right|by left].
Qed.

(** Digit strings of one length: byte order is the order of the numbers. *)
Lemma decimal_lt a : Forall digit a -> (decimal a < 10 ^ N.of_nat (length a))%N.
Proof.
  induction a as [|x a IH]; intros H; [done|]. inversion H as [|? ? Hx Ha]; subst. cbn [decimal length]. pose proof (IH Ha) as Hlt.
  rewrite Nat2N.inj_succ, N.pow_succ_r'. unfold digit in Hx. nia.
Qed.
Lemma before_decimal a : forall b, Forall digit a -> Forall digit b -> length a = length b -> before a b <-> (decimal a < decimal b)%N.
Proof.
  induction a as [|x a IH]; intros [|y b] Ha Hb Hl; try done. inversion Ha as [|? ? Hx Ha']; inversion Hb as [|? ? Hy Hb']; subst.
  injection Hl as Hl. cbn [before decimal]. rewrite <- Hl. pose proof (decimal_lt a Ha'). pose proof (decimal_lt b Hb') as Hb2. rewrite <- Hl in Hb2.
  rewrite (IH b Ha' Hb' Hl). unfold digit in *. set (p := (10 ^ N.of_nat (length a))%N) in *. split.
  - intros [Hlt|[-> Hlt]]; [|lia]. assert (x - 48 + 1 <= y - 48)%N by lia. nia.
  - intros Hlt. destruct (N.lt_total x y) as [|[->|Hgt]]; [by left|right; split; [done|lia]|]. exfalso. assert (y - 48 + 1 <= x - 48)%N by lia. nia.
Qed.
