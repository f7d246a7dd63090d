(** Proofs about the synchronous engine that reads only mail of the previous round. *)
From Verif Require Import Base Engine_Spec Engine_Model Engine_Proofs Sync_Spec Sync_Model Sync_Proofs.

Lemma updates_app {C} v (l l' : list (pevent C)) : updates v (l ++ l') = updates v l ++ updates v l'.
Proof. unfold updates. apply omap_app. Qed.
Lemma no_pround_tail {C} (l1 : list (pevent C)) x y l2 l1' x' y' l2' : l1 ++ PRound x y :: l2 = l1' ++ PRound x' y' :: l2' -> no_pround l2 -> no_pround l2' ->
  l1 = l1' /\ x = x' /\ y = y' /\ l2 = l2'.
Proof.
  revert l1'. induction l1 as [|e l1 IH]; intros [|e' l1'] E H2 H2'; simplify_eq/=.
  - done.
  - exfalso. apply (H2 x' y'). apply elem_of_app. right. apply elem_of_list_here.
  - exfalso. apply (H2' x y). apply elem_of_app. right. apply elem_of_list_here.
  - destruct (IH l1' ltac:(assumption) H2 H2') as (-> & -> & -> & ->). done.
Qed.

Section proofs.
Context (a : alg) (owner : nat -> nat) (n : nat) (verts : nat -> list nat).
Context (Hverts : forall t v, v ∈ verts t -> owner v = t) (Hnodup : forall t, NoDup (verts t)).

Definition pwaking (s : pst a) (v : nat) : Prop :=
  0 < act (pbase s) v \/ exists t, (t < n)%nat /\ (Cas v ∈ todo (pbase s) t \/ exists k, Begin v k ∈ todo (pbase s) t).
Definition expected (acts : nat -> nat) (boxes : nat -> list (cell_t a)) v : option (list (cell_t a)) :=
  if (acts v =? 0)%nat then None else Some (read_all a (boxes v)).
Definition olist {A} (o : option A) : list A := match o with Some x => [x] | None => [] end.

Definition now (s : pst a) acts boxes (l : list (pevent (cell_t a))) : Prop :=
  no_pround l /\ forall t i v, (t < n)%nat -> verts t !! i = Some v ->
    if pgather s
    then updates v l = [] /\
         ((i < ppos s t)%nat -> plast s v = expected acts boxes v /\ act (pbase s) v = 0) /\
         (~ (i < ppos s t)%nat -> plast s v = None /\ act (pbase s) v = acts v /\ box (pbase s) v = boxes v)
    else ((i < ppos s t)%nat -> updates v l = olist (expected acts boxes v) /\ plast s v = None) /\
         (~ (i < ppos s t)%nat -> updates v l = [] /\ plast s v = expected acts boxes v).

Record pinv (s : pst a) : Prop := Pinv {
  p_one : forall v, act (pbase s) v <= 1;
  p_nodec : forall t v, Dec v ∉ todo (pbase s) t;
  p_range : forall t, ~ (t < n)%nat -> todo (pbase s) t = [];
  p_quiet : pgather s = true -> (forall t, todo (pbase s) t = []) /\ sumt (ptact s) n = 0;
  p_told : forall v, unanswered (elog (pbase s)) v -> pwaking s v;
  p_pos : forall t, (t < n)%nat -> (ppos s t <= length (verts t))%nat;
  p_act : pgather s = false -> forall t i v, (t < n)%nat -> verts t !! i = Some v -> 0 < act (pbase s) v ->
    (exists k, (k < n)%nat /\ Put v ∈ todo (pbase s) k) \/ 0 < sumt (ptact s) n;
  p_done : pdone s = true -> pgather s = false /\ sumt (ptact s) n = 0 /\ forall t, (t < n)%nat -> pthrough a verts s t = true;
  p_past : forall l1 x y l2 x' y' l3, plog s = l1 ++ PRound x y :: l2 ++ PRound x' y' :: l3 -> no_pround l2 -> pround_ok (read_all a) (all_verts n verts) x y l2;
  p_now : exists l1 x y l2, plog s = l1 ++ PRound x y :: l2 /\ now s x y l2 }.

Lemma pinv_start e : (forall t, todo e t = []) -> (forall v, act e v <= 1) -> (forall v, unanswered (elog e) v -> 0 < act e v) -> pinv (pstart a e).
Proof.
  intros Ht H1 Hu. constructor; cbn; try done.
  - intros t v. rewrite Ht. by intros ?%elem_of_nil.
  - intros _. split; [done|]. by apply sumt_zero.
  - intros v Hv. left. by apply Hu.
  - intros; lia.
  - intros l1 x y l2 x' y' l3 E. destruct l1 as [|z l1]; [|destruct l1; simplify_eq/=]. simplify_eq/=. by destruct l2.
  - exists [], (act e), (box e), []. split; [done|]. split; [by intros ? ? ?%elem_of_nil|]. intros t i v Htn Hi. cbn. split_and!; [done|lia|done].
Qed.

Lemma past_extend' (l : list (pevent (cell_t a))) e l1 x y l2 x' y' l3 : (forall u w, e <> PRound u w) -> l ++ [e] = l1 ++ PRound x y :: l2 ++ PRound x' y' :: l3 ->
  exists l3', l = l1 ++ PRound x y :: l2 ++ PRound x' y' :: l3'.
Proof.
  intros He E. destruct l3 as [|z l3] using rev_ind.
  - exfalso. replace (l1 ++ PRound x y :: l2 ++ [PRound x' y']) with ((l1 ++ PRound x y :: l2) ++ [PRound x' y']) in E by (by rewrite <- app_assoc).
    apply app_inj_tail in E. destruct E as [_ ->]. by eapply He.
  - exists l3. replace (l1 ++ PRound x y :: l2 ++ PRound x' y' :: l3 ++ [z]) with ((l1 ++ PRound x y :: l2 ++ PRound x' y' :: l3) ++ [z]) in E
      by (by rewrite <- !app_assoc, <- !app_comm_cons, <- !app_assoc).
    by apply app_inj_tail in E as [-> _].
Qed.

Lemma pinv_exec s t o rest : pinv s -> (t < n)%nat -> pdone s = false -> todo (pbase s) t = o :: rest ->
  pinv (Pst (exec_op a owner (pbase s) t o rest) (pgather s) (ppos s) (plast s)
          (match o with Put _ => upd (ptact s) t (S (ptact s t)) | _ => ptact s end) false (plog s)).
Proof.
  intros HI Ht Hd Ho.
  assert (Hg : pgather s = false).
  { destruct (pgather s) eqn:Hg; [|done]. destruct (p_quiet _ HI Hg) as [Hq _]. rewrite Hq in Ho. done. }
  assert (Hnd : forall v, o <> Dec v) by (intros v ->; apply (p_nodec _ HI t v); rewrite Ho; apply elem_of_list_here).
  destruct (exec_facts a owner (pbase s) t o rest Hnd) as (new & Et & Hnew & Ha & Hu). set (s' := exec_op a owner (pbase s) t o rest) in *.
  assert (Hrest : forall o', o' ∈ rest -> o' ∈ todo s' t) by (intros o' Hin; rewrite Et; us; apply elem_of_app; by right).
  assert (Hsum : sumt (ptact s) n <= sumt (match o with Put _ => upd (ptact s) t (S (ptact s t)) | _ => ptact s end) n /\
                 ((exists d, o = Put d) -> 0 < sumt (match o with Put _ => upd (ptact s) t (S (ptact s t)) | _ => ptact s end) n)).
  { destruct o; try (split; [lia|intros [? [=]]]).
    pose proof (sumt_change (upd (ptact s) t (S (ptact s t))) (ptact s) n t Ht) as Hc.
    rewrite upd_eq in Hc. specialize (Hc ltac:(intros; by us)). lia. }
  destruct Hsum as [Hsum1 Hsum2].
  constructor; cbn; rewrite ?Hg.
  - intros v. apply Ha, (p_one _ HI).
  - intros k v. rewrite Et. destruct (decide (k = t)) as [->|]; us; [|apply (p_nodec _ HI)]. intros [Hin|Hin]%elem_of_app; [by apply Hnew in Hin|].
    apply (p_nodec _ HI t v). rewrite Ho. by apply elem_of_list_further.
  - intros k Hk. rewrite Et. rewrite upd_ne by lia. by apply (p_range _ HI).
  - done.
  - intros v Hv. destruct (Hu v Hv) as [Hn|(Hv' & Hcas & Hbeg)].
    + right. exists t. split; [done|]. cbn. rewrite Et. us. destruct Hn as [Hn|[k Hn]]; [left|right; exists k]; apply elem_of_app; by left.
    + destruct (p_told _ HI v Hv') as [Hp|(k & Hk & Hw)]; [left; cbn; pose proof (Ha v); lia|].
      destruct (decide (k = t)) as [->|Hne].
      * rewrite Ho in Hw. destruct Hw as [Hw|[kd Hw]].
        -- apply elem_of_cons in Hw. destruct Hw as [<-|Hw]; [left; by apply Hcas|right]. exists t. split; [done|]. left. by apply Hrest.
        -- apply elem_of_cons in Hw. destruct Hw as [<-|Hw]; [by destruct (Hbeg kd)|right]. exists t. split; [done|]. right. exists kd. by apply Hrest.
      * right. exists k. split; [done|]. cbn. rewrite Et. by us.
  - apply (p_pos _ HI).
  - intros _ k i v Hk Hi Hact. destruct (decide (0 < act (pbase s) v)) as [Hb|Hb].
    + destruct (p_act _ HI Hg k i v Hk Hi Hb) as [(j & Hj & Hput)|?]; [|right; lia]. destruct (decide (j = t)) as [->|Hne].
      * rewrite Ho in Hput. apply elem_of_cons in Hput. destruct Hput as [<-|Hput]; [right; apply Hsum2; eauto|left; exists t; split; [done|by apply Hrest]].
      * left. exists j. split; [done|]. rewrite Et. by us.
    + left. exists t. split; [done|]. rewrite Et. us. apply elem_of_app. left. apply Ha. lia.
  - done.
  - apply (p_past _ HI).
  - destruct (p_now _ HI) as (l1 & x & y & l2 & E & Hnr & Hp). exists l1, x, y, l2. split; [done|]. split; [done|].
    intros k i v Hk Hi. pose proof (Hp k i v Hk Hi) as Hp'. cbn. rewrite Hg in *. exact Hp'.
Qed.

(** Facts that all visits share. *)
Lemma other_vertex t v k i w pos : verts t !! pos = Some v -> verts k !! i = Some w -> (k, i) <> (t, pos) -> w <> v.
Proof. intros Hv Hi Hne ->. destruct (lookup_unique owner verts Hverts Hnodup _ _ _ _ _ Hi Hv) as [-> ->]. done. Qed.

Lemma pinv_pstep s t : pinv s -> pinv (pstep a owner n verts s t).
Proof.
  intros HI. unfold pstep. destruct (pdone s) eqn:Hd; [done|]. destruct (Nat.ltb_spec t n) as [Ht|]; [|done]. cbn [negb orb].
  destruct (todo (pbase s) t) as [|o rest] eqn:Ho; [|by apply pinv_exec].
  destruct (verts t !! ppos s t) as [v|] eqn:Hv.
  - pose proof (lookup_lt_Some _ _ _ Hv) as Hlt.
    destruct (p_now _ HI) as (l1 & x & y & l2 & E & Hnr & Hp).
    destruct (pgather s) eqn:Hg.
    + destruct (p_quiet _ HI Hg) as [Hq Hz].
      destruct (Hp t (ppos s t) v Ht Hv) as (Hpu & _ & Hp2). destruct (Hp2 ltac:(lia)) as (Hl & Ha & Hb).
      assert (Hpos : forall k, (k < n)%nat -> (upd (ppos s) t (S (ppos s t)) k <= length (verts k))%nat).
      { intros k Hk. destruct (decide (k = t)) as [->|]; us; [lia|by apply (p_pos _ HI)]. }
      destruct (Nat.eqb_spec (act (pbase s) v) 1) as [H1|H1].
      * constructor; cbn; rewrite ?Hg; try done.
        -- intros w. destruct (decide (w = v)) as [->|]; us; [lia|apply (p_one _ HI)].
        -- apply (p_nodec _ HI).
        -- intros w Hw. destruct (unanswered_app_began _ _ _ Hw) as [Hne Hw']. destruct (p_told _ HI w Hw') as [?|(k & Hk & Hc)]; [left; cbn; by us|].
           rewrite Hq in Hc. destruct Hc as [Hc|[? Hc]]; by apply elem_of_nil in Hc.
        -- apply (p_past _ HI).
        -- exists l1, x, y, l2. split; [done|]. split; [done|]. intros k i w Hk Hi. cbn. destruct (Hp k i w Hk Hi) as (Hp1 & Hp3 & Hp4).
           destruct (decide ((k, i) = (t, ppos s t))) as [[= -> ->]|Hne].
           ++ rewrite Hv in Hi. injection Hi as <-. us. split_and!; [done| |lia]. intros _. split; [|done]. unfold expected. rewrite <- Ha, H1, <- Hb. done.
           ++ pose proof (other_vertex t v k i w _ Hv Hi Hne). us. destruct (decide (k = t)) as [->|]; us; [|done].
              assert (i <> ppos s t) by congruence. split_and!; [done|intros; apply Hp3; lia|intros; apply Hp4; lia].
      * pose proof (p_one _ HI v) as Hone. assert (H0 : act (pbase s) v = 0) by lia.
        assert (Hact : forall w, upd (act (pbase s)) v 0 w = act (pbase s) w) by (intros w; destruct (decide (w = v)) as [->|]; us; done).
        constructor; cbn; rewrite ?Hg; try done.
        -- intros w. rewrite Hact. apply (p_one _ HI).
        -- apply (p_nodec _ HI).
        -- intros w Hw. destruct (p_told _ HI w Hw) as [?|(k & Hk & Hc)]; [left; cbn; by rewrite Hact|].
           rewrite Hq in Hc. destruct Hc as [Hc|[? Hc]]; by apply elem_of_nil in Hc.
        -- apply (p_past _ HI).
        -- exists l1, x, y, l2. split; [done|]. split; [done|]. intros k i w Hk Hi. cbn. rewrite Hact. destruct (Hp k i w Hk Hi) as (Hp1 & Hp3 & Hp4).
           destruct (decide ((k, i) = (t, ppos s t))) as [[= -> ->]|Hne].
           ++ rewrite Hv in Hi. injection Hi as <-. us. split_and!; [done| |lia]. intros _. split; [|done]. unfold expected. rewrite <- Ha, H0. done.
           ++ destruct (decide (k = t)) as [->|]; us; [|done].
              assert (i <> ppos s t) by congruence. split_and!; [done|intros; apply Hp3; lia|intros; apply Hp4; lia].
    + destruct (Hp t (ppos s t) v Ht Hv) as (_ & Hp2). destruct (Hp2 ltac:(lia)) as (Hpu & Hl).
      assert (Hpos : forall k, (k < n)%nat -> (upd (ppos s) t (S (ppos s t)) k <= length (verts k))%nat).
      { intros k Hk. destruct (decide (k = t)) as [->|]; us; [lia|by apply (p_pos _ HI)]. }
      destruct (plast s v) as [got|] eqn:Hlast.
      * destruct (react a v KUpd (prop (pbase s) v) (edges (pbase s) v) got) as [[p ms] ms'].
        set (new := map (fun '(d, m) => Merge v d m) ms ++ [Else (map (fun '(d, m) => (v, d, m)) ms')]).
        assert (Hnew : forall o', o' ∈ new -> (forall w, o' <> Dec w)).
        { intros o' [Hin|Hin%elem_of_list_singleton]%elem_of_app w; [|by subst]. apply elem_of_list_fmap in Hin. destruct Hin as ([d m] & -> & _). done. }
        constructor; cbn; try done.
        -- apply (p_one _ HI).
        -- intros k w. destruct (decide (k = t)) as [->|]; us; [|apply (p_nodec _ HI)]. intros Hin. by apply (Hnew _ Hin w).
        -- intros k Hk. rewrite upd_ne by lia. by apply (p_range _ HI).
        -- intros w Hw. destruct (p_told _ HI w Hw) as [?|(k & Hk & Hc)]; [by left|right]. exists k. split; [done|]. cbn.
           destruct (decide (k = t)) as [->|]; us; [|done]. rewrite Ho in Hc. destruct Hc as [Hc|[? Hc]]; by apply elem_of_nil in Hc.
        -- intros _ k i w Hk Hi Hact. destruct (p_act _ HI Hg k i w Hk Hi Hact) as [(j & Hj & Hput)|?]; [left|by right]. exists j. split; [done|].
           destruct (decide (j = t)) as [->|]; us; [|done]. rewrite Ho in Hput. by apply elem_of_nil in Hput.
        -- intros l1' x1 y1 l2' x2 y2 l3 E'. assert (Hnp : forall u w, Update v got <> PRound u w) by done.
           destruct (past_extend' _ _ _ _ _ _ _ _ _ Hnp E') as [l3' E'']. by apply (p_past _ HI _ _ _ _ _ _ _ E'').
        -- exists l1, x, y, (l2 ++ [Update v got]). split; [by rewrite E, <- app_assoc|]. split.
           { intros u w [?|?%elem_of_list_singleton]%elem_of_app; [by eapply Hnr|done]. }
           intros k i w Hk Hi. cbn. rewrite updates_app. cbn. destruct (Hp k i w Hk Hi) as (Hp3 & Hp4).
           destruct (decide ((k, i) = (t, ppos s t))) as [[= -> ->]|Hne].
           ++ rewrite Hv in Hi. injection Hi as <-. us. rewrite Nat.eqb_refl. split; [|lia]. intros _. rewrite Hpu, <- Hl. done.
           ++ pose proof (other_vertex t v k i w _ Hv Hi Hne). us. destruct (Nat.eqb_spec v w) as [->|]; [done|]. rewrite app_nil_r. destruct (decide (k = t)) as [->|]; us; [|done].
              assert (i <> ppos s t) by congruence. split_and!; [intros; apply Hp3; lia|intros; apply Hp4; lia].
      * destruct HI. constructor; cbn; try done.
        -- by rewrite Hg in *.
        -- exists l1, x, y, l2. split; [done|]. split; [done|]. intros k i w Hk Hi. cbn. destruct (Hp k i w Hk Hi) as (Hp3 & Hp4).
           destruct (decide ((k, i) = (t, ppos s t))) as [[= -> ->]|Hne].
           ++ rewrite Hv in Hi. injection Hi as <-. us. split; [|lia]. intros _. split; [|done]. by rewrite Hpu, <- Hl.
           ++ destruct (decide (k = t)) as [->|]; us; [|done].
              assert (i <> ppos s t) by congruence. split_and!; [intros; apply Hp3; lia|intros; apply Hp4; lia].
  - destruct (forallb (pthrough a verts s) (seq 0 n)) eqn:Hall; [|done].
    assert (Hth : forall k, (k < n)%nat -> pthrough a verts s k = true).
    { intros k Hk. rewrite forallb_forall in Hall. apply Hall, in_seq. lia. }
    assert (Hend : forall k i w, (k < n)%nat -> verts k !! i = Some w -> (i < ppos s k)%nat).
    { intros k i w Hk Hi. pose proof (Hth k Hk) as Hthk. unfold pthrough in Hthk. rewrite !andb_true_iff, Nat.eqb_eq in Hthk. destruct Hthk as [_ ->].
      by eapply lookup_lt_Some. }
    destruct (p_now _ HI) as (l1 & x & y & l2 & E & Hnr & Hp).
    destruct (pgather s) eqn:Hg.
    + destruct (p_quiet _ HI Hg) as [Hq Hz]. constructor; cbn; try done.
      * apply (p_one _ HI).
      * apply (p_nodec _ HI).
      * apply (p_told _ HI).
      * intros; lia.
      * intros _ k i w Hk Hi Hact. destruct (Hp k i w Hk Hi) as (_ & Hp1 & _). destruct (Hp1 (Hend k i w Hk Hi)) as [_ Hz']. lia.
      * apply (p_past _ HI).
      * exists l1, x, y, l2. split; [done|]. split; [done|]. intros k i w Hk Hi. cbn. destruct (Hp k i w Hk Hi) as (Hp0 & Hp1 & _).
        destruct (Hp1 (Hend k i w Hk Hi)) as [Hp2 _]. split; [lia|]. done.
    + destruct (Nat.eqb_spec (sumt (ptact s) n) 0) as [Hz|Hz].
      * destruct HI. constructor; cbn; try done.
        -- by rewrite Hg in *.
        -- exists l1, x, y, l2. split; [done|]. split; [done|]. intros k i w Hk Hi. exact (Hp k i w Hk Hi).
      * constructor; cbn; try done.
        -- apply (p_one _ HI).
        -- apply (p_nodec _ HI).
        -- apply (p_range _ HI).
        -- intros _. split; [|by apply sumt_zero]. intros k. destruct (decide (k < n)%nat) as [Hk|Hk]; [|by apply (p_range _ HI)].
           pose proof (Hth k Hk) as Hthk. unfold pthrough in Hthk. by destruct (todo (pbase s) k).
        -- apply (p_told _ HI).
        -- intros; lia.
        -- intros l1' x1 y1 l2' x2 y2 l3 E' Hnr'. destruct l3 as [|z l3] using rev_ind.
           ++ replace (l1' ++ PRound x1 y1 :: l2' ++ [PRound x2 y2]) with ((l1' ++ PRound x1 y1 :: l2') ++ [PRound x2 y2]) in E' by (by rewrite <- app_assoc).
              apply app_inj_tail in E'. destruct E' as [E' _]. rewrite E in E'.
              destruct (no_pround_tail _ _ _ _ _ _ _ _ E' Hnr Hnr') as (<- & <- & <- & <-).
              intros w Hin. apply (in_all n verts) in Hin. destruct Hin as (k & i & Hk & Hi). destruct (Hp k i w Hk Hi) as [Hp1 _].
              destruct (Hp1 (Hend k i w Hk Hi)) as [-> _]. unfold expected. by destruct (x w =? 0)%nat.
           ++ apply (p_past _ HI l1' x1 y1 l2' x2 y2 l3); [|done].
              replace (l1' ++ PRound x1 y1 :: l2' ++ PRound x2 y2 :: l3 ++ [z]) with ((l1' ++ PRound x1 y1 :: l2' ++ PRound x2 y2 :: l3) ++ [z]) in E'
                by (by rewrite <- !app_assoc, <- !app_comm_cons, <- !app_assoc).
              by apply app_inj_tail in E' as [-> _].
        -- exists (plog s), (act (pbase s)), (box (pbase s)), []. split; [done|]. split; [by intros ? ? ?%elem_of_nil|]. intros k i w Hk Hi. cbn.
           split_and!; [done|lia|]. intros _. split_and!; [|done|done]. destruct (Hp k i w Hk Hi) as [Hp1 _]. by destruct (Hp1 (Hend k i w Hk Hi)).
Qed.

Lemma pinv_prun sched : forall s, pinv s -> pinv (prun a owner n verts s sched).
Proof. induction sched as [|t l IH]; intros s HI; [done|]. cbn. apply IH. by apply pinv_pstep. Qed.
End proofs.
