(** The PageRank balance in whole runs. *)
From Verif Require Import Base RBO_Spec QcUtil Engine_Spec Engine_Model Engine_Proofs Engine_Shape Rank_Spec Rank_Model Rank_Proofs.
From Coq Require Import QArith Qcanon.
Open Scope nat_scope.

Lemma total_snoc (l : list Qc) y : (total (l ++ [y]) = total l + y)%Qc.
Proof. unfold total. induction l as [|z l IH]; cbn [foldr app]; [ring|]. rewrite IH. ring. Qed.

Section run.
Context (owner : nat -> nat) (n : nat) (Hown : forall v, owner v < n) (N : nat).
Notation est := (est ranking).
Notation op := (op ranking).
Notation rinv := (rinv owner n N).
Notation held := (held n).
Notation passed := (passed owner N).
Notation out := (out owner).

Definition quiet_op (o : op) : Prop := match o with Begin _ _ | Scan _ _ _ _ => False | _ => True end.
Lemma op_step s t o rest l0 s' : rinv s -> todo s t = o :: rest -> todo s' = upd (todo s) t (l0 ++ rest) -> (forall v, edges s' v = edges s v) ->
  (forall v, prop s' v = prop s v) -> (forall v, length (box s' v) = length (box s v)) ->
  (forall w es, seen w (l0 ++ rest) es = seen w (o :: rest) es) -> (forall l, Else l ∈ l0 -> l = []) ->
  (forall v k, (Begin v k ∈ l0 \/ exists i got, Scan v k i got ∈ l0) -> sane k (edges s v)) ->
  shaped ranking owner s' -> wake ranking owner n s' ->
  (forall x, total (box s' x) + transit x l0 = total (box s x) + carried x o)%Qc ->
  rinv s' /\ forall x, (held s' x - passed s' x = held s x - passed s x)%Qc.
Proof.
  intros [A1 A2 A3 A4 A5 A6] Et Et' Ee Ep Hb Hseen Helse Hsane B1 B2 Hsum.
  assert (Ht : t < n) by (apply (w_mine _ _ _ _ A2 t o); rewrite Et; apply elem_of_list_here).
  assert (Hout : forall w, out s' w = out s w).
  { intros w. unfold Rank_Proofs.out. rewrite Et', Ee. destruct (decide (owner w = t)) as [E|E]; us; [|done]. by rewrite E, upd_eq, Et. }
  split.
  - constructor; try done.
    + intros v. by rewrite Hb.
    + intros k l. rewrite Et'. destruct (decide (k = t)) as [->|Hk]; us; [|apply A4]. intros [H|H]%elem_of_app; [by apply Helse|].
      apply (A4 t). rewrite Et. by apply elem_of_list_further.
    + intros k v kd H. rewrite Ee. rewrite Et' in H. destruct (decide (k = t)) as [->|Hk]; us; [|by apply (A5 k)].
      rewrite elem_of_app in H. destruct H as [[H|H]|(i & got & H)].
      * apply Hsane. by left.
      * apply (A5 t). left. rewrite Et. by apply elem_of_list_further.
      * apply elem_of_app in H. destruct H as [H|H]; [apply Hsane; right; by exists i, got|]. apply (A5 t). right. exists i, got. rewrite Et. by apply elem_of_list_further.
    + intros w Hw. rewrite Ee, Hout. by apply A6.
  - intros x. rewrite (keep_held n s s' t x) by (try done; intros k Hk; rewrite Et'; by us).
    rewrite (keep_passed owner N s s' x) by (intros w _; try done; by rewrite Hout).
    rewrite Et', upd_eq, Et, transit_app. cbn [transit]. specialize (Hsum x).
    transitivity (held s x + (total (box s' x) + transit x l0) - (total (box s x) + carried x o) - passed s x)%Qc; [ring|]. rewrite Hsum. ring.
Qed.

Lemma start_step s t s' l (init : nat -> Qc) : rinv s -> t < n -> todo s t = [] -> todo s' = upd (todo s) t l -> (forall v, prop s' v = prop s v) -> (forall v, box s' v = box s v) ->
  (forall v, owner v <> t -> edges s' v = edges s v) -> (forall w, owner w = t -> same_out (seen w l (edges s' w)) (map fst (edges s w))) ->
  (forall w, N <= w -> edges s' w = []) ->
  (forall l', Else l' ∈ l -> l' = []) -> (forall v k, (Begin v k ∈ l \/ exists i got, Scan v k i got ∈ l) -> sane k (edges s' v)) ->
  shaped ranking owner s' -> wake ranking owner n s' -> (forall x, transit x l = init x) ->
  rinv s' /\ forall x, (held s' x - passed s' x = held s x - passed s x + init x)%Qc.
Proof.
  intros [A1 A2 A3 A4 A5 A6] Ht Et Et' Ep Eb Ee Ho Hlow Helse Hsane B1 B2 Hinit.
  assert (Hout : forall w, same_out (out s' w) (out s w)).
  { intros w. unfold Rank_Proofs.out. rewrite Et'. destruct (decide (owner w = t)) as [E|E]; us; [|by rewrite Ee].
    rewrite E, upd_eq, Et. cbn [seen]. by apply Ho. }
  split.
  - constructor; try done.
    + intros v. by rewrite Eb.
    + intros k l'. rewrite Et'. destruct (decide (k = t)) as [->|Hk]; us; [apply Helse|apply A4].
    + intros k v kd H. rewrite Et' in H. destruct (decide (k = t)) as [->|Hk]; us; [by apply Hsane|].
      rewrite Ee; [by apply (A5 k)|].
      assert (Hv : owner v = k); [|congruence]. destruct H as [H|(i & got & H)].
      * by apply (w_mine _ _ _ _ A2 k (Begin v kd)) in H as [_ H].
      * by apply (w_mine _ _ _ _ A2 k (Scan v kd i got)) in H as [_ H].
    + intros w Hw. split; [by apply Hlow|]. destruct (Hout w) as [H _]. rewrite (proj2 (A6 w Hw)) in H. by destruct (out s' w).
  - intros x. rewrite (keep_held n s s' t x) by (try done; intros k Hk; rewrite Et'; by us).
    rewrite (keep_passed owner N s s' x) by (intros w _; done).
    rewrite Et', upd_eq, Et, Eb, Hinit. cbn [transit]. ring.
Qed.

Lemma react_step s t v k i got rest p ms ms' : rinv s -> todo s t = Scan v k i got :: rest -> react ranking v k (prop s v) (edges s v) got = (p, ms, ms') ->
  let s' := Est (box s) (act s) (queue s) (upd (prop s) v p) (edges s)
     (upd (todo s) t (map (fun '(d, m) => Merge (a := ranking) v d m) ms ++ Else (map (fun '(d, m) => (v, d, m)) ms') :: rest)) (sent s) (elog s) in
  shaped ranking owner s' -> wake ranking owner n s' ->
  rinv s' /\ forall x, (held s' x - passed s' x = held s x - passed s x)%Qc.
Proof.
  intros [A1 A2 A3 A4 A5 A6] Et Er s' B1 B2.
  destruct (w_mine _ _ _ _ A2 t (Scan v k i got)) as [Ht Ev]; [rewrite Et; apply elem_of_list_here|]. cbn in Ev.
  assert (Hrest : rest = []).
  { pose proof (A1 t) as Hsh. rewrite Et in Hsh. apply shape_cons in Hsh.
    destruct Hsh as [(?&?&?)|[(?&?&?&?)|[(?&?&?&?)|[(?&?&?&?&?&?&?)|[(?&?&?&?)|(?&_&Hx&_)]]]]]; done. }
  subst rest.
  assert (Hsane : sane k (edges s v)). { apply (A5 t). right. exists i, got. rewrite Et. apply elem_of_list_here. }
  destruct (react_balance v k (prop s v) (edges s v) got p ms ms' Hsane Er) as (-> & Hp & Hm).
  assert (Hsm : forall w es, seen w (map (fun '(d, m) => Merge (a := ranking) v d m) ms ++ [Else (a := ranking) []]) es = map fst es).
  { intros w es. clear. induction ms as [|[d m] ms IH]; [done|]. cbn [map app seen]. done. }
  assert (Hout : forall w, w <> v -> out s' w = out s w).
  { intros w Hw. unfold Rank_Proofs.out. cbn. destruct (decide (owner w = t)) as [E|E]; us; [|done]. rewrite E, upd_eq, Et, Hsm. cbn [seen].
    destruct (Nat.eqb_spec v w); [congruence|]. done. }
  assert (Hov : out s v = prior k (edges s v)). { unfold Rank_Proofs.out. rewrite Ev, Et. cbn [seen]. by rewrite Nat.eqb_refl. }
  assert (Hov' : out s' v = map fst (edges s v)). { unfold Rank_Proofs.out. cbn. by rewrite Ev, upd_eq, Hsm. }
  split.
  - constructor; try done.
    + intros k' l. cbn. destruct (decide (k' = t)) as [->|Hk]; us; [|apply A4]. intros [H|H]%elem_of_app.
      * apply elem_of_list_fmap in H. by destruct H as ([d m] & ? & _).
      * apply elem_of_list_singleton in H. by injection H as ->.
    + intros k' v' kd H. cbn in *. destruct (decide (k' = t)) as [->|Hk]; [|rewrite upd_ne in H by done; by apply (A5 k')].
      rewrite upd_eq in H. exfalso. destruct H as [H|(i' & got' & H)]; (apply elem_of_app in H; destruct H as [H|H];
        [apply elem_of_list_fmap in H; by destruct H as ([d m] & ? & _)|by apply elem_of_list_singleton in H]).
    + intros w Hw. split; [by apply A6|]. destruct (decide (w = v)) as [->|Hne]; [|rewrite Hout by done; by apply A6].
      rewrite Hov', (proj1 (A6 v Hw)). done.
  - intros x.
    assert (Hh : (held s' x = held s x + brought x ms)%Qc).
    { unfold Rank_Proofs.held. rewrite (qsum_change (fun t => transit x (todo s t)) (fun t => transit x (todo s' t)) n t Ht) by (intros k' _ Hne; cbn; by us).
      cbn [todo s']. rewrite upd_eq, Et, transit_app, transit_merges. cbn [transit carried box prop s'].
      destruct (Nat.eqb_spec v x) as [->|Hne].
      - rewrite upd_eq. transitivity (total (box s x) + (qsum (fun t0 => transit x (todo s t0)) n) + brought x ms + (fst p + snd p * idx) - total got)%Qc; [ring|].
        rewrite Hp. ring.
      - rewrite upd_ne by congruence. ring. }
    assert (Hq : (passed s' x = passed s x + brought x ms)%Qc).
    { unfold Rank_Proofs.passed. destruct (decide (v < N)) as [Hv|Hv].
      - rewrite (qsum_change (fun w => share (snd (prop s w)) (out s w) x) (fun w => share (snd (prop s' w)) (out s' w) x) N v Hv).
        + assert (Hx : share (snd (prop s' v)) (out s' v) x = (brought x ms + share (snd (prop s v)) (out s v) x)%Qc).
          { rewrite Hov, Hov'. cbn [prop s']. rewrite upd_eq. symmetry. exact (Hm x). }
          rewrite Hx. ring.
        + intros w _ Hne. rewrite Hout by done. cbn [prop s']. by rewrite upd_ne.
      - assert (Hb : brought x ms = 0%Qc).
        { specialize (Hm x). rewrite <- Hov in Hm. rewrite (proj2 (A6 v ltac:(lia))), (proj1 (A6 v ltac:(lia))) in Hm.
          unfold share in Hm. change (copies x []) with 0 in Hm. change (copies x (map fst [])) with 0 in Hm. rewrite QcUtil.inj_0, !Qcmult_0_l, Qcplus_0_r in Hm. done. }
        rewrite Hb, Qcplus_0_r. apply qsum_ext. intros w Hw. rewrite Hout by lia. cbn [prop s']. rewrite upd_ne by lia. done. }
    rewrite Hh, Hq. ring.
Qed.

Definition low (c : choice ranking) : Prop := match c with AddEdges v _ => v < N | _ => True end.
Definition init_of (s : est) (t : nat) (c : choice ranking) (x : nat) : Qc :=
  match c, todo s t with SendInit w m, [] => if (w =? x) && (owner w =? t) then m else 0 | _, _ => 0 end%Qc.

Lemma balance_step s t c : rinv s -> low c ->
  rinv (estep ranking owner s t c) /\
  forall x, (held (estep ranking owner s t c) x - passed (estep ranking owner s t c) x = held s x - passed s x + init_of s t c x)%Qc.
Proof.
  intros Hs Hlow.
  assert (B1 : shaped ranking owner (estep ranking owner s t c)).
  { apply shaped_estep; [apply (r_shape _ _ _ _ Hs)|]. apply (w_queue _ _ _ _ (r_wake _ _ _ _ Hs)). }
  assert (B2 : wake ranking owner n (estep ranking owner s t c)) by (apply wake_estep; [done|apply (r_wake _ _ _ _ Hs)]).
  assert (Hsame : rinv s /\ forall x, (held s x - passed s x = held s x - passed s x + 0)%Qc) by (split; [done|intros x; ring]).
  revert B1 B2. unfold estep, init_of. destruct (todo s t) as [|o rest] eqn:Et.
  - destruct c as [| |v es|v gone|v m]; try done.
    + destruct (queue s t) as [|v q] eqn:Eq; [done|]. intros B1 B2.
      assert (Ev : owner v = t) by (apply (w_queue _ _ _ _ (r_wake _ _ _ _ Hs)); rewrite Eq; apply elem_of_list_here).
      eapply (start_step s t _ [Dec (a := ranking) v; Begin (a := ranking) v KUpd] (fun _ => 0%Qc)); try done.
      * by rewrite <- Ev.
      * intros w _. cbn. by destruct (v =? w).
      * intros w Hw. by apply (r_low _ _ _ _ Hs).
      * intros l. by intros [?|[?|?%elem_of_nil]%elem_of_cons]%elem_of_cons.
      * intros w k [H|(i & got & H)]; (apply elem_of_cons in H; destruct H as [?|H]; [done|]; apply elem_of_list_singleton in H); [by injection H as -> ->|done].
    + destruct (Nat.eqb_spec (owner v) t) as [Ev|]; [|done]. intros B1 B2.
      eapply (start_step s t _ [Begin (a := ranking) v (KAdd (length (edges s v)))] (fun _ => 0%Qc)); try done.
      * by rewrite <- Ev.
      * intros w Hw. cbn. rewrite upd_ne; [done|congruence].
      * intros w _. cbn [seen set_edges start_task edges]. destruct (Nat.eqb_spec v w) as [->|Hne]; [|by rewrite upd_ne].
        rewrite upd_eq. cbn [prior]. by rewrite take_app.
      * intros w Hw. cbn. cbn in Hlow. rewrite upd_ne by lia. by apply (r_low _ _ _ _ Hs).
      * intros l H. by apply elem_of_list_singleton in H.
      * intros w k [H|(i & got & H)]; apply elem_of_list_singleton in H; [|done]. injection H as -> ->. cbn. rewrite upd_eq, app_length. lia.
    + destruct (Nat.eqb_spec (owner v) t) as [Ev|]; [|done]. intros B1 B2.
      eapply (start_step s t _ [Begin (a := ranking) v (KDel (masked true (edges s v) gone))] (fun _ => 0%Qc)); try done.
      * by rewrite <- Ev.
      * intros w Hw. cbn. rewrite upd_ne; [done|congruence].
      * intros w _. cbn [seen set_edges start_task edges]. destruct (Nat.eqb_spec v w) as [->|Hne]; [|by rewrite upd_ne].
        rewrite upd_eq. cbn [prior]. split; [by rewrite !map_length, app_length, masked_len|]. intros x. by rewrite map_app, copies_app, copies_masked.
      * intros w Hw. cbn. unfold upd. destruct (Nat.eqb_spec w v) as [->|]; [|by apply (r_low _ _ _ _ Hs)].
        rewrite (proj1 (r_low _ _ _ _ Hs v Hw)). by destruct gone.
      * intros l H. by apply elem_of_list_singleton in H.
      * intros w k [H|(i & got & H)]; apply elem_of_list_singleton in H; [|done]. by injection H as -> ->.
    + destruct (Nat.eqb_spec (owner v) t) as [Ev|]; [|intros _ _; split; [done|intros x; rewrite andb_false_r; ring]]. intros B1 B2.
      eapply (start_step s t _ [Init (a := ranking) v m] (fun x => if (v =? x) && true then m else 0%Qc)); try done.
      * by rewrite <- Ev.
      * intros w Hw. by apply (r_low _ _ _ _ Hs).
      * intros l H. by apply elem_of_list_singleton in H.
      * intros w k [H|(i & got & H)]; by apply elem_of_list_singleton in H.
      * intros x. cbn [transit carried]. rewrite andb_true_r. destruct (v =? x); ring.
  - assert (E0 : forall x, match c with SendInit _ _ => 0%Qc | _ => 0%Qc end = 0%Qc) by (by destruct c).
    destruct c as [| |v es|v gone|v m]; try done. intros B1 B2.
    assert (Hz : rinv (exec_op ranking owner s t o rest) /\ (forall x, (held (exec_op ranking owner s t o rest) x - passed (exec_op ranking owner s t o rest) x = held s x - passed s x)%Qc) ->
      rinv (exec_op ranking owner s t o rest) /\ (forall x, (held (exec_op ranking owner s t o rest) x - passed (exec_op ranking owner s t o rest) x = held s x - passed s x + 0)%Qc)).
    { intros [H1 H2]. split; [done|]. intros x. rewrite H2. ring. }
    apply Hz. clear Hz Hsame E0.
    assert (Hmerge : forall src d m, exists y, box s d = [y] /\ fst (merge ranking m src d (box s d)) = [(y + m)%Qc]).
    { intros src d m. pose proof (r_box _ _ _ _ Hs d) as Hl. destruct (box s d) as [|y [|? ?]]; try done. by exists y. }
    destruct o as [src d m|d|d|v|v k|v k i got|l|v m].
    + destruct (Hmerge src d m) as (y & Hy & Hm). revert B1 B2. cbn [exec_op]. destruct (merge ranking m src d (box s d)) as [bx new] eqn:E. cbn [fst] in Hm. subst bx.
      assert (Hsum : forall x l0, transit x l0 = 0%Qc -> (total (upd (box s) d [(y + m)%Qc] x) + transit x l0 = total (box s x) + (if d =? x then m else 0))%Qc).
      { intros x l0 ->. destruct (Nat.eqb_spec d x) as [->|Hne]; [rewrite upd_eq, Hy; cbn [total foldr]; ring|rewrite upd_ne by congruence; ring]. }
      assert (Hlen : forall v, length (upd (box s) d [(y + m)%Qc] v) = length (box s v)).
      { intros v. unfold upd. destruct (Nat.eqb_spec v d) as [->|]; [by rewrite Hy|done]. }
      destruct new; intros B1 B2.
      * eapply (op_step s t _ rest [Cas (a := ranking) d]); try done.
        -- intros l H. by apply elem_of_list_singleton in H.
        -- intros v k [H|(i & got & H)]; by apply elem_of_list_singleton in H.
        -- intros x. apply Hsum. cbn. ring.
      * eapply (op_step s t _ rest []); try done.
        -- intros l H. by apply elem_of_nil in H.
        -- intros v k [H|(i & got & H)]; by apply elem_of_nil in H.
        -- intros x. by apply Hsum.
    + cbn [exec_op] in *. destruct (act s d =? 0).
      * eapply (op_step s t _ rest [Put (a := ranking) d]); try done.
        -- intros l H. by apply elem_of_list_singleton in H.
        -- intros v k [H|(i & got & H)]; by apply elem_of_list_singleton in H.
      * eapply (op_step s t _ rest []); try done.
        -- intros l H. by apply elem_of_nil in H.
        -- intros v k [H|(i & got & H)]; by apply elem_of_nil in H.
    + eapply (op_step s t _ rest []); try done.
      * intros l H. by apply elem_of_nil in H.
      * intros v k [H|(i & got & H)]; by apply elem_of_nil in H.
    + eapply (op_step s t _ rest []); try done.
      * intros l H. by apply elem_of_nil in H.
      * intros w k [H|(i & got & H)]; by apply elem_of_nil in H.
    + eapply (op_step s t _ rest [Scan (a := ranking) v k 0 []]); try done.
      * intros l H. by apply elem_of_list_singleton in H.
      * intros w k' [H|(i & got & H)]; apply elem_of_list_singleton in H; [done|]. injection H as -> -> -> ->.
        apply (r_sane _ _ _ _ Hs t). left. rewrite Et. apply elem_of_list_here.
      * intros x. cbn [exec_op box transit carried]. change (total []) with 0%Qc. destruct (v =? x); ring.
    + cbn [exec_op] in *. pose proof (r_box _ _ _ _ Hs v) as Hl. destruct (box s v !! i) as [y|] eqn:Ey.
      * destruct (box s v) as [|y' [|? ?]] eqn:Eb; try done. destruct i as [|i]; [|done]. injection Ey as ->. cbn [take ranking] in *.
        eapply (op_step s t _ rest [Scan (a := ranking) v k 1 (got ++ [y])]); try done.
        -- intros w. cbn. unfold upd. destruct (Nat.eqb_spec w v) as [->|]; [by rewrite Eb|done].
        -- intros l H. by apply elem_of_list_singleton in H.
        -- intros w k' [H|(j & got' & H)]; apply elem_of_list_singleton in H; [done|]. injection H as -> -> -> ->.
           apply (r_sane _ _ _ _ Hs t). right. exists 0, got. rewrite Et. apply elem_of_list_here.
        -- intros x. cbn [transit carried box]. destruct (Nat.eqb_spec v x) as [->|Hne]; [|rewrite upd_ne by congruence; ring].
           rewrite upd_eq, Eb. cbn [insert list_insert]. transitivity (total [0%Qc] + (total got + y + 0))%Qc; [|unfold total; cbn [foldr]; ring].
           f_equal. f_equal. exact (total_snoc got y).
      * destruct (react ranking v k (prop s v) (edges s v) got) as [[p ms] ms'] eqn:Er. by apply (react_step s t v k i got rest p ms ms').
    + assert (El : l = []). { apply (r_else _ _ _ _ Hs t). rewrite Et. apply elem_of_list_here. }
      subst l. eapply (op_step s t _ rest []); try done.
      * cbn. by destruct (sent s t =? 0).
      * intros l H. by apply elem_of_nil in H.
      * intros w k [H|(i & got & H)]; by apply elem_of_nil in H.
    + destruct (Hmerge v v m) as (y & Hy & Hm). revert B1 B2. cbn [exec_op]. destruct (merge ranking m v v (box s v)) as [bx new] eqn:E. cbn [fst] in Hm. subst bx.
      assert (Hsum : forall x l0, transit x l0 = 0%Qc -> (total (upd (box s) v [(y + m)%Qc] x) + transit x l0 = total (box s x) + (if v =? x then m else 0))%Qc).
      { intros x l0 ->. destruct (Nat.eqb_spec v x) as [->|Hne]; [rewrite upd_eq, Hy; cbn [total foldr]; ring|rewrite upd_ne by congruence; ring]. }
      assert (Hlen : forall w, length (upd (box s) v [(y + m)%Qc] w) = length (box s w)).
      { intros w. unfold upd. destruct (Nat.eqb_spec w v) as [->|]; [by rewrite Hy|done]. }
      assert (Hrest : rest = []).
      { pose proof (r_shape _ _ _ _ Hs t) as Hsh. rewrite Et in Hsh. apply shape_cons in Hsh.
        destruct Hsh as [(?&?&?)|[(?&?&?&?&?)|[(?&?&?&?)|[(?&?&?&?&?&?&?)|[(?&?&?&?)|(?&_&Hx&_)]]]]]; done. }
      subst rest. destruct new; intros B1 B2.
      * eapply (op_step s t _ [] [Begin (a := ranking) v KUpd]); try done.
        -- intros w es. cbn. by destruct (v =? w).
        -- intros l H. by apply elem_of_list_singleton in H.
        -- intros w k [H|(i & got & H)]; apply elem_of_list_singleton in H; [|done]. by injection H as -> ->.
        -- intros x. apply Hsum. cbn. ring.
      * eapply (op_step s t _ [] []); try done.
        -- intros l H. by apply elem_of_nil in H.
        -- intros w k [H|(i & got & H)]; by apply elem_of_nil in H.
        -- intros x. by apply Hsum.
Qed.

Lemma rinv_start es : (forall w, N <= w -> es w = []) -> rinv (rank_start es) /\ forall x, (held (rank_start es) x - passed (rank_start es) x = 0)%Qc.
Proof.
  intros He. split.
  - constructor; try done.
    + apply shaped_start.
    + apply wake_start.
    + intros t l H. by apply elem_of_nil in H.
    + intros t v k [H|(i & got & H)]; by apply elem_of_nil in H.
    + intros w Hw. unfold Rank_Proofs.out. cbn. by rewrite He.
  - intros x. unfold Rank_Proofs.held, Rank_Proofs.passed. rewrite qsum_zero by done. rewrite qsum_zero.
    + cbn. ring.
    + intros w _. unfold share. rewrite part_eq. cbn. ring.
Qed.

Lemma balance_run sched : forall s, rinv s -> (forall t c, (t, c) ∈ sched -> low c) ->
  let s' := erun ranking owner s sched in
  rinv s' /\ forall x, (held s' x - passed s' x = held s x - passed s x + given owner s sched x)%Qc.
Proof.
  induction sched as [|[t c] sched IH]; intros s Hs Hlow s'.
  - split; [done|]. intros x. cbn. ring.
  - destruct (balance_step s t c Hs) as [H1 H2]; [apply (Hlow t); apply elem_of_list_here|].
    destruct (IH (estep ranking owner s t c) H1) as [H3 H4]; [intros t' c' H; apply (Hlow t'); by apply elem_of_list_further|].
    split; [done|]. intros x. cbn [given]. etransitivity; [apply H4|]. rewrite H2. unfold init_of. destruct c; try ring; destruct (todo s t); ring.
Qed.
End run.
