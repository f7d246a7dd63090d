(** Proofs about the synchronous engine. *)
From Verif Require Import Base Engine_Spec Engine_Model Engine_Proofs Sync_Spec Sync_Model.

Lemma visits_app v l l' : visits v (l ++ l') = visits v l ++ visits v l'.
Proof. unfold visits. apply omap_app. Qed.

Section facts.
Context (a : alg) (owner : nat -> nat).

(** What one operation does. *)
Lemma exec_facts (s : est a) t o rest : (forall v, o <> Dec v) -> let s' := exec_op a owner s t o rest in
  exists new, todo s' = upd (todo s) t (new ++ rest) /\ (forall v, Dec v ∉ new) /\
  (forall v, act s v <= act s' v /\ (act s v <= 1 -> act s' v <= 1) /\ (act s v < act s' v -> Put v ∈ new)) /\
  (forall v, unanswered (elog s') v -> (Cas v ∈ new \/ exists k, Begin v k ∈ new) \/
     (unanswered (elog s) v /\ (o = Cas v -> 0 < act s' v) /\ forall k, o <> Begin v k)).
Proof.
  intros Hnd. assert (Hmd : forall (src : nat) (ms : list (nat * msg_t a)) v, Dec v ∉ map (fun '(d, m) => Merge src d m) ms).
  { intros src ms v Hin. apply elem_of_list_fmap in Hin. destruct Hin as ([d m] & E & _). discriminate. }
  destruct o as [src d m|d|d|v|v k|v k i got|l|v m]; cbn [exec_op].
  - destruct (merge a m src d (box s d)) as [b [|]].
    + exists [Cas d]. cbn. split_and!; [done|by intros v ?%elem_of_list_singleton|intros; split_and!; [lia|lia|lia]|].
      intros v Hu. destruct (unanswered_app_told _ _ _ Hu) as [->|Hu']; [left; left; apply elem_of_list_here|right; done].
    + exists []. cbn. split_and!; [done|by intros v ?%elem_of_nil|intros; split_and!; [lia|lia|lia]|]. intros v Hu. right. done.
  - destruct (Nat.eqb_spec (act s d) 0) as [Hz|Hz].
    + exists [Put d]. cbn. split_and!; [done|by intros v ?%elem_of_list_singleton| |].
      * intros v. destruct (decide (v = d)) as [->|Hne]; us; [split_and!; [lia|lia|intros; apply elem_of_list_here]|split_and!; [lia|lia|lia]].
      * intros v Hu. right. split_and!; [done| |done]. intros [= ->]. us. lia.
    + exists []. cbn. split_and!; [done|by intros v ?%elem_of_nil|intros; split_and!; [lia|lia|lia]|]. intros v Hu. right. split_and!; [done| |done]. intros [= ->]. lia.
  - exists []. cbn. split_and!; [done|by intros v ?%elem_of_nil|intros; split_and!; [lia|lia|lia]|]. intros v Hu. right. done.
  - by destruct (Hnd v).
  - exists [Scan v k 0 []]. cbn. split_and!; [done|by intros w ?%elem_of_list_singleton|intros; split_and!; [lia|lia|lia]|].
    intros w Hu. right. destruct (unanswered_app_began _ _ _ Hu) as [Hne Hu']. split_and!; [done|done|]. intros k' [= -> _]. done.
  - destruct (box s v !! i) as [c|].
    + destruct (take a c) as [c' x]. exists [Scan v k (S i) (got ++ [x])]. cbn. split_and!; [done|by intros w ?%elem_of_list_singleton|intros; split_and!; [lia|lia|lia]|].
      intros w Hu. right. done.
    + destruct (react a v k (prop s v) (edges s v) got) as [[p ms] ms'].
      exists (map (fun '(d, m) => Merge v d m) ms ++ [Else (map (fun '(d, m) => (v, d, m)) ms')]). cbn. split_and!.
      * by rewrite <- app_assoc.
      * intros w [Hin|Hin%elem_of_list_singleton]%elem_of_app; [by apply Hmd in Hin|done].
      * intros; split_and!; [lia|lia|lia].
      * intros w Hu. right. done.
  - destruct (sent s t =? 0)%nat.
    + exists (map (fun '(v, d, m) => Merge v d m) l). cbn. split_and!; [done| |intros; split_and!; [lia|lia|lia]|].
      * intros w Hin. apply elem_of_list_fmap in Hin. destruct Hin as ([[? d] m] & ? & _). discriminate.
      * intros w Hu. right. done.
    + exists []. cbn. split_and!; [done|by intros v ?%elem_of_nil|intros; split_and!; [lia|lia|lia]|]. intros v Hu. right. done.
  - destruct (merge a m v v (box s v)) as [b [|]].
    + exists [Begin v KUpd]. cbn. split_and!; [done|by intros w ?%elem_of_list_singleton|intros; split_and!; [lia|lia|lia]|].
      intros w Hu. destruct (unanswered_app_told _ _ _ Hu) as [->|Hu']; [left; right; eexists; apply elem_of_list_here|right; done].
    + exists []. cbn. split_and!; [done|by intros w ?%elem_of_nil|intros; split_and!; [lia|lia|lia]|]. intros w Hu. right. done.
Qed.

End facts.

Lemma in_all n verts v : v ∈ all_verts n verts <-> exists t i, (t < n)%nat /\ verts t !! i = Some v.
Proof.
  unfold all_verts. rewrite elem_of_list_In, in_concat. split.
  - intros (l & Hl & Hv). apply in_map_iff in Hl. destruct Hl as (t & <- & Ht). apply in_seq in Ht.
    apply elem_of_list_In, elem_of_list_lookup_1 in Hv. destruct Hv as [i Hi]. exists t, i. split; [lia|done].
  - intros (t & i & Ht & Hi). exists (verts t). split; [apply in_map, in_seq; lia|]. apply elem_of_list_In. by eapply elem_of_list_lookup_2.
Qed.

Section proofs.
Context (a : alg) (owner : nat -> nat) (n : nat) (verts : nat -> list nat).
Context (Hverts : forall t v, v ∈ verts t -> owner v = t) (Hnodup : forall t, NoDup (verts t)).

Definition swaking (s : sst a) (v : nat) : Prop :=
  0 < act (sbase s) v \/ exists t, (t < n)%nat /\ (Cas v ∈ todo (sbase s) t \/ (exists k, Begin v k ∈ todo (sbase s) t) \/ sacc s t = Some v).

(** The events of the present round. *)
Definition present (s : sst a) (snap : nat -> nat) (l : list sevent) : Prop :=
  no_round l /\ forall t i v, (t < n)%nat -> verts t !! i = Some v ->
    ((i < spos s t)%nat -> exists b, visits v l = [b] /\ ((0 < snap v)%nat -> b = true)) /\
    (~ (i < spos s t)%nat -> visits v l = [] /\ (snap v <= act (sbase s) v)%nat).

Record sinv (s : sst a) : Prop := Sinv {
  v_one : forall v, act (sbase s) v <= 1;
  v_nodec : forall t v, Dec v ∉ todo (sbase s) t;
  v_range : forall t, ~ (t < n)%nat -> todo (sbase s) t = [] /\ sacc s t = None;
  v_told : forall v, unanswered (elog (sbase s)) v -> swaking s v;
  v_pos : forall t, (t < n)%nat -> (spos s t <= length (verts t))%nat;
  v_vis : forall t i v, (t < n)%nat -> verts t !! i = Some v -> (i < spos s t)%nat -> 0 < act (sbase s) v ->
    (exists k, (k < n)%nat /\ Put v ∈ todo (sbase s) k) \/ 0 < sumt (stact s) n;
  v_done : sdone s = true -> sumt (stact s) n = 0 /\ forall t, (t < n)%nat -> through a verts s t = true;
  v_past : forall l1 snap l2 snap' l3, slog s = l1 ++ Round snap :: l2 ++ Round snap' :: l3 -> no_round l2 -> round_ok (all_verts n verts) snap l2;
  v_now : exists l1 snap l2, slog s = l1 ++ Round snap :: l2 /\ present s snap l2 }.

Lemma sinv_start e : (forall t, todo e t = []) -> (forall v, act e v <= 1) -> (forall v, unanswered (elog e) v -> 0 < act e v) -> sinv (sstart a e).
Proof.
  intros Ht H1 Hu. constructor; cbn; try done.
  - intros t v. rewrite Ht. by intros ?%elem_of_nil.
  - intros v Hv. left. by apply Hu.
  - intros; lia.
  - intros; lia.
  - intros l1 snap l2 snap' l3 E. destruct l1 as [|x l1]; [|destruct l1; simplify_eq/=]. simplify_eq/=. by destruct l2.
  - exists [], (act e), []. split; [done|]. split; [by intros ? ?%elem_of_nil|]. intros t i v Htn Hi. cbn. split; [lia|done].
Qed.

Lemma no_round_tail l1 snap l2 l1' snap' l2' : l1 ++ Round snap :: l2 = l1' ++ Round snap' :: l2' -> no_round l2 -> no_round l2' ->
  l1 = l1' /\ snap = snap' /\ l2 = l2'.
Proof.
  revert l1'. induction l1 as [|x l1 IH]; intros [|y l1'] E H2 H2'; simplify_eq/=.
  - done.
  - exfalso. apply (H2 snap'). apply elem_of_app. right. apply elem_of_list_here.
  - exfalso. apply (H2' snap). apply elem_of_app. right. apply elem_of_list_here.
  - destruct (IH l1' ltac:(assumption) H2 H2') as (-> & -> & ->). done.
Qed.
(** The last round marker of a log that is followed by another one. *)
Lemma past_extend l e l1 snap l2 snap' l3 : (forall sn, e <> Round sn) -> l ++ [e] = l1 ++ Round snap :: l2 ++ Round snap' :: l3 ->
  exists l3', l = l1 ++ Round snap :: l2 ++ Round snap' :: l3'.
Proof.
  intros He E. destruct l3 as [|x l3] using rev_ind.
  - exfalso. replace (l1 ++ Round snap :: l2 ++ [Round snap']) with ((l1 ++ Round snap :: l2) ++ [Round snap']) in E by (by rewrite <- app_assoc).
    apply app_inj_tail in E. destruct E as [_ ->]. by eapply He.
  - exists l3. replace (l1 ++ Round snap :: l2 ++ Round snap' :: l3 ++ [x]) with ((l1 ++ Round snap :: l2 ++ Round snap' :: l3) ++ [x]) in E
      by (by rewrite <- !app_assoc, <- !app_comm_cons, <- !app_assoc).
    by apply app_inj_tail in E as [-> _].
Qed.

Lemma sinv_exec s t o rest : sinv s -> (t < n)%nat -> sdone s = false -> todo (sbase s) t = o :: rest ->
  sinv (Sst (exec_op a owner (sbase s) t o rest) (spos s) (sacc s)
          (match o with Put _ => upd (stact s) t (S (stact s t)) | _ => stact s end) false (slog s)).
Proof.
  intros HI Ht Hd Ho.
  assert (Hnd : forall v, o <> Dec v) by (intros v ->; apply (v_nodec _ HI t v); rewrite Ho; apply elem_of_list_here).
  destruct (exec_facts a owner (sbase s) t o rest Hnd) as (new & Et & Hnew & Ha & Hu). set (s' := exec_op a owner (sbase s) t o rest) in *.
  assert (Hrest : forall o', o' ∈ rest -> o' ∈ todo s' t) by (intros o' Hin; rewrite Et; us; apply elem_of_app; by right).
  assert (Hsum : sumt (stact s) n <= sumt (match o with Put _ => upd (stact s) t (S (stact s t)) | _ => stact s end) n /\
                 ((exists d, o = Put d) -> 0 < sumt (match o with Put _ => upd (stact s) t (S (stact s t)) | _ => stact s end) n)).
  { destruct o; try (split; [lia|intros [? [=]]]).
    pose proof (sumt_change (upd (stact s) t (S (stact s t))) (stact s) n t Ht) as Hc.
    rewrite upd_eq in Hc. specialize (Hc ltac:(intros; by us)). lia. }
  destruct Hsum as [Hsum1 Hsum2].
  constructor; cbn.
  - intros v. apply Ha, (v_one _ HI).
  - intros k v. rewrite Et. destruct (decide (k = t)) as [->|]; us; [|apply (v_nodec _ HI)]. intros [Hin|Hin]%elem_of_app; [by apply Hnew in Hin|].
    apply (v_nodec _ HI t v). rewrite Ho. by apply elem_of_list_further.
  - intros k Hk. rewrite Et. rewrite upd_ne by lia. by apply (v_range _ HI).
  - intros v Hv. destruct (Hu v Hv) as [Hn|(Hv' & Hcas & Hbeg)].
    + right. exists t. split; [done|]. cbn. rewrite Et. us. destruct Hn as [Hn|[k Hn]]; [left|right; left; exists k]; apply elem_of_app; by left.
    + destruct (v_told _ HI v Hv') as [Hp|(k & Hk & Hw)]; [left; cbn; pose proof (Ha v); lia|].
      destruct (decide (k = t)) as [->|Hne].
      * rewrite Ho in Hw. destruct Hw as [Hw|[[kd Hw]|Hw]].
        -- apply elem_of_cons in Hw. destruct Hw as [<-|Hw]; [left; by apply Hcas|right]. exists t. split; [done|]. left. by apply Hrest.
        -- apply elem_of_cons in Hw. destruct Hw as [<-|Hw]; [by destruct (Hbeg kd)|right]. exists t. split; [done|]. right. left. exists kd. by apply Hrest.
        -- right. exists t. split; [done|]. by right; right.
      * right. exists k. split; [done|]. cbn. rewrite Et. by us.
  - apply (v_pos _ HI).
  - intros k i v Hk Hi Hp Hact. destruct (decide (0 < act (sbase s) v)) as [Hb|Hb].
    + destruct (v_vis _ HI k i v Hk Hi Hp Hb) as [(j & Hj & Hput)|?]; [|right; lia]. destruct (decide (j = t)) as [->|Hne].
      * rewrite Ho in Hput. apply elem_of_cons in Hput. destruct Hput as [<-|Hput]; [right; apply Hsum2; eauto|left; exists t; split; [done|by apply Hrest]].
      * left. exists j. split; [done|]. rewrite Et. by us.
    + left. exists t. split; [done|]. rewrite Et. us. apply elem_of_app. left. apply Ha. lia.
  - done.
  - apply (v_past _ HI).
  - destruct (v_now _ HI) as (l1 & snap & l2 & E & Hnr & Hp). exists l1, snap, l2. split; [done|]. split; [done|].
    intros k i v Hk Hi. destruct (Hp k i v Hk Hi) as [Hp1 Hp2]. cbn. split; [done|]. intros Hn. destruct (Hp2 Hn). split; [done|]. pose proof (Ha v). lia.
Qed.

Lemma lookup_unique t t' i i' v : verts t !! i = Some v -> verts t' !! i' = Some v -> t = t' /\ i = i'.
Proof.
  intros H1 H2. pose proof (Hverts _ _ (elem_of_list_lookup_2 _ _ _ H1)) as <-. pose proof (Hverts _ _ (elem_of_list_lookup_2 _ _ _ H2)) as <-.
  split; [done|]. by eapply NoDup_lookup.
Qed.

Lemma sinv_sstep s t : sinv s -> sinv (sstep a owner n verts s t).
Proof.
  intros HI. unfold sstep. destruct (sdone s) eqn:Hd; [done|]. destruct (Nat.ltb_spec t n) as [Ht|]; [|done]. cbn [negb orb].
  destruct (todo (sbase s) t) as [|o rest] eqn:Ho; [|by apply sinv_exec]. destruct (sacc s t) as [v|] eqn:Hacc.
  - (* Accept *)
    constructor; cbn.
    + apply (v_one _ HI).
    + intros k w. destruct (decide (k = t)) as [->|]; us; [by intros ?%elem_of_list_singleton|apply (v_nodec _ HI)].
    + intros k Hk. rewrite !upd_ne by lia. by apply (v_range _ HI).
    + intros w Hw. destruct (v_told _ HI w Hw) as [?|(k & Hk & Hc)]; [by left|right]. exists k. split; [done|]. cbn.
      destruct (decide (k = t)) as [->|]; us; [|done]. rewrite Ho, Hacc in Hc. right. left. destruct Hc as [Hc|[[? Hc]|Hc]]; try by apply elem_of_nil in Hc.
      injection Hc as ->. eexists. apply elem_of_list_here.
    + apply (v_pos _ HI).
    + intros k i w Hk Hi Hp Hact. destruct (v_vis _ HI k i w Hk Hi Hp Hact) as [(j & Hj & Hput)|?]; [left|by right]. exists j. split; [done|].
      destruct (decide (j = t)) as [->|]; us; [|done]. rewrite Ho in Hput. by apply elem_of_nil in Hput.
    + done.
    + apply (v_past _ HI).
    + destruct (v_now _ HI) as (l1 & snap & l2 & E & Hnr & Hp). exists l1, snap, l2. split; [done|]. split; [done|]. intros k i w Hk Hi. exact (Hp k i w Hk Hi).
  - destruct (verts t !! spos s t) as [v|] eqn:Hv.
    + (* a visit *)
      assert (Hother : forall k i w, verts k !! i = Some w -> (k, i) <> (t, spos s t) -> w <> v).
      { intros k i w Hi Hne ->. destruct (lookup_unique _ _ _ _ _ Hi Hv) as [-> ->]. done. }
      pose proof (lookup_lt_Some _ _ _ Hv) as Hlt.
      set (active := (act (sbase s) v =? 1)%nat).
      assert (Hacc' : forall k w, sacc s k = Some w -> (if active then upd (sacc s) t (Some v) else sacc s) k = Some w).
      { intros k w Hk. destruct active; [|done]. destruct (decide (k = t)) as [->|]; us; [congruence|done]. }
      constructor; cbn.
      * intros w. destruct (decide (w = v)) as [->|]; us; [lia|apply (v_one _ HI)].
      * apply (v_nodec _ HI).
      * intros k Hk. destruct (v_range _ HI k Hk) as [H1 H2]. split; [done|]. destruct active; [|done]. by rewrite upd_ne by lia.
      * intros w Hw. destruct (v_told _ HI w Hw) as [Hp|(k & Hk & Hc)].
        -- destruct (decide (w = v)) as [->|Hne]; [|left; cbn; by us]. right. exists t. split; [done|]. right. right. cbn.
           pose proof (v_one _ HI v). assert (active = true) as -> by (apply Nat.eqb_eq; lia). by us.
        -- right. exists k. split; [done|]. cbn. destruct Hc as [?|[?|?]]; [by left|by right; left|right; right; by apply Hacc'].
      * intros k Hk. destruct (decide (k = t)) as [->|]; us; [lia|by apply (v_pos _ HI)].
      * intros k i w Hk Hi Hp Hact.
        assert (Hwv : w <> v) by (intros ->; us; lia). rewrite (upd_ne _ v w) in Hact by done.
        apply (v_vis _ HI k i w Hk Hi); [|done]. destruct (decide (k = t)) as [->|]; us; [|done].
        destruct (decide (i = spos s t)) as [->|]; [|lia]. rewrite Hv in Hi. congruence.
      * done.
      * intros l1 snap l2 snap' l3 E. assert (Hnr : forall sn, Visit v active <> Round sn) by done. destruct (past_extend _ _ _ _ _ _ _ Hnr E) as [l3' E']. by apply (v_past _ HI _ _ _ _ _ E').
      * destruct (v_now _ HI) as (l1 & snap & l2 & E & Hnr & Hp). exists l1, snap, (l2 ++ [Visit v active]).
        split; [by rewrite E, <- app_assoc|]. split.
        { intros sn [?|?%elem_of_list_singleton]%elem_of_app; [by eapply Hnr|done]. }
        intros k i w Hk Hi. cbn. rewrite visits_app. cbn. destruct (decide ((k, i) = (t, spos s t))) as [[= -> ->]|Hne].
        -- rewrite Hv in Hi. injection Hi as <-. rewrite Nat.eqb_refl. us. destruct (Hp t (spos s t) v Ht Hv) as [_ Hp2].
           destruct (Hp2 ltac:(lia)) as [-> Hsn]. split; [|lia]. intros _. exists active. split; [done|]. intros Hs. pose proof (v_one _ HI v). apply Nat.eqb_eq. lia.
        -- pose proof (Hother k i w Hi Hne) as Hwv. destruct (Nat.eqb_spec v w) as [->|_]; [done|]. rewrite app_nil_r, (upd_ne _ v w) by done.
           destruct (Hp k i w Hk Hi) as [Hp1 Hp2]. destruct (decide (k = t)) as [->|]; us; [|done].
           assert (i <> spos s t) by congruence. split; [intros; apply Hp1; lia|intros; apply Hp2; lia].
    + destruct (forallb (through a verts s) (seq 0 n)) eqn:Hall; [|done].
      assert (Hth : forall k, (k < n)%nat -> through a verts s k = true).
      { intros k Hk. rewrite forallb_forall in Hall. apply Hall, in_seq. lia. }
      destruct (Nat.eqb_spec (sumt (stact s) n) 0) as [Hz|Hz].
      * destruct HI. by constructor.
      * constructor; cbn.
        -- apply (v_one _ HI).
        -- apply (v_nodec _ HI).
        -- apply (v_range _ HI).
        -- apply (v_told _ HI).
        -- intros; lia.
        -- intros; lia.
        -- done.
        -- intros l1 snap l2 snap' l3 E Hnr. destruct l3 as [|x l3] using rev_ind.
           ++ replace (l1 ++ Round snap :: l2 ++ [Round snap']) with ((l1 ++ Round snap :: l2) ++ [Round snap']) in E by (by rewrite <- app_assoc).
              apply app_inj_tail in E. destruct E as [E _]. destruct (v_now _ HI) as (l1' & sn & l2' & E' & Hnr' & Hp). rewrite E' in E.
              destruct (no_round_tail _ _ _ _ _ _ E Hnr' Hnr) as (<- & <- & <-).
              intros v Hin. apply in_all in Hin. destruct Hin as (k & i & Hk & Hi). apply (Hp k i v Hk Hi).
              pose proof (Hth k Hk) as Hthk. unfold through in Hthk. rewrite !andb_true_iff, Nat.eqb_eq in Hthk. destruct Hthk as [_ ->].
              by eapply lookup_lt_Some.
           ++ apply (v_past _ HI l1 snap l2 snap' l3); [|done].
              replace (l1 ++ Round snap :: l2 ++ Round snap' :: l3 ++ [x]) with ((l1 ++ Round snap :: l2 ++ Round snap' :: l3) ++ [x]) in E
                by (by rewrite <- !app_assoc, <- !app_comm_cons, <- !app_assoc).
              by apply app_inj_tail in E as [-> _].
        -- exists (slog s), (act (sbase s)), []. split; [done|]. split; [by intros ? ?%elem_of_nil|]. intros k i v Hk Hi. split; [cbn; lia|]. done.
Qed.

Lemma sinv_srun sched : forall s, sinv s -> sinv (srun a owner n verts s sched).
Proof. induction sched as [|t l IH]; intros s HI; [done|]. cbn. apply IH. by apply sinv_sstep. Qed.
End proofs.
