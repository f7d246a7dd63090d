(** When every thread has left its loop, nothing is left, with either order of the two writes and
    on every schedule: a thread that leaves too early keeps the others from leaving. *)
From Verif Require Import Base Term_Model Term_Proofs.
Open Scope N_scope.

(** Inside a check for termination, after its first line. *)
Definition checking (p : pc) : Prop := match p with Recv _ | Look _ | Work _ _ _ | K0 => False | _ => True end.

Definition place (swap : bool) (n : nat) (s : st) (t : nat) : Prop :=
  match at_ s t with
  | Recv _ | Look _ | KUnvote => True
  | Work got _ own => 0 < got + own
  | K0 => open_ s t = false
  | KSum i acc => (i < n)%nat /\ acc <= sumf (data s) i /\ view s t + sumf (data s) i <= acc + total n s
  | KReset acc => view s t <= acc /\ acc <= total n s /\ (swap = false -> view s t = acc)
  | KViews i acc => (i < n)%nat /\ acc = view s t /\ forall k, (k < i)%nat -> view s t <= view s k
  | KSeen i acc => (i < n)%nat /\ forall k, (k < n)%nat -> view s t <= view s k
  | _ => forall k, (k < n)%nat -> view s t <= view s k
  end.
Record base (swap : bool) (n : nat) (s : st) : Prop := Bas {
  b_dc : forall t, (t < n)%nat -> data s t <= cnt s t;
  b_chk : forall t, (t < n)%nat -> checking (at_ s t) -> data s t = cnt s t /\ open_ s t = false;
  b_view : forall t, (t < n)%nat -> view s t <= total n s;
  b_place : forall t, (t < n)%nat -> place swap n s t;
  b_last : exists u, (u < n)%nat /\ (forall i acc, at_ s u = KSum i acc -> acc = sumf (data s) i) /\
    (forall acc, at_ s u = KReset acc -> acc = total n s) /\
    (view s u = total n s \/ (exists i acc, at_ s u = KSum i acc) \/ (exists acc, at_ s u = KReset acc)) }.

Lemma base_start swap n own q c : (0 < n)%nat -> base swap n (start own q c).
Proof.
  intros Hn. assert (Z : forall k, sumf (fun _ => 0) k = 0) by (induction k as [|k IH]; simpl; lia).
  constructor; unfold start; cbn; intros; try lia; try done.
  exists 0%nat. split_and!; try done. left. unfold total. cbn. by rewrite Z.
Qed.

(** Steps that touch only the place, the view and the vote of one thread. *)
Lemma base_check swap n s s' t : base swap n s -> (t < n)%nat ->
  open_ s' = open_ s -> cnt s' = cnt s -> data s' = data s ->
  (forall j, j <> t -> at_ s' j = at_ s j /\ view s' j = view s j) ->
  (checking (at_ s' t) -> checking (at_ s t)) -> view s t <= view s' t <= total n s -> place swap n s' t ->
  ((forall i acc, at_ s t = KSum i acc -> acc = sumf (data s) i) -> (forall acc, at_ s t = KReset acc -> acc = total n s) ->
   (view s t = total n s \/ (exists i acc, at_ s t = KSum i acc) \/ (exists acc, at_ s t = KReset acc)) ->
   (forall i acc, at_ s' t = KSum i acc -> acc = sumf (data s) i) /\ (forall acc, at_ s' t = KReset acc -> acc = total n s) /\
   (view s' t = total n s \/ (exists i acc, at_ s' t = KSum i acc) \/ (exists acc, at_ s' t = KReset acc))) ->
  base swap n s'.
Proof.
  intros HB Ht Eo Ec Ed Ho Hck [Hv1 Hv2] Hpl Hlast.
  assert (Htot : total n s' = total n s) by (unfold total; by rewrite Ed).
  assert (Hvm : forall j, view s j <= view s' j).
  { intros j. destruct (decide (j = t)) as [->|Hne]; [done|]. destruct (Ho j Hne) as (_ & ->). lia. }
  constructor.
  - rewrite Ec, Ed. apply HB.
  - intros j Hj. rewrite Eo, Ec, Ed. destruct (decide (j = t)) as [->|Hne]; [intros; by apply HB; auto|].
    destruct (Ho j Hne) as [-> _]. by apply HB.
  - intros j Hj. rewrite Htot. destruct (decide (j = t)) as [->|Hne]; [done|]. destruct (Ho j Hne) as [_ ->]. by apply HB.
  - intros j Hj. destruct (decide (j = t)) as [->|Hne]; [done|]. pose proof (b_place _ _ _ HB j Hj) as Hp.
    unfold place in *. destruct (Ho j Hne) as (-> & ->). rewrite Eo, Ed, Htot.
    destruct (at_ s j); try done; naive_solver (eauto using N.le_trans).
  - destruct (b_last _ _ _ HB) as (u & Hu & H1 & H2 & H3). exists u. rewrite Ed, Htot. split; [done|].
    destruct (decide (u = t)) as [->|Hne]; [by apply Hlast|]. destruct (Ho u Hne) as (-> & ->). done.
Qed.

(** Steps of the work phases. *)
Lemma base_work swap n s s' t : base swap n s -> (t < n)%nat -> view s' = view s -> data s' = data s ->
  (forall j, j <> t -> at_ s' j = at_ s j /\ open_ s' j = open_ s j /\ cnt s' j = cnt s j) ->
  cnt s t <= cnt s' t -> ~ checking (at_ s' t) -> ~ checking (at_ s t) -> place swap n s' t -> base swap n s'.
Proof.
  intros HB Ht Ev Ed Ho Hc Hk Hk0 Hpl.
  assert (Htot : total n s' = total n s) by (unfold total; by rewrite Ed).
  constructor.
  - intros j Hj. rewrite Ed. pose proof (b_dc _ _ _ HB j Hj). destruct (decide (j = t)) as [->|Hne]; [lia|].
    destruct (Ho j Hne) as (_ & _ & ->). done.
  - intros j Hj. rewrite Ed. destruct (decide (j = t)) as [->|Hne]; [done|]. destruct (Ho j Hne) as (-> & -> & ->). by apply HB.
  - rewrite Ev, Htot. apply HB.
  - intros j Hj. destruct (decide (j = t)) as [->|Hne]; [done|]. pose proof (b_place _ _ _ HB j Hj) as Hp.
    unfold place in *. destruct (Ho j Hne) as (-> & -> & _). by rewrite Ev, Ed, Htot.
  - destruct (b_last _ _ _ HB) as (u & Hu & H1 & H2 & H3). exists u. rewrite Ed, Htot, Ev. split; [done|].
    destruct (decide (u = t)) as [->|Hne].
    + split_and!.
      * intros i acc E. rewrite E in Hk. by destruct Hk.
      * intros acc E. rewrite E in Hk. by destruct Hk.
      * left. destruct H3 as [?|[(i & acc & E)|(acc & E)]]; [done| |]; rewrite E in Hk0; by destruct Hk0.
    + destruct (Ho u Hne) as (-> & _). done.
Qed.

Lemma base_k0 swap n s t : base swap n s -> (t < n)%nat -> at_ s t = K0 -> base swap n (at_pc (set_data s t (cnt s t)) t (KSum 0 0)).
Proof.
  intros HB Ht Hp. pose proof (b_dc _ _ _ HB t Ht) as Hdc. pose proof (b_place _ _ _ HB t Ht) as Hop. unfold place in Hop. rewrite Hp in Hop.
  set (s' := at_pc _ _ _).
  assert (Hmono : forall k, (k < n)%nat -> data s k <= data s' k).
  { intros k Hk. subst s'. cbn. destruct (decide (k = t)) as [->|Hn]; fs; lia. }
  assert (Hle : total n s <= total n s') by (by apply sumf_mono).
  constructor.
  - intros j Hj. subst s'. cbn. destruct (decide (j = t)) as [->|Hn]; fs; [lia|by apply HB].
  - intros j Hj. subst s'. cbn. destruct (decide (j = t)) as [->|Hn]; fs; [done|by apply HB].
  - intros j Hj. pose proof (b_view _ _ _ HB j Hj). change (view s') with (view s). lia.
  - intros j Hj. pose proof (b_place _ _ _ HB j Hj) as Hj'. pose proof (b_view _ _ _ HB j Hj) as Hvj.
    unfold place in *. change (view s') with (view s). change (open_ s') with (open_ s).
    destruct (decide (j = t)) as [->|Hn].
    + subst s'. cbn [at_pc set_data at_]. fs. cbn [sumf]. split_and!; try done; lia.
    + assert (at_ s' j = at_ s j) as -> by (subst s'; cbn; by fs).
      destruct (at_ s j); try done; try (naive_solver lia).
      destruct Hj' as (H1 & H2 & H3).
      assert (sumf (data s) i <= sumf (data s') i) by (apply sumf_mono; intros; apply Hmono; lia).
      pose proof (sumf_tail (data s) (data s') i n ltac:(lia) Hmono) as Htl. fold (total n s) in Htl. fold (total n s') in Htl.
      split_and!; try done; lia.
  - destruct (N.eq_dec (cnt s t) (data s t)) as [He|He].
    + assert (Hd : forall k, data s' k = data s k).
      { intros k. subst s'. cbn. destruct (decide (k = t)) as [->|Hn]; fs; done. }
      assert (Hsum : forall k, sumf (data s') k = sumf (data s) k) by (intros; by apply sumf_ext).
      assert (Htot : total n s' = total n s) by apply Hsum.
      destruct (b_last _ _ _ HB) as (u & Hu & H1 & H2 & H3). exists u. split; [done|]. rewrite Htot. change (view s') with (view s).
      destruct (decide (u = t)) as [->|Hn].
      * subst s'. cbn [at_pc set_data at_]. fs. split_and!; [by intros ? ? [= <- <-]|done|eauto].
      * assert (at_ s' u = at_ s u) as -> by (subst s'; cbn; by fs). split_and!; try done.
        intros i acc E. rewrite Hsum. by apply H1.
    + exists t. split; [done|]. subst s'. cbn [at_pc set_data at_]. fs. split_and!; [by intros ? ? [= <- <-]|done|eauto].
Qed.

Lemma base_step swap n s x : base swap n s -> base swap n (step swap n s x).
Proof.
  intros HB. destruct x as [t c]. unfold step. cbn [fst snd]. destruct (Nat.ltb_spec t n) as [Ht|]; [|done].
  pose proof (b_place _ _ _ HB t Ht) as Hpl. unfold place in Hpl. pose proof (b_view _ _ _ HB t Ht) as Hvt.
  assert (Hgo : forall p, (checking p -> checking (at_ s t)) -> (forall i acc, p <> KSum i acc) -> (forall acc, p <> KReset acc) ->
    (forall i acc, at_ s t <> KSum i acc) -> (forall acc, at_ s t <> KReset acc) ->
    place swap n (at_pc s t p) t -> forall v : option N, base swap n (at_pc (match v with Some v => set_vote s t v | None => s end) t p)).
  { intros p H1 H2 H3 H4 H5 H6 v. destruct v; (apply (base_check _ _ s _ t); try done; cbn; fs; try done;
      [by intros j Hne; fs| intros _ _ [?|[(i & acc & E)|(acc & E)]]; [|by destruct (H4 i acc)|by destruct (H5 acc)];
        split_and!; [intros i acc E; by destruct (H2 i acc)|intros acc E; by destruct (H3 acc)|by left]]). }
  revert Hpl Hgo. unfold go. destruct (at_ s t) as [got|got|got sent own| |i acc|acc|i acc| |acc|i acc|acc|acc|i|i| |i|] eqn:Hp; intros Hpl Hgo.
  - assert (Hr : base swap n (received s t got)).
    { unfold received. apply (base_work _ _ s _ t); try done; cbn; fs; try (by intros j Hne; fs).
      - destruct (open_ s t); [by intros []|]. destruct (got =? 0); by intros [].
      - rewrite Hp. by intros [].
      - unfold place. cbn. fs. destruct (open_ s t); [done|]. destruct (N.eqb_spec got 0); [done|]. lia. }
    destruct c; try done; [|by destruct (got =? 0)]. destruct (queue s t =? 0); [done|].
    apply (base_work _ _ s _ t); try done; cbn; fs; try (by intros j Hne; fs); [by intros []|rewrite Hp; by intros []|]. unfold place. cbn. by fs.
  - destruct c; try done.
    + apply (base_work _ _ s _ t); try done; cbn; fs; try (by intros j Hne; fs); [destruct (got =? 0); by intros []|rewrite Hp; by intros []|].
      unfold place. cbn. fs. destruct (N.eqb_spec got 0); [done|lia].
    + destruct (open_ s t); [|done]. apply (base_work _ _ s _ t); try done; cbn; fs; try (by intros j Hne; fs); [by intros []|rewrite Hp; by intros []|].
      unfold place. cbn. fs. lia.
    + apply (base_work _ _ s _ t); try done; cbn; fs; try (by intros j Hne; fs); [destruct (got =? 0); by intros []|rewrite Hp; by intros []|].
      unfold place. cbn. fs. destruct (N.eqb_spec got 0); [done|lia].
  - destruct c; try done.
    + destruct (Nat.ltb_spec u n); [|done]. apply (base_work _ _ s _ t); try done; cbn; fs; try (by intros j Hne; fs); [by intros []|rewrite Hp; by intros []|].
      unfold place. cbn. by fs.
    + apply (base_work _ _ s _ t); try done; cbn; fs; try (by intros j Hne; fs); try lia; [by intros []|rewrite Hp; by intros []|].
      unfold place. cbn. by fs.
    + apply (base_work _ _ s _ t); try done; cbn; fs; try (by intros j Hne; fs); try lia; [by intros []|rewrite Hp; by intros []|].
      unfold place. cbn. by fs.
    + destruct (own =? 0); [done|]. cbv zeta.
      destruct closed; (apply (base_work _ _ s _ t); try done; cbn; fs; try (by intros j Hne; fs); try lia; [by intros []|rewrite Hp; by intros []|];
      unfold place; cbn; by fs).
  - destruct c; try done. by apply base_k0.
  - destruct c; try done. destruct Hpl as (Hi & Ha & Hv). cbv zeta.
    destruct (Nat.ltb_spec (S i) n) as [Hlt|Hge].
    + apply (base_check _ _ s _ t); try done; cbn; fs; try done.
      * by intros j Hne; fs.
      * by rewrite Hp.
      * unfold place. cbn. fs. cbn [sumf]. change (total n (at_pc s t _)) with (total n s). split_and!; try done; lia.
      * intros H1 _ _. split_and!; [intros i' acc' [= <- <-]; cbn [sumf]; by rewrite (H1 i acc)|done|eauto].
    + assert (Hn : n = S i) by lia.
      assert (Et : total n s = sumf (data s) i + data s i) by (unfold total; by rewrite Hn).
      destruct (N.eqb_spec (view s t) (acc + data s i)) as [E|E].
      * apply (base_check _ _ s _ t); try done; cbn; fs; try done.
        -- by intros j Hne; fs.
        -- by rewrite Hp.
        -- unfold place. cbn. fs. split_and!; [lia|done|intros; lia].
        -- intros H1 _ _. split_and!; [done|done|]. left. rewrite (H1 i acc) in E by done. lia.
      * destruct swap.
        -- apply (base_check _ _ s _ t); try done; cbn; fs; try done.
           ++ by intros j Hne; fs.
           ++ by rewrite Hp.
           ++ unfold place. cbn. fs. change (total n (at_pc _ t _)) with (total n s). split_and!; [lia|lia|done].
           ++ intros H1 _ _. split_and!; [done|intros acc' [= <-]|eauto]. rewrite (H1 i acc) by done. lia.
        -- apply (base_check _ _ s _ t); try done; cbn; fs; try done.
           ++ by intros j Hne; fs.
           ++ by rewrite Hp.
           ++ lia.
           ++ unfold place. cbn. fs. change (total n (at_pc _ t _)) with (total n s). split_and!; [lia|lia|done].
           ++ intros H1 _ _. split_and!; [done|intros acc' [= <-]|eauto]. rewrite (H1 i acc) by done. lia.
  - destruct c; try done. destruct Hpl as (Hv & Ha & Hf). destruct swap; (apply (base_check _ _ s _ t); try done; cbn; fs; try done;
      [by intros j Hne; fs|unfold place; cbn; by fs|]).
    + intros _ H2 _. split_and!; try done. left. by apply H2.
    + intros _ H2 _. split_and!; try done. left. rewrite Hf by done. by apply H2.
  - destruct c; try done. destruct Hpl as (Hi & Ha & Hk). apply (Hgo _) with (v := None); try done; repeat case_match; try done.
    + unfold place. cbn. fs. split_and!; [by apply Nat.ltb_lt|done|]. intros k Hk'. destruct (decide (k = i)) as [->|]; [|apply Hk; lia].
      apply N.eqb_eq in H. lia.
    + unfold place. cbn. fs. intros k Hk'. apply Nat.ltb_ge in H0. destruct (decide (k = i)) as [->|]; [|apply Hk; lia].
      apply N.eqb_eq in H. lia.
    + unfold place. cbn. by fs.
  - destruct c; try done. apply (Hgo (Recv 0)) with (v := Some 0); try done. unfold place. cbn. by fs.
  - destruct c; try done. assert (Hn : (0 < n)%nat) by lia. destruct (vote s t =? 0); [apply (Hgo (KSeen 0 acc)) with (v := Some 1)|apply (Hgo (KSeen 0 acc)) with (v := None)]; try done; unfold place; cbn; by fs.
  - destruct c; try done. destruct Hpl as (Hi & Hk). apply (Hgo _) with (v := None); try done; repeat case_match; try done; unfold place; cbn; fs; try done.
    split; [by apply Nat.ltb_lt|done].
  - destruct c; try done. apply (Hgo (Recv 0)) with (v := Some 1); try done. unfold place. cbn. by fs.
  - destruct c; try done. destruct (vote s t =? 1); [apply (Hgo (Recv 0)) with (v := Some 2)|apply (Hgo (KReadys 0)) with (v := None)]; try done; unfold place; cbn; by fs.
  - destruct c; try done. apply (Hgo _) with (v := None); try done; repeat case_match; try done; unfold place; cbn; by fs.
  - destruct c; try done. apply (Hgo (Recv 0)) with (v := Some _); try done. unfold place. cbn. by fs.
  - destruct c; try done. apply (Hgo (KFinals 0)) with (v := Some 3); try done. unfold place. cbn. by fs.
  - destruct c; try done. apply (Hgo _) with (v := None); try done; repeat case_match; try done; unfold place; cbn; by fs.
  - by destruct c.
Qed.

(** What a thread has counted, and at least one more when it is busy. *)
Definition low (s : st) (t : nat) : N := cnt s t + (if idle (at_ s t) then 0 else 1).
Lemma low_at s s' t : cnt s t <= cnt s' t -> (idle (at_ s' t) = true -> idle (at_ s t) = true \/ cnt s t < cnt s' t) -> low s t <= low s' t.
Proof. unfold low. intros H1 H2. destruct (idle (at_ s' t)); destruct (idle (at_ s t)); try lia; destruct H2; try lia; done. Qed.
Lemma low_step swap n s x t : base swap n s -> (t < n)%nat -> low s t <= low (step swap n s x) t.
Proof.
  intros HB Ht. destruct x as [u c]. unfold step. cbn [fst snd]. destruct (Nat.ltb_spec u n) as [Hu|]; [|done].
  destruct (decide (u = t)) as [->|Hne].
  - pose proof (b_place _ _ _ HB t Ht) as Hpl. unfold place in Hpl. unfold go.
    destruct (at_ s t) as [got|got|got sent own| |i acc|acc|i acc| |acc|i acc|acc|acc|i|i| |i|] eqn:Hp; try (destruct c; try done; cbv zeta; repeat case_match; apply low_at; cbn; fs; rewrite ?Hp; cbn [idle]; try done; by left).
    + assert (Hr : low s t <= low (received s t got) t).
      { apply low_at; [done|]. unfold received. cbn. fs. rewrite Hp. cbn [idle]. destruct (open_ s t); [by left|]. destruct (got =? 0); by left. }
      destruct c; try done; [|by destruct (got =? 0)]. destruct (queue s t =? 0); [done|].
      apply low_at; [done|]. cbn. fs. cbn [idle]. destruct (N.eqb_spec (got + 1) 0); [lia|done].
    + destruct c; try done; [destruct (u <? n)%nat; [|done]| | |destruct (N.eqb_spec own 0); [done|]; cbv zeta; destruct closed]; (apply low_at; cbn; fs; try done; try lia; intros _; right; lia).
  - assert (at_ (go swap n s u c) t = at_ s t /\ cnt (go swap n s u c) t = cnt s t) as [E1 E2]; [|unfold low; by rewrite E1, E2].
    unfold go. destruct (at_ s u) eqn:Hp; destruct c; try done; cbv zeta; repeat case_match; cbn; by fs.
Qed.

Lemma base_exec swap n sched : forall s, base swap n s -> base swap n (exec swap n s sched).
Proof. induction sched as [|x l IH]; intros s H; [done|]. cbn. apply IH. by apply base_step. Qed.
Lemma low_exec swap n sched t : forall s, base swap n s -> (t < n)%nat -> low s t <= low (exec swap n s sched) t.
Proof.
  induction sched as [|x l IH]; intros s H Ht; [done|]. cbn. etransitivity; [by apply (low_step swap n s x)|].
  apply IH; [by apply base_step|done].
Qed.

(** Relative to the counts [D] at the end, when all have left. *)
Section final.
Context (swap : bool) (n : nat) (D : nat -> N).
Definition within (s : st) : Prop := forall t, (t < n)%nat -> low s t <= D t.
Definition caught_up (s : st) : Prop := forall t, (t < n)%nat -> data s t = D t.
Lemma sumf_eq_all f g k : (forall i, (i < k)%nat -> f i <= g i) -> sumf f k = sumf g k -> forall i, (i < k)%nat -> f i = g i.
Proof.
  induction k as [|k IH]; intros H E i Hi; [lia|]. simpl in E.
  pose proof (sumf_mono f g k ltac:(intros; apply H; lia)). pose proof (H k ltac:(lia)).
  destruct (decide (i = k)) as [->|]; [lia|]. apply IH; [intros; apply H; lia|lia|lia].
Qed.
Lemma cnt_within s t : within s -> (t < n)%nat -> cnt s t <= D t.
Proof. intros H Ht. specialize (H t Ht). unfold low in H. destruct (idle (at_ s t)); lia. Qed.
Lemma view_full s t : base swap n s -> within s -> (t < n)%nat -> view s t = sumf D n -> caught_up s /\ forall u, (u < n)%nat -> cnt s u = D u /\ idle (at_ s u) = true.
Proof.
  intros HB HW Ht Hv. pose proof (b_view _ _ _ HB t Ht) as Hle. unfold total in Hle.
  assert (Hd : forall k, (k < n)%nat -> data s k <= D k).
  { intros k Hk. pose proof (b_dc _ _ _ HB k Hk). pose proof (cnt_within s k HW Hk). lia. }
  pose proof (sumf_mono (data s) D n Hd).
  assert (C : caught_up s) by (intros k; apply sumf_eq_all; [done|lia]).
  split; [done|]. intros u Hu. pose proof (C u Hu). pose proof (b_dc _ _ _ HB u Hu). pose proof (HW u Hu) as L. unfold low in L. destruct (idle (at_ s u)); [|lia]. split; [lia|done].
Qed.

Definition looked (p : pc) : Prop := match p with Recv _ | KReset _ => False | _ => True end.
Definition emptied (s : st) : Prop := forall t, (t < n)%nat -> view s t = sumf D n -> looked (at_ s t) -> queue s t = 0.
Lemma emptied_step s x : base swap n s -> within s -> within (step swap n s x) -> emptied s -> emptied (step swap n s x).
Proof.
  intros HB HW HW' HE t Ht Hv Hl. destruct (N.eq_dec (view s t) (sumf D n)) as [Hv0|Hv0].
  - destruct (view_full s t HB HW Ht Hv0) as [_ Hall].
    destruct x as [u c]. unfold step in *. cbn [fst snd] in *. destruct (Nat.ltb_spec u n) as [Hu|]; [|by apply HE].
    destruct (decide (u = t)) as [->|Hne].
    + destruct (Hall t Ht) as [Hc Hi]. specialize (HW' t Ht). revert HW' Hl. unfold go.
      destruct (at_ s t) as [got|got|got sent own| |i acc|acc|i acc| |acc|i acc|acc|acc|i|i| |i|] eqn:Hp; cbn [idle] in Hi; try done.
      * apply N.eqb_eq in Hi. subst got. destruct c; try (intros _ Hl; rewrite Hp in Hl; by destruct Hl); [|cbn; intros _ Hl; rewrite Hp in Hl; by destruct Hl].
        destruct (N.eqb_spec (queue s t) 0) as [Hq|Hq]; [intros _ _; done|]. unfold low. cbn. fs. cbn. lia.
      * specialize (HE t Ht Hv0). rewrite Hp in HE. specialize (HE I). destruct c; try done. by destruct (open_ s t).
      * specialize (HE t Ht Hv0). rewrite Hp in HE. specialize (HE I). by destruct c.
      * specialize (HE t Ht Hv0). rewrite Hp in HE. specialize (HE I). destruct c; try done. cbv zeta. intros _ _. repeat case_match; done.
      * destruct c; try (intros _ Hl; rewrite Hp in Hl; by destruct Hl). destruct swap; cbn; fs; by intros _ [].
      * specialize (HE t Ht Hv0). rewrite Hp in HE. specialize (HE I). by destruct c.
      * specialize (HE t Ht Hv0). rewrite Hp in HE. specialize (HE I). by destruct c.
      * specialize (HE t Ht Hv0). rewrite Hp in HE. specialize (HE I). destruct c; try done. intros _ _. by case_match.
      * specialize (HE t Ht Hv0). rewrite Hp in HE. specialize (HE I). by destruct c.
      * specialize (HE t Ht Hv0). rewrite Hp in HE. specialize (HE I). by destruct c.
      * specialize (HE t Ht Hv0). rewrite Hp in HE. specialize (HE I). destruct c; try done. intros _ _. by case_match.
      * specialize (HE t Ht Hv0). rewrite Hp in HE. specialize (HE I). by destruct c.
      * specialize (HE t Ht Hv0). rewrite Hp in HE. specialize (HE I). by destruct c.
      * specialize (HE t Ht Hv0). rewrite Hp in HE. specialize (HE I). by destruct c.
      * specialize (HE t Ht Hv0). rewrite Hp in HE. specialize (HE I). by destruct c.
      * specialize (HE t Ht Hv0). rewrite Hp in HE. specialize (HE I). by destruct c.
    + assert (at_ (go swap n s u c) t = at_ s t /\ queue (go swap n s u c) t = queue s t) as [E1 E2]; [|rewrite E2; apply HE; by rewrite ?E1 in *].
      destruct (Hall u Hu) as [_ Hi]. unfold go, received. destruct (at_ s u) eqn:Hp; try done; destruct c; try done; cbv zeta; repeat case_match; cbn; by fs.
  - exfalso. destruct x as [u c]. unfold step in *. cbn [fst snd] in *. destruct (Nat.ltb_spec u n) as [Hu|]; [|done].
    destruct (decide (u = t)) as [->|Hne].
    + revert Hl Hv. unfold go, received. destruct (at_ s t) eqn:Hp; destruct c; try done; cbv zeta; repeat case_match; cbn; fs; done.
    + apply Hv0. rewrite <- Hv. symmetry. unfold go, received. destruct (at_ s u) eqn:Hp; destruct c; try done; cbv zeta; repeat case_match; cbn; by fs.
Qed.
Lemma emptied_exec sched : forall s, base swap n s -> within (exec swap n s sched) -> emptied s -> emptied (exec swap n s sched).
Proof.
  induction sched as [|x l IH]; intros s HB HW HE; [done|]. cbn in *. apply IH; [by apply base_step|done|].
  assert (W1 : within (step swap n s x)).
  { intros t Ht. etransitivity; [|by apply HW]. apply (low_exec swap n l t); [by apply base_step|done]. }
  apply emptied_step; try done. intros t Ht. etransitivity; [by apply (low_step swap n s x)|by apply W1].
Qed.
End final.

Lemma queue_same swap n D s x t u : base swap n s -> within n D s -> within n D (step swap n s x) -> (t < n)%nat -> view s t = sumf D n ->
  queue (step swap n s x) u = queue s u.
Proof.
  intros HB HW HW' Ht Hv. destruct (view_full swap n D s t HB HW Ht Hv) as [_ Hall].
  destruct x as [w c]. unfold step in *. cbn [fst snd] in *. destruct (Nat.ltb_spec w n) as [Hw|]; [|done].
  destruct (Hall w Hw) as [Hc Hi]. specialize (HW' w Hw). revert HW'. unfold go, received.
  destruct (at_ s w) as [got|got|got sent own| |i acc|acc|i acc| |acc|i acc|acc|acc|i|i| |i|] eqn:Hp; cbn [idle] in Hi; try done; destruct c; try done; cbv zeta; try (repeat case_match; done).
  apply N.eqb_eq in Hi. subst got. destruct (N.eqb_spec (queue s w) 0); [by repeat case_match|]. unfold low. cbn. fs. intros L. change (idle (Recv (0 + 1))) with false in L. cbv iota in L. lia.
Qed.
Lemma done_step swap n s x t : at_ s t = Done -> at_ (step swap n s x) t = Done /\ view (step swap n s x) t = view s t.
Proof.
  intros Hd. destruct x as [u c]. unfold step. cbn [fst snd]. destruct (u <? n)%nat; [|done]. destruct (decide (u = t)) as [->|Hne].
  - unfold go. rewrite Hd. by destruct c.
  - unfold go, received. destruct (at_ s u) eqn:Hp; destruct c; try done; cbv zeta; repeat case_match; cbn; by fs.
Qed.
Lemma queue_exec swap n D t u l : forall s, base swap n s -> within n D (exec swap n s l) -> (t < n)%nat -> at_ s t = Done -> view s t = sumf D n ->
  queue (exec swap n s l) u = queue s u.
Proof.
  induction l as [|x l IH]; intros s HB HW Ht Hd Hv; [done|]. cbn in *.
  assert (W1 : within n D (step swap n s x)).
  { intros k Hk. etransitivity; [|by apply HW]. apply (low_exec swap n l k); [by apply base_step|done]. }
  assert (W0 : within n D s) by (intros k Hk; etransitivity; [by apply (low_step swap n s x)|by apply W1]).
  destruct (done_step swap n s x t Hd) as [Hd' Hv']. fold (exec swap n (step swap n s x) l) in *. rewrite IH; [|by apply base_step|done|done|done|by rewrite Hv'].
  by apply (queue_same swap n D s x t u).
Qed.
Lemma done_exec swap n l t : forall s, at_ s t = Done -> at_ (exec swap n s l) t = Done /\ view (exec swap n s l) t = view s t.
Proof.
  induction l as [|x l IH]; intros s H; [done|]. cbn. destruct (done_step swap n s x t H) as [H1 H2]. rewrite <- H2. by apply IH.
Qed.

(** When all have left, all views are the sum of all counts. *)
Lemma all_views swap n f : base swap n f -> (forall t, (t < n)%nat -> at_ f t = Done) -> forall t, (t < n)%nat -> view f t = sumf (cnt f) n.
Proof.
  intros HB Hall. assert (Ht : total n f = sumf (cnt f) n).
  { apply sumf_ext. intros k Hk. apply HB; [done|]. by rewrite Hall. }
  destruct (b_last _ _ _ HB) as (u & Hu & _ & _ & [Hv|[(i & acc & E)|(acc & E)]]); [|by rewrite Hall in E..].
  assert (Hle : forall t k, (t < n)%nat -> (k < n)%nat -> view f t <= view f k).
  { intros t k Ht' Hk. pose proof (b_place _ _ _ HB t Ht') as Hp. unfold place in Hp. rewrite (Hall t Ht') in Hp. by apply Hp. }
  intros t Ht'. pose proof (Hle t u Ht' Hu). pose proof (Hle u t Hu Ht'). rewrite <- Ht. lia.
Qed.
Lemma all_within n f : (forall t, (t < n)%nat -> at_ f t = Done) -> within n (cnt f) f.
Proof. intros Hall t Ht. unfold low. rewrite Hall by done. cbn. lia. Qed.
Lemma all_left_quiet swap n own q c sched : (forall t, (t < n)%nat -> at_ (exec swap n (start own q c) sched) t = Done) ->
  quiet n (exec swap n (start own q c) sched).
Proof.
  intros Hall. destruct n as [|n]; [intros t Ht; lia|]. set (f := exec _ _ _ _) in *.
  assert (HB : base swap (S n) f) by (apply base_exec, base_start; lia).
  assert (HE : emptied (S n) (cnt f) f).
  { apply (emptied_exec swap (S n) (cnt f) sched (start own q c)); [apply base_start; lia|by apply all_within|]. intros t Ht _ []. }
  intros t Ht. split_and!.
  - by rewrite Hall.
  - apply HE; [done|by apply (all_views swap)|by rewrite Hall].
  - apply (b_chk _ _ _ HB t Ht). by rewrite Hall.
Qed.
(** So one that has left while something is left never sees the others leave. *)
Lemma early_hangs swap n own q c sched later t u : let s := exec swap n (start own q c) sched in
  (t < n)%nat -> at_ s t = Done -> (u < n)%nat -> idle (at_ s u) = false \/ queue s u <> 0 ->
  ~ forall w, (w < n)%nat -> at_ (exec swap n s later) w = Done.
Proof.
  intros s Ht Hd Hu Hleft Hall. set (f := exec swap n s later) in *.
  assert (HBs : base swap n s) by (apply base_exec, base_start; lia). assert (HB : base swap n f) by (by apply base_exec).
  pose proof (all_within n f Hall) as HW. destruct (done_exec swap n later t s Hd) as [_ Hv]. fold f in Hv.
  rewrite (all_views swap n f HB Hall t Ht) in Hv.
  assert (W0 : within n (cnt f) s) by (intros k Hk; etransitivity; [by apply (low_exec swap n later k)|by apply HW]).
  destruct (view_full swap n (cnt f) s t HBs W0 Ht) as [_ Hi]; [done|]. destruct Hleft as [Hb|Hq].
  - destruct (Hi u Hu) as [_ E]. congruence.
  - apply Hq. rewrite <- (queue_exec swap n (cnt f) t u later s) by done. fold f.
    pose proof (all_left_quiet swap n own q c (sched ++ later)) as Q. unfold exec in Q. rewrite fold_left_app in Q. fold (exec swap n (start own q c) sched) in Q.
    by apply Q.
Qed.
