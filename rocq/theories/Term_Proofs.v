(** Proofs about the termination check. *)
From Verif Require Import Base Term_Model.
Open Scope N_scope.

(** Pulled or processed notifications make a thread busy. *)
Definition idle (p : pc) : bool :=
  match p with Recv got | Look got => got =? 0 | Work _ _ _ => false | _ => true end.
Definition quiet (n : nat) (s : st) : Prop :=
  forall t, (t < n)%nat -> idle (at_ s t) = true /\ queue s t = 0 /\ open_ s t = false.

Lemma fset_eq {A} (f : nat -> A) i x : fset f i x i = x.
Proof. unfold fset. by rewrite Nat.eqb_refl. Qed.
Lemma fset_ne {A} (f : nat -> A) i j x : j <> i -> fset f i x j = f j.
Proof. intros H. unfold fset. by destruct (Nat.eqb_spec j i). Qed.

Ltac fs := repeat (rewrite fset_eq in * || (rewrite fset_ne in * by (first [assumption | apply not_eq_sym; assumption | lia]))).

(** Sums over threads. *)
Fixpoint sumf (f : nat -> N) (n : nat) : N := match n with O => 0 | S k => sumf f k + f k end.
Lemma sumf_mono f g n : (forall k, (k < n)%nat -> f k <= g k) -> sumf f n <= sumf g n.
Proof. induction n as [|n IH]; intros H; simpl; [lia|]. pose proof (H n ltac:(lia)). pose proof (IH ltac:(intros; apply H; lia)). lia. Qed.
Lemma sumf_tail f g i n : (i <= n)%nat -> (forall k, (k < n)%nat -> f k <= g k) -> sumf f n + sumf g i <= sumf g n + sumf f i.
Proof.
  induction n as [|n IH]; intros Hi H.
  - assert (i = O) as -> by lia. simpl. lia.
  - destruct (decide (i = S n)) as [->|Hne]; [lia|]. simpl. pose proof (H n ltac:(lia)). pose proof (IH ltac:(lia) ltac:(intros; apply H; lia)). lia.
Qed.
Lemma sumf_lt f g n t : (t < n)%nat -> (forall k, (k < n)%nat -> f k <= g k) -> f t < g t -> sumf f n < sumf g n.
Proof.
  induction n as [|n IH]; intros Ht H Hlt; [lia|]. simpl. pose proof (H n ltac:(lia)).
  destruct (decide (t = n)) as [->|Hne].
  - pose proof (sumf_mono f g n ltac:(intros; apply H; lia)). lia.
  - pose proof (IH ltac:(lia) ltac:(intros; apply H; lia) Hlt). lia.
Qed.
Lemma sumf_ext f g n : (forall k, (k < n)%nat -> f k = g k) -> sumf f n = sumf g n.
Proof. induction n as [|n IH]; intros H; simpl; [done|]. rewrite IH, H; [done|lia|intros; apply H; lia]. Qed.

Lemma quiet_step swap n s x : quiet n s -> quiet n (step swap n s x).
Proof.
  intros Hq. destruct x as [t c]. unfold step. cbn [fst snd]. destruct (Nat.ltb_spec t n) as [Ht|]; [|done].
  destruct (Hq t Ht) as (Hi & Hz & Ho).
  assert (Hk : forall p s', idle p = true -> queue s' = queue s -> open_ s' = open_ s -> at_ s' = at_ s -> quiet n (at_pc s' t p)).
  { intros p s' Hp Hqs Hos Has u Hu. cbn [at_pc at_ queue open_]. rewrite Hqs, Hos, Has. destruct (Hq u Hu) as (? & ? & ?).
    destruct (decide (u = t)) as [->|Hne]; fs; done. }
  unfold go. destruct (at_ s t) as [got|got|got sent own| | | | | | | | | | | | | |] eqn:Hp; cbn [idle] in Hi; try discriminate Hi.
  - apply N.eqb_eq in Hi. subst got. destruct c; try done. rewrite Hz. cbn [N.eqb]. unfold received. rewrite Ho. by apply Hk.
  - apply N.eqb_eq in Hi. subst got. destruct c; try done; [by apply Hk|by rewrite Ho|].
    intros u Hu. cbn [at_pc set_open at_ open_ queue N.eqb]. destruct (Hq u Hu) as (? & ? & ?).
    destruct (decide (u = t)) as [->|Hne]; fs; done.
  - destruct c; try done. by apply Hk.
  - destruct c; try done. cbv zeta. repeat case_match; by apply Hk.
  - destruct c; try done. case_match; by apply Hk.
  - destruct c; try done. repeat case_match; by apply Hk.
  - destruct c; try done. by apply Hk.
  - destruct c; try done. repeat case_match; by apply Hk.
  - destruct c; try done. repeat case_match; by apply Hk.
  - destruct c; try done. by apply Hk.
  - destruct c; try done. repeat case_match; by apply Hk.
  - destruct c; try done. repeat case_match; by apply Hk.
  - destruct c; try done. repeat case_match; by apply Hk.
  - destruct c; try done. by apply Hk.
  - destruct c; try done. repeat case_match; by apply Hk.
  - by destruct c.
Qed.

(** Quiet, and everything counted is published. *)
Definition over (n : nat) (s : st) : Prop := quiet n s /\ forall t, (t < n)%nat -> cnt s t = data s t.
Lemma over_step swap n s x : over n s -> over n (step swap n s x).
Proof.
  intros [Hq He]. split; [by apply quiet_step|]. intros u Hu. destruct x as [t c]. unfold step. cbn [fst snd].
  destruct (Nat.ltb_spec t n) as [Ht|]; [|by apply He]. destruct (Hq t Ht) as (Hi & Hz & Ho). unfold go.
  destruct (at_ s t) as [got|got|got sent own| | | | | | | | | | | | | |]; try discriminate Hi; destruct c; try (by apply He);
    cbv zeta; rewrite ?Hz, ?Ho; unfold received; repeat case_match; cbn; try (by apply He).
  destruct (decide (u = t)) as [->|Hne]; fs; [done|by apply He].
Qed.

(** The invariant of states that are not quiet.  [E t]: since the last change of [data], thread
    [t] has found its queue empty while it had nothing unreported.  [conf t v]: while the sum of
    [data] was [v], [E t] held at a check of [t] whose view was [v]. *)
Definition settled (s : st) (t : nat) : Prop := idle (at_ s t) = true /\ cnt s t = data s t.
Definition total (n : nat) (s : st) : N := sumf (data s) n.
Definition torn (swap : bool) (p : pc) : Prop := swap = false /\ match p with KReset _ => True | _ => False end.

Definition pcok (swap : bool) (n : nat) (s : st) (E : nat -> bool) (conf : nat -> N -> Prop) (t : nat) : Prop :=
  let seen := view s t = total n s -> cnt s t = data s t -> E t = true in
  let agreed acc i := acc = view s t /\ conf t acc /\ forall k, (k < i)%nat -> acc <= view s k in
  match at_ s t with
  | Recv _ => True
  | Look got => got = 0 -> seen
  | Work got sent own => 0 < got + own
  | K0 => open_ s t = false /\ seen
  | KSum i acc => open_ s t = false /\ (i < n)%nat /\ acc <= sumf (data s) i /\
      view s t + sumf (data s) i <= acc + total n s /\
      (conf t (view s t) \/ view s t + sumf (data s) i < acc + total n s)
  | KReset acc => open_ s t = false /\ acc <= total n s /\ view s t <= acc /\ (swap = true -> vote s t = 0)
  | KViews i acc => open_ s t = false /\ (i < n)%nat /\ agreed acc i
  | KUnvote => open_ s t = false
  | KVote acc | KBack acc => open_ s t = false /\ agreed acc n
  | KSeen i acc => open_ s t = false /\ (i < n)%nat /\ agreed acc n /\ forall k, (k < i)%nat -> conf k acc
  | _ => False
  end.

Record inv (swap : bool) (n : nat) (s : st) (E : nat -> bool) (conf : nat -> N -> Prop) : Prop := Inv {
  i_dc : forall t, (t < n)%nat -> data s t <= cnt s t;
  i_empty : (forall t, (t < n)%nat -> settled s t) -> forall u, (u < n)%nat -> E u = true -> queue s u = 0;
  i_first : forall t, (t < n)%nat -> ~ settled s t -> exists u, (u < n)%nat /\ ~ settled s u /\ E u = false;
  i_view : forall t, (t < n)%nat -> view s t <= total n s;
  i_pc : forall t, (t < n)%nat -> pcok swap n s E conf t;
  i_vote : forall t, (t < n)%nat -> vote s t <> 0 ->
    torn swap (at_ s t) \/ (conf t (view s t) /\ forall j, (j < n)%nat -> view s t <= view s j);
  i_conf1 : forall t, (t < n)%nat -> conf t (total n s) -> E t = true /\ open_ s t = false;
  i_conf2 : forall t v, (t < n)%nat -> conf t v -> v <= total n s;
  i_conf3 : forall v, ~ (forall t, (t < n)%nat -> conf t v) }.

Lemma settled_dec s t : {settled s t} + {~ settled s t}.
Proof.
  unfold settled. destruct (idle (at_ s t)); [|right; by intros [? _]].
  destruct (N.eq_dec (cnt s t) (data s t)); [by left|right; by intros [_ ?]].
Qed.

(** When every thread is confirmed since the last change of [data], nothing is left. *)
Lemma all_empty swap n s E conf : inv swap n s E conf -> (forall t, (t < n)%nat -> E t = true) ->
  (forall t, (t < n)%nat -> settled s t) /\ forall t, (t < n)%nat -> queue s t = 0.
Proof.
  intros HI HE. assert (Hs : forall t, (t < n)%nat -> settled s t).
  { intros t Ht. destruct (settled_dec s t) as [H|H]; [done|]. destruct (i_first _ _ _ _ _ HI t Ht H) as (u & Hu & _ & H').
    rewrite HE in H' by done. discriminate. }
  split; [done|]. intros t Ht. apply (i_empty _ _ _ _ _ HI Hs t Ht). by apply HE.
Qed.

Lemma inv_start swap n own q c : inv swap n (start own q c) (fun _ => false) (fun _ _ => False) \/ over n (start own q c).
Proof.
  destruct n as [|n]; [right; split; intros t Ht; lia|left].
  constructor; unfold start; cbn [data cnt view vote at_ queue open_ pcok]; intros; try done; try lia.
  - eauto.
  - intros Ha. apply (Ha 0%nat). lia.
Qed.

(** Steps that touch only the place, the view and the vote of an idle thread. *)
Lemma inv_check swap n s s' E conf t : inv swap n s E conf -> (t < n)%nat ->
  open_ s' = open_ s -> queue s' = queue s -> cnt s' = cnt s -> data s' = data s ->
  (forall j, j <> t -> at_ s' j = at_ s j /\ view s' j = view s j /\ vote s' j = vote s j) ->
  idle (at_ s' t) = idle (at_ s t) -> view s t <= view s' t <= total n s -> pcok swap n s' E conf t ->
  (vote s' t <> 0 -> torn swap (at_ s' t) \/ (conf t (view s' t) /\ forall j, (j < n)%nat -> view s' t <= view s' j)) ->
  inv swap n s' E conf.
Proof.
  intros HI Ht Eo Eq Ec Ed Ho Hid [Hv1 Hv2] Hpc Hvo.
  assert (Hset : forall j, settled s' j <-> settled s j).
  { intros j. unfold settled. rewrite Ec, Ed. destruct (decide (j = t)) as [->|Hne]; [by rewrite Hid|].
    destruct (Ho j Hne) as (-> & _ & _). done. }
  assert (Htot : total n s' = total n s) by (unfold total; by rewrite Ed).
  assert (Hvm : forall j, view s j <= view s' j).
  { intros j. destruct (decide (j = t)) as [->|Hne]; [done|]. destruct (Ho j Hne) as (_ & -> & _). lia. }
  constructor.
  - rewrite Ec, Ed. apply (i_dc _ _ _ _ _ HI).
  - rewrite Eq. intros Hs. apply (i_empty _ _ _ _ _ HI). intros j Hj. apply Hset; auto.
  - intros j Hj Hs. destruct (i_first _ _ _ _ _ HI j Hj) as (u & Hu & Hsu & HE); [by rewrite <- Hset|].
    exists u. by rewrite Hset.
  - intros j Hj. rewrite Htot. destruct (decide (j = t)) as [->|Hne]; [done|]. destruct (Ho j Hne) as (_ & -> & _). by apply (i_view _ _ _ _ _ HI).
  - intros j Hj. destruct (decide (j = t)) as [->|Hne]; [done|]. pose proof (i_pc _ _ _ _ _ HI j Hj) as Hp.
    unfold pcok in *. destruct (Ho j Hne) as (-> & -> & ->). rewrite Eo, Ec, Ed, Htot.
    destruct (at_ s j); try done; try (naive_solver (eauto using N.le_trans)).
  - intros j Hj Hne0. destruct (decide (j = t)) as [->|Hne]; [by apply Hvo|]. destruct (Ho j Hne) as (Ea & Evw & Evt).
    rewrite Ea, Evw. rewrite Evt in Hne0. destruct (i_vote _ _ _ _ _ HI j Hj Hne0) as [?|[Hc Hv]]; [by left|right].
    split; [done|]. intros k Hk. etransitivity; [by apply Hv|done].
  - rewrite Htot, Eo. apply (i_conf1 _ _ _ _ _ HI).
  - rewrite Htot. apply (i_conf2 _ _ _ _ _ HI).
  - apply (i_conf3 _ _ _ _ _ HI).
Qed.

(** Steps of the work phases: [data], views and votes stay, and [t] is busy afterwards, or was. *)
Lemma inv_work swap n s s' E E' conf t : inv swap n s E conf -> (t < n)%nat ->
  view s' = view s -> vote s' = vote s -> data s' = data s ->
  (forall j, j <> t -> at_ s' j = at_ s j /\ open_ s' j = open_ s j /\ cnt s' j = cnt s j /\ E' j = E j) ->
  (open_ s t = false -> open_ s' t = false) -> cnt s t <= cnt s' t ->
  ~ torn swap (at_ s t) ->
  (open_ s' t = false -> E t = true -> E' t = true) -> (conf t (total n s) -> E' t = true) ->
  pcok swap n s' E' conf t ->
  ((forall j, (j < n)%nat -> settled s' j) -> (forall j, (j < n)%nat -> settled s j) /\
     (forall j, (j < n)%nat -> E' j = true -> queue s' j = 0)) ->
  (settled s t -> ~ settled s' t -> E' t = false \/ exists u, (u < n)%nat /\ u <> t /\ ~ settled s u /\ E u = false) ->
  (~ settled s t -> ~ settled s' t /\ (E t = false -> E' t = false)) ->
  inv swap n s' E' conf.
Proof.
  intros HI Ht Ev Evo Ed Ho Hop Hcnt Htorn HE1 HE2 Hpc Hall Hbusy Hstay.
  assert (Hset : forall j, j <> t -> settled s' j <-> settled s j).
  { intros j Hne. unfold settled. rewrite Ed. destruct (Ho j Hne) as (-> & _ & -> & _). done. }
  assert (Htot : total n s' = total n s) by (unfold total; by rewrite Ed).
  constructor.
  - intros j Hj. rewrite Ed. destruct (decide (j = t)) as [->|Hne]; [etransitivity; [by apply (i_dc _ _ _ _ _ HI)|done]|].
    destruct (Ho j Hne) as (_ & _ & -> & _). by apply (i_dc _ _ _ _ _ HI).
  - intros Hs. by apply Hall.
  - intros j Hj Hs.
    assert (exists u, (u < n)%nat /\ ~ settled s' u /\ E' u = false) as Hex; [|done].
    destruct (settled_dec s' t) as [Hst'|Hst'].
    + assert (j <> t) as Hne by (intros ->; done). rewrite Hset in Hs by done.
      destruct (i_first _ _ _ _ _ HI j Hj Hs) as (u & Hu & Hsu & HE). exists u.
      destruct (decide (u = t)) as [->|Hnu]; [exfalso; by destruct (Hstay Hsu)|].
      destruct (Ho u Hnu) as (_ & _ & _ & ->). by rewrite Hset.
    + destruct (settled_dec s t) as [Hst|Hst].
      * destruct (Hbusy Hst Hst') as [Hf|(u & Hu & Hnu & Hsu & HE)]; [by exists t|].
        exists u. destruct (Ho u Hnu) as (_ & _ & _ & ->). by rewrite Hset.
      * destruct (i_first _ _ _ _ _ HI t Ht Hst) as (u & Hu & Hsu & HE). exists u.
        destruct (decide (u = t)) as [->|Hnu]; [by split_and!; [| |apply Hstay]|].
        destruct (Ho u Hnu) as (_ & _ & _ & ->). by rewrite Hset.
  - rewrite Ev, Htot. apply (i_view _ _ _ _ _ HI).
  - intros j Hj. destruct (decide (j = t)) as [->|Hne]; [done|]. pose proof (i_pc _ _ _ _ _ HI j Hj) as Hp.
    unfold pcok in *. destruct (Ho j Hne) as (-> & -> & -> & ->). by rewrite Ed, Htot, Ev, Evo.
  - intros j Hj. rewrite Ev, Evo. intros Hne0. destruct (i_vote _ _ _ _ _ HI j Hj Hne0) as [Htj|?]; [|by right].
    left. destruct (decide (j = t)) as [->|Hne]; [done|]. by destruct (Ho j Hne) as (-> & _ & _ & _).
  - intros j Hj Hc. rewrite Htot in Hc. destruct (i_conf1 _ _ _ _ _ HI j Hj Hc) as [H1 H2].
    destruct (decide (j = t)) as [->|Hne]; [by auto|]. by destruct (Ho j Hne) as (_ & -> & _ & ->).
  - rewrite Htot. apply (i_conf2 _ _ _ _ _ HI).
  - apply (i_conf3 _ _ _ _ _ HI).
Qed.

Lemma all_settled_dec s n : (forall t, (t < n)%nat -> settled s t) \/ exists t, (t < n)%nat /\ ~ settled s t.
Proof.
  induction n as [|n [IH|(t & Ht & Hs)]]; [left; intros; lia| |right; exists t; split; [lia|done]].
  destruct (settled_dec s n) as [Hn|Hn]; [left|right; exists n; split; [lia|done]].
  intros t Ht. destruct (decide (t = n)) as [->|]; [done|apply IH; lia].
Qed.

Lemma step_recv swap n s E conf t got c : inv swap n s E conf -> (t < n)%nat -> at_ s t = Recv got ->
  exists E', inv swap n (go swap n s t c) E' conf.
Proof.
  intros HI Ht Hp. unfold go. rewrite Hp.
  assert (Hrec : queue s t = 0 \/ got <> 0 -> exists E', inv swap n (received s t got) E' conf).
  { intros Hq. unfold received.
    exists (if (got =? 0) && (cnt s t =? data s t) then fset E t true else E).
    apply (inv_work _ _ s _ E _ _ t); try done.
    - intros j Hne. cbn [at_pc at_ open_ cnt]. rewrite fset_ne by done. split_and!; try done. case_match; fs; done.
    - rewrite Hp. by intros [_ []].
    - intros _ HE. case_match; fs; done.
    - intros Hc. destruct (i_conf1 _ _ _ _ _ HI t Ht Hc) as [HE _]. case_match; fs; done.
    - unfold pcok. cbn [at_pc at_ view cnt data open_ vote]. fs.
      assert (total n (at_pc s t (if open_ s t then Look got else if got =? 0 then K0 else Work got 0 0)) = total n s) as -> by done.
      destruct (open_ s t) eqn:Hop.
      + intros -> Hv Hcd. cbn [N.eqb andb]. destruct (N.eqb_spec (cnt s t) (data s t)); [by fs|done].
      + destruct (N.eqb_spec got 0) as [->|Hg]; [|lia]. split; [done|]. intros Hv Hcd.
        cbn [andb]. destruct (N.eqb_spec (cnt s t) (data s t)); [by fs|done].
    - assert (Hset : forall j, settled (at_pc s t (if open_ s t then Look got else if got =? 0 then K0 else Work got 0 0)) j <-> settled s j).
      { intros j. unfold settled. cbn [at_pc at_ cnt data]. destruct (decide (j = t)) as [->|Hne]; fs; [|done].
        rewrite Hp. cbn [idle]. destruct (open_ s t); [done|]. destruct (N.eqb_spec got 0); done. }
      intros Hs. split; [intros j Hj; apply Hset; auto|]. intros j Hj HE'.
      destruct (decide (j = t)) as [->|Hne].
      + cbn [at_pc queue]. destruct Hq as [?|Hg]; [done|]. specialize (Hs t Ht). rewrite Hset in Hs. unfold settled in Hs. rewrite Hp in Hs. cbn in Hs.
        destruct Hs as [Hs _]. apply N.eqb_eq in Hs. done.
      + apply (i_empty _ _ _ _ _ HI); [intros k Hk; apply Hset; auto|done|]. case_match; fs; done.
    - intros Hs Hs'. exfalso. apply Hs'. revert Hs. unfold settled. rewrite Hp. cbn [at_pc at_ cnt data]. fs. cbn [idle].
      destruct (open_ s t); [done|]. destruct (N.eqb_spec got 0); done.
    - intros Hs. split.
      + intros Hs'. apply Hs. revert Hs'. unfold settled. rewrite Hp. cbn [at_pc at_ cnt data]. fs. cbn [idle].
        destruct (open_ s t); [done|]. destruct (N.eqb_spec got 0); done.
      + intros HE. unfold settled in Hs. rewrite Hp in Hs. cbn [idle] in Hs.
        destruct (N.eqb_spec got 0); [|done]. destruct (N.eqb_spec (cnt s t) (data s t)); [|done]. by destruct Hs. }
  destruct c; try (by exists E).
  - destruct (N.eqb_spec (queue s t) 0) as [Hq|Hq]; [apply Hrec; by left|].
    exists E. apply (inv_work _ _ s _ E _ _ t); try done.
    + intros j Hne. cbn. by rewrite fset_ne.
    + rewrite Hp. by intros [_ []].
    + intros Hc. by destruct (i_conf1 _ _ _ _ _ HI t Ht Hc).
    + unfold pcok. cbn. by rewrite fset_eq.
    + intros Hs. specialize (Hs t Ht). unfold settled in Hs. cbn in Hs. rewrite fset_eq in Hs. cbn [idle] in Hs. destruct Hs as [Hs _]. apply N.eqb_eq in Hs. lia.
    + intros Hs _. destruct (E t) eqn:HE; [right|by left].
      destruct (all_settled_dec s n) as [Ha|(j & Hj & Hsj)]; [by rewrite (i_empty _ _ _ _ _ HI Ha t Ht HE) in Hq|].
      destruct (i_first _ _ _ _ _ HI j Hj Hsj) as (u & Hu & Hsu & HEu). exists u. split_and!; try done. by intros ->.
    + intros _. split; [|done]. unfold settled. cbn. rewrite fset_eq. cbn [idle]. intros [Hs _]. apply N.eqb_eq in Hs. lia.
  - destruct (N.eqb_spec got 0) as [->|Hg]; [by exists E|]. apply Hrec. by right.
Qed.

Lemma step_look swap n s E conf t got c : inv swap n s E conf -> (t < n)%nat -> at_ s t = Look got ->
  exists E', inv swap n (go swap n s t c) E' conf.
Proof.
  intros HI Ht Hp. unfold go. rewrite Hp. pose proof (i_pc _ _ _ _ _ HI t Ht) as Hpc. unfold pcok in Hpc. rewrite Hp in Hpc.
  assert (Hgo : forall s', at_ s' = at_ s -> view s' = view s -> vote s' = vote s -> data s' = data s -> queue s' = queue s -> cnt s' = cnt s ->
    (forall j, j <> t -> open_ s' j = open_ s j) -> (open_ s t = false -> open_ s' t = false) ->
    forall p, idle p = (got =? 0) -> pcok swap n (at_pc s' t p) E conf t -> inv swap n (at_pc s' t p) E conf).
  { intros s' Ea Ev Evo Ed Eq Ec Eo Ho p Hid Hpk. apply (inv_work _ _ s _ E _ _ t); try done.
    - intros j Hne. cbn. rewrite Ea, Ec. rewrite fset_ne by done. by rewrite Eo.
    - cbn. rewrite Ec. done.
    - rewrite Hp. by intros [_ []].
    - intros Hc. by destruct (i_conf1 _ _ _ _ _ HI t Ht Hc).
    - intros Hs. assert (Hss : forall j, (j < n)%nat -> settled s j).
      { intros j Hj. specialize (Hs j Hj). unfold settled in *. cbn in Hs. rewrite Ea, Ec, Ed in Hs. destruct (decide (j = t)) as [->|Hne]; fs; [|done].
        rewrite Hp. cbn [idle]. by rewrite <- Hid. }
      split; [done|]. cbn. rewrite Eq. by apply (i_empty _ _ _ _ _ HI).
    - intros Hs Hs'. exfalso. apply Hs'. unfold settled in *. cbn. rewrite Ea, Ec, Ed. fs. rewrite Hp in Hs. cbn [idle] in Hs. by rewrite Hid.
    - intros Hs. split; [|done]. intros Hs'. apply Hs. unfold settled in *. cbn in Hs'. rewrite Ea, Ec, Ed in Hs'. fs. rewrite Hp. cbn [idle]. by rewrite <- Hid. }
  destruct c; try (by exists E).
  - exists E. apply Hgo; try done; [by destruct (N.eqb_spec got 0) as [->|]|]. unfold pcok. cbn. fs. destruct (N.eqb_spec got 0); [done|lia].
  - destruct (open_ s t) eqn:Hop; [|by exists E]. exists (fset E t false). apply (inv_work _ _ s _ E _ _ t); try done.
    + intros j Hne. cbn. by rewrite !fset_ne.
    + rewrite Hp. by intros [_ []].
    + cbn. rewrite Hop. done.
    + intros Hc. destruct (i_conf1 _ _ _ _ _ HI t Ht Hc). congruence.
    + unfold pcok. cbn. fs. lia.
    + intros Hs. specialize (Hs t Ht). unfold settled in Hs. cbn in Hs. rewrite fset_eq in Hs. by destruct Hs.
    + intros _ _. left. by fs.
    + intros _. split; [|by fs]. unfold settled. cbn. rewrite fset_eq. by intros [? _].
  - exists E. apply Hgo; try done; cbn; fs; [intros; by fs|by fs|by destruct (N.eqb_spec got 0) as [->|]|].
    unfold pcok. cbn. fs. destruct (N.eqb_spec got 0) as [->|Hg]; [|lia]. split; [done|]. by apply Hpc.
Qed.

Lemma step_work swap n s E conf t got sent own c : inv swap n s E conf -> (t < n)%nat -> at_ s t = Work got sent own ->
  exists E', inv swap n (go swap n s t c) E' conf.
Proof.
  intros HI Ht Hp. unfold go. rewrite Hp. pose proof (i_pc _ _ _ _ _ HI t Ht) as Hpc. unfold pcok in Hpc. rewrite Hp in Hpc.
  pose proof (i_dc _ _ _ _ _ HI t Ht) as Hdc.
  exists E. destruct c; try done.
  - destruct (Nat.ltb_spec u n) as [Hu|]; [|done]. apply (inv_work _ _ s _ E _ _ t); try done.
    + intros j Hne. cbn. by rewrite fset_ne.
    + rewrite Hp. by intros [_ []].
    + intros Hc. by destruct (i_conf1 _ _ _ _ _ HI t Ht Hc).
    + unfold pcok. cbn. by fs.
    + intros Hs. specialize (Hs t Ht). unfold settled in Hs. cbn in Hs. rewrite fset_eq in Hs. by destruct Hs.
    + unfold settled. rewrite Hp. by intros [? _].
    + intros _. split; [|done]. unfold settled. cbn. rewrite fset_eq. by intros [? _].
  - apply (inv_work _ _ s _ E _ _ t); try done.
    + intros j Hne. cbn. by rewrite !fset_ne.
    + cbn. fs. lia.
    + rewrite Hp. by intros [_ []].
    + intros Hc. by destruct (i_conf1 _ _ _ _ _ HI t Ht Hc).
    + unfold pcok. cbn. by fs.
    + intros Hs. specialize (Hs t Ht). unfold settled in Hs. cbn in Hs. rewrite !fset_eq in Hs. lia.
    + unfold settled. rewrite Hp. by intros [? _].
    + intros _. split; [|done]. unfold settled. cbn. rewrite !fset_eq. lia.
  - apply (inv_work _ _ s _ E _ _ t); try done.
    + intros j Hne. cbn. by rewrite !fset_ne.
    + cbn. by fs.
    + cbn. fs. lia.
    + rewrite Hp. by intros [_ []].
    + intros Hc. by destruct (i_conf1 _ _ _ _ _ HI t Ht Hc).
    + unfold pcok. cbn. fs. split; [done|]. lia.
    + intros Hs. specialize (Hs t Ht). unfold settled in Hs. cbn in Hs. rewrite !fset_eq in Hs. lia.
    + unfold settled. rewrite Hp. by intros [? _].
    + intros _. split; [|done]. unfold settled. cbn. rewrite !fset_eq. lia.
  - destruct (N.eqb_spec own 0) as [|Hown]; [done|]. cbv zeta.
    destruct closed.
    + apply (inv_work _ _ s _ E _ _ t); try done.
      * intros j Hne. cbn. by rewrite !fset_ne.
      * cbn. by fs.
      * cbn. fs. lia.
      * rewrite Hp. by intros [_ []].
      * intros Hc. by destruct (i_conf1 _ _ _ _ _ HI t Ht Hc).
      * unfold pcok. cbn. by fs.
      * intros Hs. specialize (Hs t Ht). unfold settled in Hs. cbn in Hs. rewrite !fset_eq in Hs. lia.
      * unfold settled. rewrite Hp. by intros [? _].
      * intros _. split; [|done]. unfold settled. cbn. rewrite !fset_eq. lia.
    + apply (inv_work _ _ s _ E _ _ t); try done.
      * intros j Hne. cbn. by rewrite !fset_ne.
      * cbn. fs. lia.
      * rewrite Hp. by intros [_ []].
      * intros Hc. by destruct (i_conf1 _ _ _ _ _ HI t Ht Hc).
      * unfold pcok. cbn. by fs.
      * intros Hs. specialize (Hs t Ht). unfold settled in Hs. cbn in Hs. rewrite !fset_eq in Hs. lia.
      * unfold settled. rewrite Hp. by intros [? _].
      * intros _. split; [|done]. unfold settled. cbn. rewrite !fset_eq. lia.
Qed.

Lemma step_k0_changed swap n s E conf t : inv swap n s E conf -> (t < n)%nat -> at_ s t = K0 -> cnt s t <> data s t ->
  inv swap n (at_pc (set_data s t (cnt s t)) t (KSum 0 0)) (fun _ => false) conf.
Proof.
  intros HI Ht Hp Hne. pose proof (i_pc _ _ _ _ _ HI t Ht) as Hpc. unfold pcok in Hpc. rewrite Hp in Hpc. destruct Hpc as [Hop _].
  pose proof (i_dc _ _ _ _ _ HI t Ht) as Hdc. set (s' := at_pc _ _ _).
  assert (Hmono : forall k, (k < n)%nat -> data s k <= data s' k).
  { intros k Hk. subst s'. cbn. destruct (decide (k = t)) as [->|Hn]; fs; lia. }
  assert (Hlt : total n s < total n s').
  { apply (sumf_lt _ _ n t); [done|done|]. subst s'. cbn. fs. lia. }
  constructor; try done.
  - intros j Hj. subst s'. cbn. destruct (decide (j = t)) as [->|Hn]; fs; [lia|by apply (i_dc _ _ _ _ _ HI)].
  - intros j Hj Hs. by exists j.
  - intros j Hj. pose proof (i_view _ _ _ _ _ HI j Hj). subst s'. cbn [at_pc set_data view] in *. lia.
  - intros j Hj. pose proof (i_pc _ _ _ _ _ HI j Hj) as Hj'. pose proof (i_view _ _ _ _ _ HI j Hj) as Hvj.
    unfold pcok in *. change (view s') with (view s). change (open_ s') with (open_ s). change (vote s') with (vote s).
    destruct (decide (j = t)) as [->|Hn].
    + subst s'. cbn [at_pc set_data at_]. fs. cbn [sumf]. split_and!; try done; try lia.
    + assert (at_ s' j = at_ s j) as -> by (subst s'; cbn; by fs).
      assert (data s' j = data s j) as -> by (subst s'; cbn; by fs).
      destruct (at_ s j); try done; try (naive_solver lia).
      destruct Hj' as (H1 & H2 & H3 & H4 & H5).
      assert (sumf (data s) i <= sumf (data s') i) by (apply sumf_mono; intros; apply Hmono; lia).
      pose proof (sumf_tail (data s) (data s') i n ltac:(lia) Hmono) as Htl. fold (total n s) in Htl. fold (total n s') in Htl.
      split_and!; try done; try lia. destruct H5; [by left|right; lia].
  - intros j Hj Hv. change (vote s') with (vote s) in Hv. change (view s') with (view s).
    destruct (i_vote _ _ _ _ _ HI j Hj Hv) as [Htj|?]; [left|by right].
    destruct (decide (j = t)) as [->|Hn]; [rewrite Hp in Htj; by destruct Htj as [_ []]|]. subst s'. cbn. by fs.
  - intros j Hj Hc. pose proof (i_conf2 _ _ _ _ _ HI j _ Hj Hc). lia.
  - intros j v Hj Hc. pose proof (i_conf2 _ _ _ _ _ HI j _ Hj Hc). lia.
  - apply (i_conf3 _ _ _ _ _ HI).
Qed.

Lemma all_E_dec (E : nat -> bool) (o : nat -> bool) n : (forall t, (t < n)%nat -> E t = true /\ o t = false) \/ exists t, (t < n)%nat /\ (E t = false \/ o t = true).
Proof.
  induction n as [|n [IH|(t & Ht & Hs)]]; [left; intros; lia| |right; exists t; split; [lia|done]].
  destruct (E n) eqn:HE; [|right; exists n; split; [lia|by left]]. destruct (o n) eqn:Ho; [right; exists n; split; [lia|by right]|left].
  intros t Ht. destruct (decide (t = n)) as [->|]; [done|apply IH; lia].
Qed.

Lemma step_k0_same swap n s E conf t : inv swap n s E conf -> (t < n)%nat -> at_ s t = K0 -> cnt s t = data s t ->
  let s' := at_pc (set_data s t (cnt s t)) t (KSum 0 0) in
  (exists conf', inv swap n s' E conf') \/ over n s'.
Proof.
  intros HI Ht Hp Heq s'. pose proof (i_pc _ _ _ _ _ HI t Ht) as Hpc. unfold pcok in Hpc. rewrite Hp in Hpc. destruct Hpc as [Hop Hseen].
  assert (Hd : forall k, data s' k = data s k).
  { intros k. subst s'. cbn. destruct (decide (k = t)) as [->|Hn]; fs; done. }
  assert (Hsum : forall k, sumf (data s') k = sumf (data s) k) by (intros; by apply sumf_ext).
  assert (Htot : total n s' = total n s) by apply Hsum.
  assert (Hset : forall j, settled s' j <-> settled s j).
  { intros j. unfold settled. rewrite Hd. change (cnt s') with (cnt s). destruct (decide (j = t)) as [->|Hn].
    - rewrite Hp. subst s'. cbn [at_pc at_]. by fs.
    - assert (at_ s' j = at_ s j) as -> by (subst s'; cbn; by fs). done. }
  pose proof (i_view _ _ _ _ _ HI t Ht) as Hvt.
  set (conf' := fun j v => conf j v \/ (j = t /\ v = total n s /\ view s t = total n s)).
  destruct (all_E_dec E (open_ s) n) as [Hall|(w & Hw & Hwe)].
  - right. destruct (all_empty _ _ _ _ _ HI) as [Hs Hq]; [intros j Hj; by apply Hall|].
    split; [|intros j Hj; rewrite Hd; by apply Hs]. intros j Hj. pose proof (proj2 (Hset j) (Hs j Hj)) as [Hi _].
    change (queue s') with (queue s). change (open_ s') with (open_ s). split_and!; [done|by apply Hq|by apply Hall].
  - left. exists conf'. constructor.
    + intros j Hj. rewrite Hd. by apply (i_dc _ _ _ _ _ HI).
    + intros Hs. apply (i_empty _ _ _ _ _ HI). intros j Hj. apply Hset. auto.
    + intros j Hj Hs. rewrite Hset in Hs. destruct (i_first _ _ _ _ _ HI j Hj Hs) as (u & Hu & Hsu & HE). exists u. by rewrite Hset.
    + intros j Hj. rewrite Htot. by apply (i_view _ _ _ _ _ HI).
    + intros j Hj. pose proof (i_pc _ _ _ _ _ HI j Hj) as Hj'.
      unfold pcok in *. rewrite Htot, Hd. change (view s') with (view s). change (open_ s') with (open_ s). change (vote s') with (vote s). change (cnt s') with (cnt s).
      destruct (decide (j = t)) as [->|Hn].
      * subst s'. cbn [at_pc set_data at_]. fs. cbn [sumf]. split_and!; try done; try lia.
        destruct (N.eq_dec (view s t) (total n s)) as [He|]; [|right; lia]. left. right. done.
      * assert (at_ s' j = at_ s j) as -> by (subst s'; cbn; by fs).
        destruct (at_ s j); try done; rewrite ?Hsum; unfold conf'; naive_solver.
    + intros j Hj Hv. change (vote s') with (vote s) in Hv. change (view s') with (view s).
      destruct (i_vote _ _ _ _ _ HI j Hj Hv) as [Htj|[? ?]]; [left|right; by split; [left|]].
      destruct (decide (j = t)) as [->|Hn]; [rewrite Hp in Htj; by destruct Htj as [_ []]|]. subst s'. cbn. by fs.
    + intros j Hj. rewrite Htot. intros [Hc|(-> & _ & He)]; [by apply (i_conf1 _ _ _ _ _ HI)|].
      split; [by apply Hseen|done].
    + intros j v Hj. rewrite Htot. intros [Hc|(-> & -> & He)]; [by apply (i_conf2 _ _ _ _ _ HI j)|lia].
    + intros v Hc. destruct (N.eq_dec v (total n s)) as [->|Hv].
      * destruct (Hc w Hw) as [Hcw|(-> & _ & He)].
        -- destruct (i_conf1 _ _ _ _ _ HI w Hw Hcw) as [H1 H2]. destruct Hwe; congruence.
        -- rewrite Hop in Hwe. rewrite Hseen in Hwe by done. by destruct Hwe.
      * apply (i_conf3 _ _ _ _ _ HI v). intros j Hj. destruct (Hc j Hj) as [?|(_ & ? & _)]; done.
Qed.

Lemma step_inv swap n s E conf t c : inv swap n s E conf -> (t < n)%nat ->
  (swap = true \/ forall i acc, at_ s t = KSeen i acc -> ~ torn swap (at_ s i)) ->
  (exists E' conf', inv swap n (go swap n s t c) E' conf') \/ over n (go swap n s t c).
Proof.
  intros HI Ht Hcalm. pose proof (i_pc _ _ _ _ _ HI t Ht) as Hpc. unfold pcok in Hpc.
  assert (Hvote : ~ torn swap (at_ s t) -> vote s t <> 0 -> conf t (view s t) /\ forall j, (j < n)%nat -> view s t <= view s j).
  { intros Hnt Hv. by destruct (i_vote _ _ _ _ _ HI t Ht Hv). }
  pose proof (i_view _ _ _ _ _ HI t Ht) as Hvt.
  destruct (at_ s t) as [got|got|got sent own| |i acc|acc|i acc| |acc|i acc|acc|acc|i|i| |i| ] eqn:Hp; try done.
  - left. destruct (step_recv swap n s E conf t got c HI Ht Hp) as [E' HE']. by exists E', conf.
  - left. destruct (step_look swap n s E conf t got c HI Ht Hp) as [E' HE']. by exists E', conf.
  - left. destruct (step_work swap n s E conf t got sent own c HI Ht Hp) as [E' HE']. by exists E', conf.
  - assert ((exists E' conf', inv swap n s E' conf') \/ over n s) as Hsame by (left; by exists E, conf).
    unfold go. rewrite Hp. destruct c; try exact Hsame. destruct (N.eq_dec (cnt s t) (data s t)) as [He|He].
    + destruct (step_k0_same swap n s E conf t HI Ht Hp He) as [[conf' H]|H]; [left|by right]. by exists E, conf'.
    + left. exists (fun _ => false), conf. by apply (step_k0_changed _ _ _ E).
  - left. exists E, conf. unfold go. rewrite Hp. destruct c; try done. cbv zeta.
    destruct Hpc as (Hop & Hi & Hacc & Hle & Hor).
    destruct (Nat.ltb_spec (S i) n) as [Hlt|Hge].
    + apply (inv_check _ _ s _ _ _ t); try done; cbn; try (intros; by fs); try (fs; rewrite Hp; done); try lia.
      * unfold pcok. cbn. fs. cbn [sumf]. change (total n (at_pc _ _ _)) with (total n s). split_and!; try done; try lia. destruct Hor; [by left|right; lia].
      * intros Hv. right. apply Hvote; [by intros [_ []]|done].
    + assert (n = S i) as Hn by lia. assert (Htt : total n s = sumf (data s) i + data s i) by (by rewrite Hn).
      destruct (N.eqb_spec (view s t) (acc + data s i)) as [Hv|Hv].
      * apply (inv_check _ _ s _ _ _ t); try done; cbn; try (intros; by fs); try (fs; rewrite Hp; done); try lia.
        -- unfold pcok. cbn. fs. rewrite <- Hv. split_and!; try done; try lia. destruct Hor; [done|lia].
        -- intros Hv0. right. apply Hvote; [by intros [_ []]|done].
      * destruct swap.
        -- apply (inv_check _ _ s _ _ _ t); try done; cbn; try (intros; by fs); try (fs; rewrite Hp; done); try lia.
           ++ unfold pcok. cbn. fs. change (total n (at_pc _ _ _)) with (total n s). split_and!; try done; lia.
        -- apply (inv_check _ _ s _ _ _ t); try done; cbn; try (intros; by fs); try (fs; rewrite Hp; done).
           ++ fs. lia.
           ++ unfold pcok. cbn. fs. change (total n (at_pc _ _ _)) with (total n s). split_and!; try done; lia.
           ++ intros _. left. split; [done|]. by fs.
  - left. exists E, conf. unfold go. rewrite Hp. destruct c; try done. destruct Hpc as (Hop & Hacc & Hle & Hv0). destruct swap.
    + apply (inv_check _ _ s _ _ _ t); try done; cbn; try (intros; by fs); try (fs; rewrite Hp; done).
      * unfold pcok. cbn. by fs.
      * rewrite Hv0 by done. done.
    + apply (inv_check _ _ s _ _ _ t); try done; cbn; try (intros; by fs); try (fs; rewrite Hp; done); try lia.
      * unfold pcok. cbn. by fs.
  - left. exists E, conf. unfold go. rewrite Hp. destruct c; try done. destruct Hpc as (Hop & Hi & Hacc & Hc & Hk).
    assert (Hcase : forall p, idle p = true -> pcok swap n (at_pc s t p) E conf t -> inv swap n (at_pc s t p) E conf).
    { intros p Hid Hpk. apply (inv_check _ _ s _ _ _ t); try done; cbn; try (intros; by fs); try lia.
      - fs. by rewrite Hp.
      - intros Hv. right. apply Hvote; [by intros [_ []]|done]. }
    destruct (N.eqb_spec (view s i) acc) as [Hvi|].
    + assert (Hk2 : forall k, (k < S i)%nat -> acc <= view s k).
      { intros k Hk'. destruct (decide (k = i)) as [->|]; [lia|apply Hk; lia]. }
      destruct (Nat.ltb_spec (S i) n) as [Hlt|Hge]; apply Hcase; try done; unfold pcok; cbn; fs; split_and!; try done.
      intros k Hk'. apply Hk2. lia.
    + apply Hcase; [done|]. unfold pcok. cbn. by fs.
  - left. exists E, conf. unfold go. rewrite Hp. destruct c; try done.
    apply (inv_check _ _ s _ _ _ t); try done; cbn; try (intros; by fs); try (fs; rewrite Hp; done); try lia.
    + unfold pcok. cbn. by fs.
  - left. exists E, conf. unfold go. rewrite Hp. destruct c; try done. destruct Hpc as (Hop & Hacc & Hc & Hk). subst acc.
    destruct (N.eqb_spec (vote s t) 0) as [Hz|Hz].
    all: apply (inv_check _ _ s _ _ _ t); try done; cbn; try (intros; by fs); try (fs; rewrite Hp; done); try lia; try (intros _; by right).
    all: unfold pcok; cbn; fs; split_and!; try done; lia.
  - left. exists E, conf. unfold go. rewrite Hp. destruct c; try done. destruct Hpc as (Hop & Hi & (Hacc & Hc & Hk) & Hck). subst acc.
    destruct (N.eqb_spec (vote s i) 0) as [Hz|Hnz].
    + apply (inv_check _ _ s _ _ _ t); try done; cbn; try (intros; by fs); try (fs; rewrite Hp; done); try lia.
      * unfold pcok. cbn. by fs.
      * intros Hv. right. done.
    + assert (Hci : conf i (view s t)).
      { destruct (i_vote _ _ _ _ _ HI i Hi Hnz) as [Htorn|[Hci Hvi]].
        - exfalso. destruct Hcalm as [Hsw|Hcalm]; [by destruct Htorn; congruence|]. by apply (Hcalm i (view s t) eq_refl).
        - specialize (Hvi t Ht). specialize (Hk i Hi). assert (view s t = view s i) as -> by lia. done. }
      assert (Hck' : forall k, (k < S i)%nat -> conf k (view s t)).
      { intros k Hk'. destruct (decide (k = i)) as [->|]; [done|apply Hck; lia]. }
      destruct (Nat.ltb_spec (S i) n) as [Hlt|Hge].
      * apply (inv_check _ _ s _ _ _ t); try done; cbn; try (intros; by fs); try (fs; rewrite Hp; done); try lia.
        -- unfold pcok. cbn. by fs.
        -- intros Hv. right. done.
      * exfalso. apply (i_conf3 _ _ _ _ _ HI (view s t)). intros k Hk'. apply Hck'. lia.
  - left. exists E, conf. unfold go. rewrite Hp. destruct c; try done. destruct Hpc as (Hop & Hacc & Hc & Hk). subst acc.
    apply (inv_check _ _ s _ _ _ t); try done; cbn; try (intros; by fs); try (fs; rewrite Hp; done); try lia.
    + unfold pcok. cbn. by fs.
    + intros _. right. done.
Qed.

(** No thread reads, at line 64, the vote of a thread that is between lines 44 and 45. *)
Fixpoint tidy (swap : bool) (n : nat) (s : st) (sched : list (nat * choice)) : Prop :=
  match sched with
  | [] => True
  | x :: rest => (forall i acc, at_ s (fst x) = KSeen i acc -> forall a, at_ s i <> KReset a) /\ tidy swap n (step swap n s x) rest
  end.

Lemma exec_inv swap n sched : forall s, (swap = true \/ tidy swap n s sched) ->
  (exists E conf, inv swap n s E conf) \/ over n s -> (exists E conf, inv swap n (exec swap n s sched) E conf) \/ over n (exec swap n s sched).
Proof.
  induction sched as [|[t c] rest IH]; intros s Hti HI; [done|]. cbn [exec fold_left]. apply IH.
  - destruct Hti as [?|[_ Ht]]; [by left|by right].
  - destruct HI as [(E & conf & HI)|Hq]; [|right; by apply over_step].
    unfold step. cbn [fst snd]. destruct (Nat.ltb_spec t n) as [Ht|]; [|left; by exists E, conf].
    apply (step_inv _ _ _ E conf); [done|done|]. destruct Hti as [?|[Hr _]]; [by left|right].
    intros i acc Ha [_ Htn]. cbn [fst] in Hr. specialize (Hr i acc Ha). destruct (at_ s i); try done. by apply (Hr acc0).
Qed.

Lemma done_quiet swap n own q c sched t : (swap = true \/ tidy swap n (start own q c) sched) -> (t < n)%nat ->
  at_ (exec swap n (start own q c) sched) t = Done -> quiet n (exec swap n (start own q c) sched).
Proof.
  intros Hti Ht Hd. destruct (exec_inv swap n sched (start own q c) Hti) as [(E & conf & HI)|[Hq _]]; [| |done].
  - destruct (inv_start swap n own q c) as [HI|Hq]; [left; by eexists _, _|by right].
  - exfalso. pose proof (i_pc _ _ _ _ _ HI t Ht) as Hp. unfold pcok in Hp. by rewrite Hd in Hp.
Qed.
