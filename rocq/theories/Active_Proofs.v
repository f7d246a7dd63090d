(** Proofs about the engine with active notifications: the activity counter. *)
From Verif Require Import Base Active_Spec Active_Model.

Lemma upd_eq {A} (f : nat -> A) i x : upd f i x i = x.
Proof. unfold upd. by rewrite Nat.eqb_refl. Qed.
Lemma upd_ne {A} (f : nat -> A) i j x : j <> i -> upd f i x j = f j.
Proof. intros H. unfold upd. by destruct (Nat.eqb_spec j i). Qed.
Ltac us := repeat (rewrite upd_eq in * || (rewrite upd_ne in * by (first [assumption | apply not_eq_sym; assumption | congruence | lia]))).

Fixpoint sumt (f : nat -> nat) (n : nat) : nat := match n with O => 0 | S k => sumt f k + f k end.
Lemma sumt_ext f g n : (forall k, (k < n)%nat -> f k = g k) -> sumt f n = sumt g n.
Proof. induction n as [|n IH]; intros H; simpl; [done|]. rewrite IH, H; [done|lia|intros; apply H; lia]. Qed.
Lemma sumt_change f g n t : (t < n)%nat -> (forall k, (k < n)%nat -> k <> t -> f k = g k) -> sumt f n + g t = sumt g n + f t.
Proof.
  induction n as [|n IH]; intros Ht H; [lia|]. simpl. destruct (decide (t = n)) as [->|Hne].
  - rewrite (sumt_ext f g n); [lia|]. intros k Hk. apply H; lia.
  - rewrite (H n) by lia. pose proof (IH ltac:(lia) ltac:(intros; apply H; lia)). lia.
Qed.
Lemma sumt_zero f n : (forall k, (k < n)%nat -> f k = 0) -> sumt f n = 0.
Proof. induction n as [|n IH]; intros H; simpl; [done|]. rewrite IH, H; [done|lia|intros; apply H; lia]. Qed.
Lemma sumt_ge f n t : (t < n)%nat -> f t <= sumt f n.
Proof. induction n as [|n IH]; intros Ht; [lia|]. simpl. destruct (decide (t = n)) as [->|]; [lia|]. pose proof (IH ltac:(lia)). lia. Qed.

Lemma count_app {A} (p : A -> bool) l l' : count p (l ++ l') = count p l + count p l'.
Proof. induction l as [|x l IH]; simpl; [done|]. lia. Qed.
Lemma count_in {A} (p : A -> bool) l x : x ∈ l -> p x = true -> (0 < count p l)%nat.
Proof. induction 1 as [|? ? ? H IH]; simpl; intros Hp; [rewrite Hp; lia|]. specialize (IH Hp). lia. Qed.

Section proofs.
Context (a : aalg) (owner : nat -> nat) (n : nat).

(** Notifications of [v] that are put, or popped and not yet counted as handled. *)
Definition putting v : list (aop a) -> nat := count (fun o => match o with APut d _ => (d =? v)%nat | _ => false end).
Definition popped v : list (aop a) -> nat := count (fun o => match o with ADec d _ => (d =? v)%nat | _ => false end).
Definition waiting v : list (nat * n_t a) -> nat := count (fun '(d, _) => (d =? v)%nat).
Definition amine (t : nat) (o : aop a) : Prop := match o with ADec v _ | Handle v _ _ | Added v _ => owner v = t | _ => True end.

Record ainv (s : ast a) : Prop := Ainv {
  i_act : forall v, aact s v = waiting v (aqueue s (owner v)) + sumt (fun t => putting v (atodo s t)) n + sumt (fun t => popped v (atodo s t)) n;
  i_queue : forall t v x, (v, x) ∈ aqueue s t -> owner v = t;
  i_mine : forall t o, o ∈ atodo s t -> (t < n)%nat /\ amine t o;
  i_head : forall t v x rest o, atodo s t = o :: rest -> ADec v x ∈ rest -> False;
  i_one : forall t o rest v x k, atodo s t = o :: rest -> Handle v x k ∈ rest -> False;
  i_add : forall t o rest v k, atodo s t = o :: rest -> Added v k ∈ rest -> False;
  i_began : forall v, began v (alog s) = aact s v + handled v (alog s);
  i_ended : forall v, ended v (alog s) + sumt (fun t => putting v (atodo s t)) n = began v (alog s);
  i_keep : forall t v x k, Handle v x k ∈ atodo s t -> k <= aact s v }.

Lemma sends_plain l o : o ∈ sends a l -> exists d x, o = Inc d x.
Proof. intros H. apply elem_of_list_fmap in H. destruct H as ([d x] & -> & _). eauto. Qed.
Lemma putting_sends v l : count (fun o : aop a => match o with APut d _ => (d =? v)%nat | _ => false end) (sends a l) = 0.
Proof. induction l as [|[d x] l IH]; [done|]. exact IH. Qed.
Lemma popped_sends v l : count (fun o : aop a => match o with ADec d _ => (d =? v)%nat | _ => false end) (sends a l) = 0.
Proof. induction l as [|[d x] l IH]; [done|]. exact IH. Qed.

Lemma ainv_start p es : ainv (astart a p es).
Proof.
  constructor; cbn; intros; try done.
  - by rewrite !sumt_zero.
  - by apply elem_of_nil in H.
  - by apply elem_of_nil in H.
  - by rewrite sumt_zero.
  - by apply elem_of_nil in H.
Qed.

Lemma sum_upd (f : list (aop a) -> nat) (s : ast a) t l td : (t < n)%nat -> td = upd (atodo s) t l ->
  sumt (fun k => f (td k)) n + f (atodo s t) = sumt (fun k => f (atodo s k)) n + f l.
Proof.
  intros Ht ->. pose proof (sumt_change (fun k => f (upd (atodo s) t l k)) (fun k => f (atodo s k)) n t Ht) as Hc. simpl in Hc.
  rewrite Hc; [by rewrite upd_eq|]. intros k Hk Hne. by rewrite upd_ne.
Qed.

(** A step that changes what [t] has to do into [l]. *)
Lemma ainv_step (s s' : ast a) t l : ainv s -> (t < n)%nat -> atodo s' = upd (atodo s) t l ->
  (forall v, aact s' v + waiting v (aqueue s (owner v)) + putting v (atodo s t) + popped v (atodo s t)
           = aact s v + waiting v (aqueue s' (owner v)) + putting v l + popped v l) ->
  (forall k v x, (v, x) ∈ aqueue s' k -> owner v = k) ->
  (forall o, o ∈ l -> amine t o) ->
  (forall o rest o', l = o :: rest -> o' ∈ rest -> match o' with Inc _ _ | APut _ _ => True | _ => False end) ->
  (forall v, began v (alog s') + aact s v + handled v (alog s) = began v (alog s) + aact s' v + handled v (alog s')) ->
  (forall v, ended v (alog s') + putting v l + began v (alog s) = ended v (alog s) + putting v (atodo s t) + began v (alog s')) ->
  (forall k v x i, k <> t -> Handle v x i ∈ atodo s k -> aact s v <= aact s' v) ->
  (forall v x i, Handle v x i ∈ l -> i <= aact s' v) ->
  ainv s'.
Proof.
  intros HI Ht Et Hact Hq Hm Hl Hb He Hk1 Hk2. constructor.
  - intros v. pose proof (i_act _ HI v). pose proof (Hact v). pose proof (sum_upd (putting v) s t l (atodo s') Ht Et).
    pose proof (sum_upd (popped v) s t l (atodo s') Ht Et). lia.
  - done.
  - intros k o Ho. rewrite Et in Ho. destruct (decide (k = t)) as [->|Hne]; us; [by auto|by apply (i_mine _ HI)].
  - intros k v x rest o Ho Hin. rewrite Et in Ho. destruct (decide (k = t)) as [->|Hne]; us; [by apply (Hl _ _ _ Ho Hin)|by eapply (i_head _ HI)].
  - intros k o rest v x i Ho Hin. rewrite Et in Ho. destruct (decide (k = t)) as [->|Hne]; us; [by apply (Hl _ _ _ Ho Hin)|by eapply (i_one _ HI)].
  - intros k o rest v i Ho Hin. rewrite Et in Ho. destruct (decide (k = t)) as [->|Hne]; us; [by apply (Hl _ _ _ Ho Hin)|by eapply (i_add _ HI)].
  - intros v. pose proof (i_began _ HI v). pose proof (Hb v). lia.
  - intros v. pose proof (i_ended _ HI v). pose proof (He v). pose proof (sum_upd (putting v) s t l (atodo s') Ht Et). lia.
  - intros k v x i Hin. rewrite Et in Hin. destruct (decide (k = t)) as [->|Hne]; us; [by eapply Hk2|].
    pose proof (i_keep _ HI k v x i Hin). pose proof (Hk1 k v x i Hne Hin). lia.
Qed.

Ltac cs := unfold putting, popped, waiting, began, ended, handled; rewrite ?count_app, ?putting_sends, ?popped_sends; simpl.

Lemma ainv_astep s t c : (forall v, owner v < n)%nat -> (forall v x, c = ANote v x -> (t < n)%nat) -> ainv s -> ainv (astep a owner s t c).
Proof.
  intros Hown Hnote HI. unfold astep. destruct (atodo s t) as [|o rest] eqn:Ht0.
  - destruct c as [| |v es|v x|v u]; try done.
    + destruct (aqueue s t) as [|[v x] q] eqn:Hq; [done|].
      assert (Hvt : owner v = t) by (apply (i_queue _ HI t v x); rewrite Hq; apply elem_of_list_here).
      apply (ainv_step s _ t [ADec v x]); cbn [aact aqueue atodo alog]; try done.
      * rewrite <- Hvt. apply Hown.
      * intros w. rewrite Ht0. cs. destruct (decide (owner w = t)) as [Hw|Hw]; us.
        -- rewrite Hw, Hq. us. cs. lia.
        -- destruct (Nat.eqb_spec v w) as [->|]; [done|lia].
      * intros k w y Hin. destruct (decide (k = t)) as [->|Hne]; us; [|by apply (i_queue _ HI _ _ y)].
        apply (i_queue _ HI t w y). rewrite Hq. by apply elem_of_list_further.
      * by intros o ->%elem_of_list_singleton.
      * intros ? ? o' [= <- <-] ?%elem_of_nil. done.
      * intros w. rewrite Ht0. cs. lia.
      * intros w y i Hin%elem_of_list_singleton. done.
    + destruct (Nat.eqb_spec (owner v) t) as [Hv|]; [|done]. apply (ainv_step s _ t [Added v (length (aedges s v))]); cbn [aact aqueue atodo alog]; try done.
      * rewrite <- Hv. apply Hown.
      * intros w. rewrite Ht0. cs. lia.
      * intros k w y. apply (i_queue _ HI).
      * by intros o ->%elem_of_list_singleton.
      * intros ? ? o' [= <- <-] ?%elem_of_nil. done.
      * intros w. rewrite Ht0. cs. lia.
      * intros w y i Hin%elem_of_list_singleton. done.
    + apply (ainv_step s _ t [Inc v x]); cbn [aact aqueue atodo alog]; try done.
      * by eapply Hnote.
      * intros w. rewrite Ht0. cs. lia.
      * intros k w y. apply (i_queue _ HI).
      * by intros o ->%elem_of_list_singleton.
      * intros ? ? o' [= <- <-] ?%elem_of_nil. done.
      * intros w. rewrite Ht0. cs. lia.
      * intros w y i Hin%elem_of_list_singleton. done.
    + destruct (Nat.eqb_spec (owner v) t) as [Hv|]; [|done]. destruct HI. by constructor.
  - destruct c; try done.
    assert (Ht : (t < n)%nat) by (apply (i_mine _ HI t o); rewrite Ht0; apply elem_of_list_here).
    assert (Hmo : amine t o) by (apply (i_mine _ HI t o); rewrite Ht0; apply elem_of_list_here).
    assert (Hrest : forall o', o' ∈ rest -> match o' with Inc _ _ | APut _ _ => True | _ => False end).
    { intros o' Hin. destruct o' as [| |w y|w y i|w i]; try done; [by eapply (i_head _ HI)|by eapply (i_one _ HI)|by eapply (i_add _ HI)]. }
    assert (Hmr : forall o', o' ∈ rest -> amine t o') by (intros o' Hin; specialize (Hrest o' Hin); by destruct o').
    assert (Hnh : forall w y i, Handle w y i ∈ rest -> False) by (intros w y i Hin; by specialize (Hrest _ Hin)).
    assert (Hpr : forall v, popped v rest = 0).
    { intros v. destruct (popped v rest) eqn:E; [done|]. exfalso. clear - E Hrest. unfold popped in E.
      induction rest as [|o' r IH]; [done|]. simpl in E. pose proof (Hrest o' ltac:(apply elem_of_list_here)) as Ho.
      destruct o' as [| |w y|w y i|w i]; try done; apply IH; try done; intros o'' Hin; apply Hrest; by apply elem_of_list_further. }
    destruct o as [d x|d x|v x|v x k|v st]; cbn [aexec].
    + apply (ainv_step s _ t (APut d x :: rest)); cbn [aact aqueue atodo alog]; try done.
      * intros w. rewrite Ht0. cs. destruct (Nat.eqb_spec d w) as [->|]; us; lia.
      * intros k w y. apply (i_queue _ HI).
      * intros o [->|?]%elem_of_cons; [done|by apply Hmr].
      * intros o r o' [= <- <-] Hin. by apply Hrest.
      * intros w. cs. destruct (Nat.eqb_spec d w) as [->|]; us; lia.
      * intros w. rewrite Ht0. cs. destruct (Nat.eqb_spec d w) as [->|]; us; lia.
      * intros k w y i _ _. destruct (decide (w = d)) as [->|]; us; lia.
      * intros w y i [?|?]%elem_of_cons; [done|exfalso; by eapply Hnh].
    + apply (ainv_step s _ t rest); cbn [aact aqueue atodo alog]; try done.
      * intros w. rewrite Ht0. cs. destruct (decide (owner w = owner d)) as [Hw|Hw].
        -- rewrite Hw. us. cs. lia.
        -- us. destruct (Nat.eqb_spec d w) as [->|]; [done|]. lia.
      * intros k w y Hin. destruct (decide (k = owner d)) as [->|Hne]; us; [|by apply (i_queue _ HI _ _ y)].
        apply elem_of_app in Hin. destruct Hin as [Hin|Hin%elem_of_list_singleton]; [by apply (i_queue _ HI _ _ y)|by injection Hin as -> _].
      * intros o r o' -> Hin. apply Hrest. by apply elem_of_list_further.
      * intros w. cs. lia.
      * intros w. rewrite Ht0. cs. destruct (Nat.eqb_spec d w) as [->|]; us; lia.
      * intros w y i Hin. exfalso. by eapply Hnh.
    + assert (Hav : 1 <= aact s v).
      { pose proof (i_act _ HI v). pose proof (sumt_ge (fun t => popped v (atodo s t)) n t Ht) as H2. simpl in H2. rewrite Ht0 in H2. unfold popped in H2 at 1. simpl in H2.
        rewrite Nat.eqb_refl in H2. lia. }
      apply (ainv_step s _ t (Handle v x (aact s v - 1) :: rest)); cbn [aact aqueue atodo alog]; try done.
      * intros w. rewrite Ht0. cs. destruct (Nat.eqb_spec v w) as [->|]; us; lia.
      * intros k w y. apply (i_queue _ HI).
      * intros o [->|?]%elem_of_cons; [done|by apply Hmr].
      * intros o r o' [= <- <-] Hin. by apply Hrest.
      * intros w. cs. destruct (Nat.eqb_spec v w) as [->|]; us; lia.
      * intros w. rewrite Ht0. cs. lia.
      * intros k w y i Hk Hin. destruct (decide (w = v)) as [->|]; us; [|lia].
        destruct (i_mine _ HI k _ Hin) as [_ Hm]. cbn in Hm, Hmo. congruence.
      * intros w y i [[= -> _ ->]|?]%elem_of_cons; [us; lia|exfalso; by eapply Hnh].
    + destruct (areact a v (KNote x) k (aprop s v) (aedges s v)) as [p ms].
      apply (ainv_step s _ t (sends a ms ++ rest)); cbn [aact aqueue atodo alog]; try done.
      * intros w. rewrite Ht0. cs. lia.
      * intros i w y. apply (i_queue _ HI).
      * intros o [Hin|?]%elem_of_app; [|by apply Hmr]. destruct (sends_plain _ _ Hin) as (? & ? & ->). done.
      * intros o r o' E Hin. assert (Hin' : o' ∈ sends a ms ++ rest) by (rewrite E; by apply elem_of_list_further).
        apply elem_of_app in Hin'. destruct Hin' as [Hin'|?]; [|by apply Hrest]. destruct (sends_plain _ _ Hin') as (? & ? & ->). done.
      * intros w. rewrite Ht0. cs. lia.
      * intros w y i [Hin|Hin]%elem_of_app; [destruct (sends_plain _ _ Hin) as (? & ? & ?); done|exfalso; by eapply Hnh].
    + destruct (areact a v (KAdded st) (aact s v) (aprop s v) (aedges s v)) as [p ms].
      apply (ainv_step s _ t (sends a ms ++ rest)); cbn [aact aqueue atodo alog]; try done.
      * intros w. rewrite Ht0. cs. lia.
      * intros i w y. apply (i_queue _ HI).
      * intros o [Hin|?]%elem_of_app; [|by apply Hmr]. destruct (sends_plain _ _ Hin) as (? & ? & ->). done.
      * intros o r o' E Hin. assert (Hin' : o' ∈ sends a ms ++ rest) by (rewrite E; by apply elem_of_list_further).
        apply elem_of_app in Hin'. destruct Hin' as [Hin'|?]; [|by apply Hrest]. destruct (sends_plain _ _ Hin') as (? & ? & ->). done.
      * intros w. rewrite Ht0. cs. lia.
      * intros w y i [Hin|Hin]%elem_of_app; [destruct (sends_plain _ _ Hin) as (? & ? & ?); done|exfalso; by eapply Hnh].
Qed.

Definition notes_by_threads (sched : list (nat * achoice a)) : Prop := forall t v x, (t, ANote v x) ∈ sched -> (t < n)%nat.

Lemma ainv_arun sched : forall s, (forall v, owner v < n)%nat -> notes_by_threads sched -> ainv s -> ainv (arun a owner s sched).
Proof.
  induction sched as [|[t c] l IH]; intros s Hown Hn HI; [done|]. cbn. apply IH; [done| |].
  - intros t' v x Hin. apply (Hn t' v x). by apply elem_of_list_further.
  - apply ainv_astep; [done| |done]. intros v x ->. apply (Hn t v x), elem_of_list_here.
Qed.
End proofs.
