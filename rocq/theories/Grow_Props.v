(** C13 and the growing part of C11: GrowableRingBuff. *)
From Verif Require Import Base Helpers_RoundUp Helpers_RoundUp_Props Grow_Spec Grow_Model Grow_Proofs.
Open Scope N_scope.

(** A queue made with Init(n, mg), the producer running [pr] and the consumer [cr], under the
    schedule [sched] (true: one producer step, false: one consumer step). *)
Definition grow_run {T} (n mg : N) (junk : T) pr cr sched : grb T :=
  grun junk (grow_init junk (round_up_pow n) mg pr cr) sched.

Lemma grow_mask n : 2 <= n -> n <= 2 ^ 63 -> exists k, 1 <= k /\ round_up_pow n = 2 ^ k.
Proof.
  intros H1 H2. destruct (C03_round_up_pow_least_power n ltac:(lia) H2) as (k & E & Hk & Hle & _).
  exists k. split; [|done]. destruct (N.eq_dec k 0) as [->|]; [|lia]. change (2 ^ 0) with 1 in Hle. lia.
Qed.

(** C13, safety, for every schedule (the unlucky one included): every event is one a growing
    FIFO may produce after the events before it, and each side's events answer its calls. *)
Theorem C13_growing_fifo {T} (junk : T) : forall n mg pr cr sched,
  2 <= n -> n <= 2 ^ 63 ->
  forall lg, lg = glog (grow_run n mg junk pr cr sched) ->
  (forall l e r, lg = l ++ e :: r -> gjust (round_up_pow n) mg l e) /\
  (exists answered rest, pr = answered ++ rest /\ Forall2 ganswer answered (List.filter is_gpev lg)) /\
  (exists answered rest, cr = answered ++ rest /\ Forall2 gcanswer answered (List.filter is_gcev lg)).
Proof.
  intros n mg pr cr sched H1 H2 lg ->. unfold grow_run.
  destruct (grow_mask n H1 H2) as (k & Hk & ->). split; [|split].
  - apply (gall_run junk k mg Hk); [by apply ginv_init|]. intros [|] e r E; done.
  - destruct (gconf_init junk (2 ^ k) mg pr cr) as [A B].
    destruct (gconf_run junk _ sched _ _ A B) as [(don & cur & -> & _ & F) _]. eauto.
  - destruct (gconf_init junk (2 ^ k) mg pr cr) as [A B].
    destruct (gconf_run junk _ sched _ _ A B) as [_ (don & cur & -> & _ & F)]. eauto.
Qed.
Print Assumptions C13_growing_fifo.

(** In plain words: what has been received is a prefix of what has been put, in order and
    without repetition, across all growths. *)
Theorem C13_delivered_prefix {T} (junk : T) : forall n mg pr cr sched,
  2 <= n -> n <= 2 ^ 63 ->
  forall l, l = glog (grow_run n mg junk pr cr sched) ->
  exists rest, puts l = gots l ++ rest.
Proof.
  intros n mg pr cr sched H1 H2 l ->. unfold grow_run. destruct (grow_mask n H1 H2) as (k & Hk & ->).
  apply (g_pre k mg). apply ginv_run; [done|]. by apply ginv_init.
Qed.
Print Assumptions C13_delivered_prefix.

(** As long as the unlucky schedule has not happened nobody is held up: an item that is in the
    queue is received within seven consumer steps by a consumer in a blocking get or by two
    Accepts, wherever the schedule has stopped; and a blocking put completes within five
    producer steps when there is room or growing is allowed. *)
Theorem C13_delivers_unless_lost {T} (junk : T) : forall n mg pr cr sched,
  2 <= n -> n <= 2 ^ 63 ->
  forall s, s = grow_run n mg junk pr cr sched ->
  lost (glog s) = false ->
  (length (gots (glog s)) < length (puts (glog s)))%nat ->
  (gcp s = CSlow \/
   (gcp s = CIdle /\ exists rest, gcprog s = GOGet :: rest \/ gcprog s = GOAccept :: GOAccept :: rest)) ->
  (length (gots (glog s)) < length (gots (glog (grun junk s (repeat false 7)))))%nat.
Proof.
  intros n mg pr cr sched H1 H2 s -> Hl Hlt Hw. unfold grow_run in *. destruct (grow_mask n H1 H2) as (k & Hk & E).
  rewrite E in *. eapply (consumer_gets junk k mg Hk); auto; [|unfold D, P; lia].
  apply ginv_run; [done|]. by apply ginv_init.
Qed.
Print Assumptions C13_delivers_unless_lost.

Theorem C13_put_completes {T} (junk : T) : forall n mg pr cr sched v rest,
  2 <= n -> n <= 2 ^ 63 ->
  forall s, s = grow_run n mg junk pr cr sched ->
  (gpp s = PIdle /\ gpprog s = GOPut v :: rest) \/ (exists t, gpp s = PSlow t v) ->
  N.of_nat (length (puts (glog s))) < N.of_nat (length (gots (glog s))) + round_up_pow n * 2 ^ N.of_nat (grows (glog s)) \/
  (isGrown s = false /\ N.of_nat (grows (glog s)) < mg) ->
  exists more, puts (glog (grun junk s (repeat true 5))) = puts (glog s) ++ v :: more.
Proof.
  intros n mg pr cr sched v rest H1 H2 s -> Hp Hr. unfold grow_run in *. destruct (grow_mask n H1 H2) as (k & Hk & E).
  rewrite E in *. set (s := grun _ _ _) in *.
  assert (Hi : ginv k mg s) by (apply ginv_run; [done|]; by apply ginv_init).
  destruct (g_ex k mg _ Hi) as (W & He & _). pose proof (e_grows k mg _ _ He) as Eg. pose proof (e_max k mg _ _ He) as Emx.
  destruct (producer_puts junk k mg Hk s v rest Hi Hp) as [->|(x & y & ->)]; eauto.
  unfold sz, D, P. rewrite N.pow_add_r. rewrite Eg in Hr. destruct Hr as [Hr|[Hr1 Hr2]]; [left; lia|right]. split; [done|lia].
Qed.
Print Assumptions C13_put_completes.

(** Once the unlucky schedule has happened — the consumer saw an empty slot, then the producer
    put an item into the old buffer and grew, then the consumer looks at the grown flag — the
    consumer receives nothing ever again, nor is it told that the queue is closed. *)
Theorem C13_lost_is_forever {T} (junk : T) : forall n mg pr cr sched,
  2 <= n -> n <= 2 ^ 63 ->
  forall s, s = grow_run n mg junk pr cr sched ->
  lost (glog s) = true ->
  (length (gots (glog s)) < length (puts (glog s)))%nat /\
  forall more, exists evs, glog (grun junk s more) = glog s ++ evs /\
    Forall (fun e => match e with GGot _ | GClosed | GIsClosed true => False | _ => True end) evs.
Proof.
  intros n mg pr cr sched H1 H2 s -> Hl. unfold grow_run in *. destruct (grow_mask n H1 H2) as (k & Hk & E).
  rewrite E in *. set (s := grun _ _ _) in *.
  assert (Hi : ginv k mg s) by (apply ginv_run; [done|]; by apply ginv_init). split.
  - destruct (lost_modeC k mg s Hi Hl) as (W & _ & Hm). pose proof (c_d k _ _ Hm). pose proof (c_w k _ _ Hm). unfold D, P in *. lia.
  - intros more. destruct (stuck_run junk k mg Hk s more Hi Hl) as (evs & E1 & _ & E2). eauto.
Qed.
Print Assumptions C13_lost_is_forever.

(** The unlucky schedule exists: size 2, the consumer looks, the producer fills the buffer and
    grows, the consumer switches; three items are put and none is ever received. *)
Theorem C13_refuted : exists pr cr sched,
  forall s, s = grow_run 2 1 0%N pr cr sched ->
  puts (glog s) = [1; 2; 3] /\ gots (glog s) = [] /\ lost (glog s) = true /\ gcp s = CSlow /\
  forall more, gots (glog (grun 0%N s more)) = [].
Proof.
  exists [GOPut 1; GOPut 2; GOPut 3; GOClose], [GOGet],
    ([false] ++ repeat true 14 ++ repeat false 3). intros s Hs.
  assert (A : puts (glog s) = [1; 2; 3] /\ gots (glog s) = [] /\ lost (glog s) = true /\ gcp s = CSlow)
    by (rewrite Hs; vm_compute; auto).
  destruct A as (A1 & A2 & A3 & A4). split; [done|]. split; [done|]. split; [done|]. split; [done|]. intros more.
  destruct (C13_lost_is_forever 0%N 2 1 _ _ _ ltac:(lia) ltac:(done) s Hs A3) as [_ H].
  destruct (H more) as (evs & E & F). rewrite E. unfold gots. rewrite flat_map_app. fold (gots (glog s)) (gots evs). rewrite A2. simpl.
  clear -F. induction evs as [|e evs IH]; [done|]. apply Forall_cons_iff in F as [Fe F]. destruct e; simpl; try (by apply IH); done.
Qed.
Print Assumptions C13_refuted.

(** If the consumer never runs concurrently with a blocking put (each looks only while the
    other is between calls) the unlucky schedule does not happen; more precisely it needs a put
    and a growth between two adjacent consumer steps. *)
Theorem C13_lost_needs_put_and_growth {T} : forall l : list (gev T),
  lost l = true ->
  exists a b v c d, l = a ++ GChecked :: b ++ GPut v :: c ++ GGrow :: d /\
    ~ In GLook b /\ ~ In GLook c.
Proof.
  assert (Hs : forall l : list (gev T), forall m, fst (scan l) = Some m ->
     exists a b, l = a ++ GChecked :: b /\ ~ In GLook b /\ (m <> O -> exists b1 v b2, b = b1 ++ GPut v :: b2)).
  { intros l. induction l as [|e l IH] using rev_ind; [done|]. intros m. unfold scan. rewrite fold_left_app. simpl. fold (scan l).
    destruct e; simpl; try (intros H; destruct (IH m H) as (a & b' & -> & Hn & Hp); exists a; eexists; rewrite <- app_assoc; simpl;
       (split; [reflexivity|]); (split; [rewrite in_app_iff; simpl; intuition congruence|]);
       intros Hm; destruct (Hp Hm) as (b1 & v' & b2 & ->); exists b1, v'; eexists; rewrite <- app_assoc; reflexivity).
    - destruct (fst (scan l)) as [m'|] eqn:Em; [|done]. simpl. intros [= <-]. destruct (IH m' eq_refl) as (a & b & -> & Hn & Hp).
      exists a, (b ++ [GPut v]). rewrite <- app_assoc. split; [done|]. split; [rewrite in_app_iff; simpl; intuition congruence|].
      intros _. by exists b, v, [].
    - intros [= <-]. exists l, []. split; [done|]. split; [auto|done].
    - done. }
  intros l. induction l as [|e l IH] using rev_ind; [done|]. unfold lost, scan. rewrite fold_left_app. simpl. fold (scan l).
  assert (Hext : lost l = true -> exists a b v c d, l ++ [e] = a ++ GChecked :: b ++ GPut v :: c ++ GGrow :: d /\ ~ In GLook b /\ ~ In GLook c).
  { intros H. destruct (IH H) as (a & b & v & c & d & -> & H1 & H2). exists a, b, v, c, (d ++ [e]).
    split; [|done]. rewrite <- app_assoc. simpl. rewrite <- app_assoc. simpl. by rewrite <- app_assoc. }
  destruct e; simpl; try exact Hext.
  intros H. apply orb_true_iff in H as [H|H]; [by apply Hext|]. destruct (fst (scan l)) as [[|m]|] eqn:Em; try done.
  destruct (Hs l _ Em) as (a & b & -> & Hn & Hp). destruct (Hp ltac:(lia)) as (b1 & v & b2 & ->).
  exists a, b1, v, b2, []. rewrite <- app_assoc. simpl. rewrite <- app_assoc. split; [done|]. rewrite in_app_iff in Hn. simpl in Hn. intuition.
Qed.
Print Assumptions C13_lost_needs_put_and_growth.

(** C11 for this queue: a consumer told "closed" has received everything that was put (and
    Close had been called), under every schedule. Close is the producer's last call, so
    nothing is put afterwards either. *)
Theorem C11_growable_closed_drained {T} (junk : T) : forall n mg pr cr sched,
  2 <= n -> n <= 2 ^ 63 ->
  forall l, forall e r, glog (grow_run n mg junk pr cr sched) = l ++ e :: r ->
  e = GClosed \/ e = GIsClosed true ->
  gots l = puts l /\ In GClose l.
Proof.
  intros n mg pr cr sched H1 H2 l e r E He.
  destruct (C13_growing_fifo junk n mg pr cr sched H1 H2 _ eq_refl) as [H _]. specialize (H l e r E).
  destruct He as [-> | ->]; simpl in H; by destruct H.
Qed.
Print Assumptions C11_growable_closed_drained.

(** A concrete case: size 2, two growths, the consumer following behind; positions wrap. *)
Example C13_case :
  forall s, s = grow_run 2 2 0%N (map GOPut [1; 2; 3; 4; 5; 6; 7; 8; 9] ++ [GOClose]) (repeat GOGet 10)
     (repeat true 40 ++ repeat false 20 ++ repeat true 40 ++ repeat false 60) ->
  gots (glog s) = [1; 2; 3; 4; 5; 6; 7; 8; 9] /\ grows (glog s) = 2%nat /\ In GClosed (glog s) /\ lost (glog s) = false.
Proof. intros s ->. vm_compute. auto 40. Qed.
Example C13_case_accept :
  forall s, s = grow_run 2 1 0%N (map GOPut [1; 2; 3; 4] ++ [GOOffer 5; GOOffer 6; GOOffer 7]) (repeat GOAccept 8)
     (repeat true 40 ++ repeat false 60) ->
  gots (glog s) = [1; 2; 3; 4; 5; 6] /\ In (GFull 7) (glog s) /\ List.filter is_gcev (glog s) = [GGot 1; GGot 2; GEmpty; GGot 3; GGot 4; GGot 5; GGot 6; GEmpty].
Proof. intros s ->. vm_compute. auto 40. Qed.
