(** C79: the rate of the stream. *)
From Verif Require Import Base Rate_Spec Rate_Model Rate_Proofs.
Open Scope N_scope.

(** A target of at least 100 events per second is kept, up to one event, whatever the times the
    events take and however long the sleeps last beyond what was asked. *)
Theorem C79_kept rn rd t0 l : 0 < rd -> 100 * rd <= rn ->
  within rn rd 1 (remitted (remit_all 1 rn rd t0 l)) (now (remit_all 1 rn rd t0 l)).
Proof.
  intros Hrd Hr. apply (all_inv 1 rn rd rn Hrd ltac:(lia) ltac:(lia)). intros extra He. right.
  assert (min_sleep <= pause 1 rn rd extra) by apply N.le_max_l. unfold min_sleep, second in *.
  transitivity (rn * (10 * 10 ^ 6)); [lia|]. by apply N.mul_le_mono_l.
Qed.

(** Below that the bound is 100 events per second instead of the target. *)
Theorem C79_slow rn rd t0 l : 0 < rd -> 0 < rn -> rn <= 100 * rd ->
  within (100 * rd) rd 1 (remitted (remit_all 1 rn rd t0 l)) (now (remit_all 1 rn rd t0 l)).
Proof.
  intros Hrd Hrn Hr. apply (all_inv 1 rn rd (100 * rd) Hrd Hrn Hr). intros extra He. right.
  assert (min_sleep <= pause 1 rn rd extra) by apply N.le_max_l. unfold min_sleep, second in *.
  transitivity (100 * rd * (10 * 10 ^ 6)); [lia|]. by apply N.mul_le_mono_l.
Qed.

(** With one event per second asked for, 100 per second are sent, for the first ten million events.
    (Line 139 multiplies by time.Nanosecond, which is 1, so the sleep is the minimum of 10 ms, and
    there is only one sleep per event.) *)
Theorem C79_hundred n : N.of_nat n <= min_sleep ->
  remitted (remit_all 1 1 1 0 (repeat (0, 0) n)) = N.of_nat n /\ now (remit_all 1 1 1 0 (repeat (0, 0) n)) = N.of_nat n * min_sleep.
Proof.
  assert (G : forall n k, k + N.of_nat n <= min_sleep -> let s := fold_left (event 1 1 1) (repeat (0, 0) n) (Pace k (quota 1 1 (k * min_sleep)) (k * min_sleep)) in
    remitted s = k + N.of_nat n /\ now s = (k + N.of_nat n) * min_sleep).
  { clear n. induction n as [|n IH]; intros k Hk; cbn [repeat fold_left]; [cbn [remitted now]; split; [lia|]; by rewrite N.add_0_r|].
    assert (Hq : quota 1 1 (k * min_sleep) < k + 1).
    { unfold quota, second, min_sleep. apply N.div_lt_upper_bound; [lia|]. lia. }
    assert (E : event 1 1 1 (Pace k (quota 1 1 (k * min_sleep)) (k * min_sleep)) (0, 0) = Pace (k + 1) (quota 1 1 ((k + 1) * min_sleep)) ((k + 1) * min_sleep)).
    { unfold event. cbn [remitted allowed now]. rewrite !N.add_0_r. change (negb (1 =? 0)) with true.
      rewrite (proj2 (N.ltb_lt _ _) Hq). cbn [andb].
      replace (pause 1 1 1 (k + 1 - quota 1 1 (k * min_sleep))) with min_sleep.
      - replace (k * min_sleep + min_sleep) with ((k + 1) * min_sleep) by lia. done.
      - unfold pause. rewrite !N.mul_1_r, N.div_1_r, N.max_l; [done|lia]. }
    rewrite E. replace (k + N.of_nat (S n)) with (k + 1 + N.of_nat n) by lia. apply IH. lia. }
  intros Hn. exact (G n 0 Hn).
Qed.
Theorem C79_refuted : ~ forall rn rd t0 l, 0 < rn -> 0 < rd -> within rn rd 9000000 (remitted (remit_all 1 rn rd t0 l)) (now (remit_all 1 rn rd t0 l)).
Proof.
  intros H. specialize (H 1 1 0 (repeat (0, 0) (N.to_nat min_sleep)) ltac:(lia) ltac:(lia)).
  destruct (C79_hundred (N.to_nat min_sleep) ltac:(lia)) as [E1 E2]. rewrite E1, E2, N2Nat.id in H. revert H. unfold within. vm_compute. intros H. by apply H.
Qed.

(** With time.Second in line 139 every target up to 10^9 per second is kept; together with C79_kept (which does
    not depend on it, see C79_kept_any) every target. *)
Theorem C79_fixed rn rd t0 l : 0 < rd -> 0 < rn -> rn <= second * rd ->
  within rn rd 1 (remitted (remit_all second rn rd t0 l)) (now (remit_all second rn rd t0 l)).
Proof.
  intros Hrd Hrn Hr. apply (all_inv second rn rd rn Hrd Hrn ltac:(lia)). intros extra He. left.
  assert (Hp : extra * rd * second / rn <= pause second rn rd extra) by apply N.le_max_r.
  pose proof (N.mul_succ_div_gt (extra * rd * second) rn ltac:(lia)) as Hd. rewrite <- N.add_1_r in Hd.
  pose proof (N.mul_le_mono_l _ _ rn Hp). lia.
Qed.
Theorem C79_kept_any unit rn rd t0 l : 0 < rd -> 100 * rd <= rn ->
  within rn rd 1 (remitted (remit_all unit rn rd t0 l)) (now (remit_all unit rn rd t0 l)).
Proof.
  intros Hrd Hr. apply (all_inv unit rn rd rn Hrd ltac:(lia) ltac:(lia)). intros extra He. right.
  assert (min_sleep <= pause unit rn rd extra) by apply N.le_max_l. unfold min_sleep, second in *.
  transitivity (rn * (10 * 10 ^ 6)); [lia|]. by apply N.mul_le_mono_l.
Qed.

(** Without a target nothing sleeps. *)
Theorem C79_unlimited unit rd t0 l : now (remit_all unit 0 rd t0 l) = fold_left (fun t io => t + fst io) l t0 /\ remitted (remit_all unit 0 rd t0 l) = N.of_nat (length l).
Proof.
  assert (G : forall l s, now (fold_left (event unit 0 rd) l s) = fold_left (fun t io => t + fst io) l (now s) /\ remitted (fold_left (event unit 0 rd) l s) = remitted s + N.of_nat (length l)).
  { clear l. induction l as [|[d o] l IH]; intros s; cbn [fold_left length]; [split; [done|lia]|]. destruct (IH (event unit 0 rd s (d, o))) as [-> ->].
    change (event unit 0 rd s (d, o)) with (Pace (remitted s + 1) (allowed s) (now s + d)). cbn [now remitted fst]. split; [done|lia]. }
  exact (G l (begin t0)).
Qed.

(** 200 events per second, each taking 1 ms: three events need 15 ms, two sleeps of 10 ms make it 23 ms.
    And 1 event per second: after three events 0.03 s have passed. *)
Example C79_case :
  remit_all 1 200 1 0 [(10 ^ 6, 0); (10 ^ 6, 0); (10 ^ 6, 0)] = Pace 3 4 (23 * 10 ^ 6) /\
  remit_all 1 1 1 0 [(0, 0); (0, 0); (0, 0)] = Pace 3 0 (30 * 10 ^ 6) /\
  remit_all second 1 1 0 [(0, 0); (0, 0); (0, 0)] = Pace 3 3 (3 * second).
Proof. vm_compute. done. Qed.

Print Assumptions C79_kept.
Print Assumptions C79_slow.
Print Assumptions C79_hundred.
Print Assumptions C79_refuted.
Print Assumptions C79_fixed.
Print Assumptions C79_kept_any.
Print Assumptions C79_unlimited.
