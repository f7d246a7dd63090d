(** C10, C11 (single-producer part) and C51: RingBuffSPSC. *)
From Verif Require Import Base Helpers_RoundUp Helpers_RoundUp_Props Ring_Spec SPSC_Model SPSC_Proofs.
Open Scope N_scope.

(** A queue made with Init(n), its goroutines running [pr] and [cr] under [sched]. *)
Definition spsc_run {T} (n : N) (junk : T) pr cr sched : rb T :=
  run (round_up_pow n - 1) (spsc_init junk pr cr) sched.

Lemma spsc_mask n : 1 <= n -> n <= 2 ^ 63 ->
  exists k, k < 64 /\ round_up_pow n - 1 = N.ones k /\ round_up_pow n = 2 ^ k.
Proof.
  intros H1 H2. destruct (C03_round_up_pow_least_power n H1 H2) as (k & E & Hk & _).
  exists k. split; [lia|]. rewrite E, N.ones_equiv. split; [lia|done].
Qed.

(** C10: at every moment of every interleaving, the log of what happened, in the order of the
    linearization points, is a run of a bounded FIFO queue of capacity RoundUpPow(n), and
    the events of each goroutine are answers to its calls, in its program order. *)
Theorem C10_linearizable {T} (junk : T) : forall n pr cr sched,
  1 <= n -> n <= 2 ^ 63 ->
  let s := spsc_run n junk pr cr sched in
  (exists q, fifo (round_up_pow n) [] (log s) q) /\
  answered panswer pr (List.filter is_pev (log s)) /\
  answered canswer cr (List.filter is_cev (log s)).
Proof.
  intros n pr cr sched H1 H2. cbv zeta. unfold spsc_run.
  destruct (spsc_mask n H1 H2) as (k & Hk & -> & ->). split.
  - destruct (inv_run k Hk _ _ sched (inv_init k Hk junk pr cr)) as [q Hq].
    exists q. apply Hq.
  - destruct (conf_init junk pr cr) as [Hp Hc].
    destruct (conf_run k _ sched _ _ Hp Hc) as [(d & c & E & _ & H) (d' & c' & E' & _ & H')].
    split; eexists; eexists; (split; [eassumption|eassumption]).
Qed.
Print Assumptions C10_linearizable.

(** The consequences in plain words: consumed is a prefix of produced, and at most capacity
    items are in between. *)
Theorem C10_fifo_no_loss {T} (junk : T) : forall n pr cr sched,
  1 <= n -> n <= 2 ^ 63 ->
  let l := log (spsc_run n junk pr cr sched) in
  exists pending, puts l = gots l ++ pending /\ N.of_nat (length pending) <= round_up_pow n.
Proof.
  intros n pr cr sched H1 H2 l.
  destruct (C10_linearizable junk n pr cr sched H1 H2) as [[q Hq] _].
  exists q. split; [by apply fifo_puts_gots in Hq|]. eapply fifo_len; [exact Hq|]. simpl. lia.
Qed.
Print Assumptions C10_fifo_no_loss.

(** Neither side can block the other inside a call: a producer that finds space finishes its
    call within 5 of its own steps, a consumer that finds an item within 6. *)
Definition pending {T} (s : rb T) : nat := (length (puts (log s)) - length (gots (log s)))%nat.
Theorem C10_progress {T} (junk : T) : forall n pr cr sched s,
  1 <= n -> n <= 2 ^ 63 -> s = spsc_run n junk pr cr sched ->
  (N.of_nat (pending s) < round_up_pow n -> pp s <> PIdle \/ pprog s <> [] ->
     (calls_done is_pev s < calls_done is_pev (spsc_run n junk pr cr (sched ++ repeat true 5)))%nat) /\
  ((0 < pending s)%nat -> cp s <> CIdle \/ cprog s <> [] ->
     (calls_done is_cev s < calls_done is_cev (spsc_run n junk pr cr (sched ++ repeat false 6)))%nat).
Proof.
  intros n pr cr sched s H1 H2 Es.
  assert (Ea : forall r, spsc_run n junk pr cr (sched ++ r) = run (round_up_pow n - 1) s r).
  { intros r. rewrite Es. unfold spsc_run. apply run_app. }
  rewrite !Ea. clear Ea. unfold spsc_run in Es.
  destruct (spsc_mask n H1 H2) as (k & Hk & Em & Ep). rewrite Em in *. rewrite Ep.
  destruct (inv_run k Hk _ _ sched (inv_init k Hk junk pr cr)) as [q Hq]. rewrite <- Es in Hq. clear Es.
  rewrite run_iter_p, run_iter_c.
  assert (E : length (puts (log s)) = (length (gots (log s)) + length q)%nat).
  { pose proof (fifo_puts_gots _ _ _ _ (i_fifo _ _ _ Hq)) as E. simpl in E. rewrite E. apply app_length. }
  unfold pending. split; intros Hn Hp.
  - apply (producer_progress k Hk 5 s q Hq); [lia|exact Hp|]. unfold pdist; destruct (pp s); lia.
  - apply (consumer_progress k Hk 6 s q Hq); [|exact Hp|].
    + intros ->. simpl in E. lia.
    + unfold cdist; destruct (cp s); lia.
Qed.
Print Assumptions C10_progress.

(** C11 for GetSlow of the single-producer queue, as it is: whenever "closed" is reported, the
    producer had closed, the last thing the consumer did was to see an empty queue, and what
    is lost is exactly what was put between that look and the report. *)
Theorem C11_spsc_closed_exactly {T} (junk : T) : forall n pr cr sched,
  1 <= n -> n <= 2 ^ 63 ->
  forall l rest, log (spsc_run n junk pr cr sched) = l ++ EClosed :: rest ->
  In EClose l /\
  exists l1 l2, l = l1 ++ EChecked :: l2 /\ puts l1 = gots l1 /\ gots l2 = [] /\
                puts l = gots l ++ puts l2.
Proof.
  intros n pr cr sched H1 H2 l rest E.
  destruct (C10_linearizable junk n pr cr sched H1 H2) as [[q Hq] _].
  unfold spsc_run in *. destruct (spsc_mask n H1 H2) as (k & Hk & Em & _). rewrite Em in *.
  destruct (ci_closed _ (cinv_run k _ sched (cinv_init junk pr cr)) _ _ E) as [(l1 & l2 & -> & Hl2) Hc].
  split; [done|]. exists l1, l2. split; [done|].
  rewrite E in Hq. apply fifo_split in Hq as (q1 & Hq & _). apply fifo_split in Hq as (q2 & Hq & Hq').
  inversion Hq' as [|? ? ? ? ? He]; subst. inversion He; subst.
  apply fifo_puts_gots in Hq. simpl in Hq. rewrite app_nil_r in Hq.
  apply quiet_gots in Hl2. split; [done|]. split; [done|].
  rewrite puts_app, gots_app. simpl. rewrite Hl2, Hq, app_nil_r. done.
Qed.
Print Assumptions C11_spsc_closed_exactly.

(** So it holds when the consumer looked after the producer had closed. *)
Theorem C11_spsc_drained_if_closed_before_check {T} (junk : T) : forall n pr cr sched,
  1 <= n -> n <= 2 ^ 63 ->
  let lg := log (spsc_run n junk pr cr sched) in
  (forall a b, lg = a ++ EClose :: b -> puts b = []) ->          (* nothing is put after Close *)
  forall l1 l2 rest, lg = l1 ++ EChecked :: l2 ++ EClosed :: rest ->
  In EClose l1 -> puts (l1 ++ EChecked :: l2) = gots (l1 ++ EChecked :: l2).
Proof.
  intros n pr cr sched H1 H2 lg Hn l1 l2 rest E Hin.
  destruct (C10_linearizable junk n pr cr sched H1 H2) as [[q Hq] _]. fold lg in Hq.
  rewrite E in Hq. apply fifo_split in Hq as (q1 & Hq & Hq').
  inversion Hq' as [|? ? ? ? ? He Hq'']; subst. inversion He; subst.
  apply in_split in Hin as (a & b & ->).
  assert (Hp : puts (b ++ EChecked :: l2 ++ EClosed :: rest) = []).
  { apply (Hn a). rewrite E, <- app_assoc. done. }
  rewrite puts_app in Hp. simpl in Hp. fold (puts (l2 ++ EClosed :: rest)) in Hp.
  rewrite puts_app in Hp. apply app_nil in Hp as [_ Hp]. apply app_nil in Hp as [Hl2 _].
  apply fifo_puts_gots in Hq. simpl in Hq. rewrite app_nil_r in Hq.
  apply fifo_split in Hq'' as (q2 & Hq'' & _). apply fifo_puts_gots in Hq''. rewrite Hl2 in Hq''.
  simpl in Hq''. symmetry in Hq''. apply app_nil in Hq'' as [Hg _].
  rewrite (puts_app (a ++ _)), (gots_app (a ++ _)). simpl. fold (puts l2) (gots l2). by rewrite Hq, Hl2, Hg.
Qed.
Print Assumptions C11_spsc_drained_if_closed_before_check.

(** And it fails in general: one item put and the queue closed between the two loads of
    GetSlow. The consumer is told "closed" and item 7 is never delivered. *)
Theorem C11_spsc_refuted : exists pr cr sched,
  let l := log (spsc_run 8 0 pr cr sched) in
  (exists l', l = l' ++ [EClosed]) /\ puts l = [7] /\ gots l = [].
Proof.
  exists [Put 7; Close], [Get], [false; false; false; true; true; true; true; false].
  vm_compute. split; [|done]. by exists [EChecked; EPut 7; EClose].
Qed.
Print Assumptions C11_spsc_refuted.

(** C51: EnqCheckRange. A producer that only offers as many items as its last EnqCheckRange
    allowed (graph/stream-enact-events.go:91-113) is never refused, and never sees the
    wrapped-around value 2^64 - 1 of a full queue. *)
Fixpoint budgeted {T} (budget : N) (l : list (qev T)) : Prop :=
  match l with
  | [] => True
  | ESpace n :: l => budgeted n l
  | EPut _ :: l | EFull _ :: l => 0 < budget /\ budgeted (budget - 1) l
  | _ :: l => budgeted budget l
  end.
Theorem C51_check_range_discipline {T} (junk : T) : forall n pr cr sched,
  1 <= n -> n <= 2 ^ 63 ->
  let l := log (spsc_run n junk pr cr sched) in
  budgeted 0 l ->
  (forall v, ~ In (EFull v) l) /\ (forall m, In (ESpace m) l -> m < round_up_pow n).
Proof.
  intros n pr cr sched H1 H2 l.
  destruct (C10_linearizable junk n pr cr sched H1 H2) as [[q Hq] _]. fold l in Hq. clearbody l.
  assert (Hc : 1 <= round_up_pow n).
  { destruct (spsc_mask n H1 H2) as (k & _ & _ & ->). pose proof (N.pow_nonzero 2 k). lia. }
  assert (Hgen : forall p b, fifo (round_up_pow n) p l q -> N.of_nat (length p) + b + 1 <= round_up_pow n ->
    budgeted b l -> (forall v, ~ In (EFull v) l) /\ (forall m, In (ESpace m) l -> m < round_up_pow n)).
  { clear Hq. induction l as [|e l IH]; intros p b Hf Hb Hbud; [by split; intros ? []|].
    inversion Hf as [|? ? p1 ? ? He Hr]; subst.
    assert (Hk : (forall v, ~ In (EFull v) l) /\ (forall m, In (ESpace m) l -> m < round_up_pow n) ->
       (forall v, e <> EFull v) -> (forall m, e = ESpace m -> m < round_up_pow n) ->
       (forall v, ~ In (EFull v) (e :: l)) /\ (forall m, In (ESpace m) (e :: l) -> m < round_up_pow n)).
    { intros [A B] C D. split; [intros v [E|E]; [by eapply C|by eapply A]|].
      intros m [E|E]; [by apply D|by apply B]. }
    inversion He; subst; simpl in Hbud; (apply Hk; [|try done|try done]).
    - destruct Hbud as [Hb0 Hbud]. eapply IH; [exact Hr| |exact Hbud]. rewrite app_length. simpl. lia.
    - exfalso. lia.
    - exfalso. lia.
    - simpl in Hb. eapply IH; [exact Hr| |exact Hbud]. lia.
    - by eapply IH.
    - by eapply IH.
    - by eapply IH.
    - by eapply IH.
    - eapply IH; [exact Hr| |exact Hbud]. lia.
    - intros m [= <-]. lia.
    - by eapply IH. }
  intros Hb. apply (Hgen [] 0 Hq); [simpl; lia|done].
Qed.
Print Assumptions C51_check_range_discipline.

(** With a queue filled otherwise, EnqCheckRange wraps around and the offer is refused. *)
Example C51_discipline_needed :
  log (spsc_run 2 0 [Offer 1; Offer 2; Space; Offer 3] [] (repeat true 12))
  = [EPut 1; EPut 2; ESpace (2 ^ 64 - 1); EFull 3].
Proof. vm_compute. done. Qed.

(** A run with wrap-around of the buffer, a full and an empty answer, and a blocked put. *)
Example C10_case :
  log (spsc_run 2 0 [Put 1; Offer 2; Offer 3; Put 4; Close] [Get; Accept; Get; Accept; Avail; Get]
         (repeat true 10 ++ repeat false 4 ++ repeat true 5 ++ repeat false 40))
  = [EPut 1; EPut 2; EFull 3; EGot 1; EPut 4; EClose; EGot 2; EGot 4; EEmpty; EAvail 0; EChecked; EClosed].
Proof. vm_compute. done. Qed.
