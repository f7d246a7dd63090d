(** C96, several producers: RingBuffMPSC only asks whether positions are equal, so it works for ever. *)
From Verif Require Import Base Helpers_RoundUp Helpers_RoundUp_Props MPSC_Spec MPSC_Model MPSC_Proofs MPSC_Props Wrap_Model Wrap_Proofs.
Open Scope N_scope.

(** With puts (as in the graph code, graph/algorithm.go:60-92), whatever the number of items: the queue with words does what the queue with
    unbounded counters does, ticket numbers apart. *)
Theorem C96_mpsc_same {T} (junk : T) n progs kpr sched : 2 <= n -> n <= 2 ^ 63 -> N.of_nat (length progs) < 2 ^ 63 ->
  (forall prog v, In prog progs -> ~ In (MOffer v) prog) ->
  mlog (wmrun (round_up_pow n - 1) (wmpsc_init junk progs kpr) sched) =
  map (fun e => match e with EDone p t v => EDone p (t mod 2 ^ 64) v | e => e end) (mlog (mpsc_run n junk progs kpr sched)).
Proof.
  intros H1 H2 Hp Ho. unfold mpsc_run. destruct (mpsc_mask n H1 H2) as (k & Hk & Hk2 & -> & _).
  destruct (sim_run k Hk Hk2 sched (mpsc_init junk progs kpr) (wmpsc_init junk progs kpr)) as [_ _ _ _ _ _ _ E].
  - by apply minv_init.
  - intros p x Hx. cbn [mpsc_init prods] in Hx. change (map _ progs) with ((fun pr => (@MIdle T, pr)) <$> progs) in Hx. rewrite list_lookup_fmap in Hx.
    destruct (progs !! p) as [pr|] eqn:E; [|done]. cbn in Hx. injection Hx as <-. split; [done|]. intros v. cbn [snd]. apply Ho. apply elem_of_list_In. by eapply elem_of_list_lookup_2.
  - cbn [mpsc_init prods]. by rewrite map_length.
  - split; try done. cbn [mpsc_init wmpsc_init prods]. rewrite map_map. done.
  - rewrite E. done.
Qed.

(** With offers as well, while fewer than 2^64 - size tickets have been handed out (an offer compares the ticket it has read earlier). *)
Theorem C96_mpsc_offers {T} (junk : T) n progs kpr sched : 2 <= n -> n <= 2 ^ 63 -> N.of_nat (length progs) < 2 ^ 63 ->
  N.of_nat (length (claims (mlog (mpsc_run n junk progs kpr sched)))) + round_up_pow n < 2 ^ 64 ->
  mlog (wmrun (round_up_pow n - 1) (wmpsc_init junk progs kpr) sched) = mlog (mpsc_run n junk progs kpr sched).
Proof.
  unfold mpsc_run. intros H1 H2 Hp Hl. destruct (mpsc_mask n H1 H2) as (k & Hk & Hk2 & Hm & Hs). rewrite Hm, Hs in *.
  pose proof (minv_run k Hk Hk2 _ sched (minv_init k Hk Hk2 junk progs kpr)) as H.
  destruct (sim_run_offers k Hk Hk2 sched (mpsc_init junk progs kpr) (wmpsc_init junk progs kpr)) as [_ _ _ _ _ _ _ E].
  - by apply minv_init.
  - rewrite (m_enq _ _ H). exact Hl.
  - cbn [mpsc_init prods]. by rewrite map_length.
  - split; try done. cbn [mpsc_init wmpsc_init prods]. rewrite map_map. done.
  - rewrite E. rewrite <- (map_id (mlog (mrun _ _ _))) at 2. apply map_ext_in. intros e He. destruct e; try done. cbn. unfold word.
    apply (m_done _ _ H) in He. apply lookup_lt_Some in He. rewrite N.mod_small; [done|]. unfold tk in He. lia.
Qed.

Lemma map_claims {T} (l : list (mev T)) : claims (map (fun e => match e with EDone p t v => EDone p (t mod 2 ^ 64) v | e => e end) l) = claims l.
Proof. unfold claims. induction l as [|[] l IH]; cbn [map flat_map app]; [done| | | | | | | | | | ]; rewrite IH; done. Qed.
Lemma map_gots {T} (l : list (mev T)) : gots (map (fun e => match e with EDone p t v => EDone p (t mod 2 ^ 64) v | e => e end) l) = gots l.
Proof. unfold gots. induction l as [|[] l IH]; cbn [map flat_map app]; [done| | | | | | | | | | ]; rewrite IH; done. Qed.

(** So items come out in the order of their tickets, none lost and none twice, beyond 2^64 items. *)
Theorem C96_mpsc_fifo {T} (junk : T) n progs kpr sched : 2 <= n -> n <= 2 ^ 63 -> N.of_nat (length progs) < 2 ^ 63 ->
  (forall prog v, In prog progs -> ~ In (MOffer v) prog) ->
  let l := mlog (wmrun (round_up_pow n - 1) (wmpsc_init junk progs kpr) sched) in exists pending, map snd (claims l) = gots l ++ pending.
Proof.
  intros H1 H2 Hp Ho l. unfold l. rewrite C96_mpsc_same by done. rewrite map_claims, map_gots.
  destruct (C12_fifo_no_loss junk n progs kpr sched H1 H2 _ eq_refl) as [E _]. exact E.
Qed.

(** A queue of 4, two tickets before the wrap: puts of two producers and gets go through it. *)
Example C96_mpsc_case :
  let s := wmrun 3 (Mrb (2 ^ 64 - 1) (2 ^ 64 - 1) (fun i => (if i =? 3 then 2 ^ 64 - 1 else i, 0%nat)) false [(MIdle, [MPut 7%nat; MPut 8%nat]); (MIdle, [MPut 9%nat])] KIdle [MGet; MAvail; MGet; MAccept] [])
    [Some 0%nat; Some 1%nat; Some 1%nat; Some 0%nat; Some 0%nat; Some 0%nat; Some 1%nat; Some 1%nat; None; None; None; None; None; None; None; Some 0%nat; Some 0%nat; Some 0%nat; Some 0%nat; None; None; None] in
  mlog s = [EClaim 0%nat 7%nat; EClaim 1%nat 9%nat; EDone 0%nat (2 ^ 64 - 1) 7%nat; EDone 1%nat 0 9%nat; EGot 7%nat; EAvail 1; EGot 9%nat; EClaim 0%nat 8%nat; EDone 0%nat 1 8%nat; EGot 8%nat].
Proof. vm_compute. reflexivity. Qed.

Print Assumptions C96_mpsc_same.
Print Assumptions C96_mpsc_offers.
Print Assumptions C96_mpsc_fifo.
