(** C76: which vertices a time-series entry reports. *)
From Verif Require Import Base Vertex_Model Load_Spec Load_Model Load_Proofs Remit_Spec Remit_Model Remit_Proofs Born_Spec Born_Model Born_Proofs.
Open Scope N_scope.

Section props.
  Context {P : Type} (zero : P).

  Definition ends (evs : list (tev P)) : list (N * N) := map (fun e => (tsrc e, tdst e)) evs.
  (** The emitter numbers the events from 0 on (C20, C21). *)
  Definition numbered (evs : list (tev P)) : Prop := forall i e, nth_error evs i = Some e -> event_idx (word e) = N.of_nat i.
  (** A moment at which a query looks: the Remitter has handed on [k] events, and the threads
      have processed all they have received (C62). *)
  Definition at_query (s : born P) (k : nat) : Prop := length (rlog (bpipe s)) = k /\ forall t, tq (bpipe s) t = [].

  Section run.
    Context (nthr : N) (evs : list (tev P)) (sched : list who) (s : born P) (k : nat).
    Context (Hn : 0 < nthr) (Hnum : numbered evs) (Es : s = born_run zero nthr evs sched) (Hsp : spurious (bpipe s) = false).
    Context (Hq : at_query s k) (Hk : (1 <= k)%nat).

    Lemma lHnum : forall i e, evs !! i = Some e -> event_idx (word e) = N.of_nat i.
    Proof using All. intros i e H. apply Hnum. rewrite <- H. clear. revert i. induction evs as [|x l IH]; intros [|i]; [done|done|done|]. apply IH. Qed.
    Lemma Ha : always nthr evs (bpipe s).
    Proof using All. rewrite Es, bpipe_run. apply always_run, always_init. Qed.
    Lemma Hg : good nthr (bpipe s).
    Proof using All. exact (p_good _ _ _ Ha Hsp). Qed.
    Lemma Hb : binv nthr s.
    Proof using All. rewrite Es. apply binv_run; [exact lHnum|by rewrite <- Es]. Qed.

    Lemma wth_lt v : (wth nthr v < N.to_nat nthr)%nat.
    Proof using All. unfold wth, within. pose proof (N.mod_lt v nthr). lia. Qed.

    Lemma ends_rlog : firstn k (ends evs) = map (fun r => (rsrc r, rdst r)) (rlog (bpipe s)).
    Proof using All.
      destruct (p_rlog _ _ Hg) as (E2 & HE & _). rewrite <- (p_evs _ _ _ Ha). unfold ends. rewrite map_app.
      assert (H : map (fun e => (tsrc e, tdst e)) (emitted (bpipe s)) = map (fun x => (src x, dst x)) (E (bpipe s))).
      { unfold E. by rewrite map_map. }
      rewrite H, HE, map_app, map_map, <- app_assoc. destruct Hq as [<- _].
      rewrite <- (map_length (fun r => (rsrc r, rdst r)) (rlog (bpipe s))). apply (@take_app (N * N)).
    Qed.
    Lemma rlog_idx r : In r (rlog (bpipe s)) -> event_idx (rword r) < N.of_nat k.
    Proof using All.
      intros Hr. apply elem_of_list_In, elem_of_list_lookup in Hr as (i & Hi).
      destruct (rlog_nth nthr evs lHnum (bpipe s) i r Ha Hg Hi) as (_ & _ & _ & ->).
      apply lookup_lt_Some in Hi. destruct Hq as [<- _]. lia.
    Qed.
    Lemma taken_all t : taken (bpipe s) t = List.filter (fun r => Nat.eqb (wth nthr (rsrc r)) t) (rlog (bpipe s)).
    Proof using All. rewrite <- (p_taken _ _ _ Ha t). destruct Hq as [_ ->]. by rewrite app_nil_r. Qed.

    Lemma at_index_query : at_index nthr s = N.of_nat k - 1.
    Proof using All.
      apply N.le_antisymm.
      - unfold at_index. apply fold_max. split; [lia|]. intros t _. rewrite (b_at _ _ Hb). destruct (list.last _) as [r|] eqn:El; [|lia].
        apply last_Some in El as (l & El). assert (Hr : In r (rlog (bpipe s))).
        { assert (In r (taken (bpipe s) t)) as H by (rewrite El; apply in_app_iff; right; by left).
          rewrite taken_all in H. by apply filter_In in H as [H _]. }
        apply rlog_idx in Hr. lia.
      - destruct Hq as [Hlen _]. destruct (rlog (bpipe s)) as [|r0 l0] eqn:El using rev_ind; [simpl in Hlen; lia|]. clear IHl0.
        transitivity (at_ev s (wth nthr (rsrc r0))).
        + rewrite (b_at _ _ Hb), taken_all, El, List.filter_app. cbn [List.filter]. rewrite Nat.eqb_refl, list.last_snoc.
          assert (Hi : rlog (bpipe s) !! length l0 = Some r0) by (rewrite El, lookup_app_r, Nat.sub_diag by lia; done).
          destruct (rlog_nth nthr evs lHnum (bpipe s) _ _ Ha Hg Hi) as (_ & _ & _ & ->). rewrite app_length in Hlen. simpl in Hlen. lia.
        + unfold at_index. apply fold_max_in. apply in_seq. pose proof (wth_lt (rsrc r0)). lia.
    Qed.

    Lemma in_counted v : In v (counted nthr s) <-> In v (verts (bpipe s) (wth nthr v)) /\ create s (wth nthr v) v < N.of_nat k.
    Proof using All.
      unfold counted. rewrite in_flat_map. rewrite at_index_query. split.
      - intros (t & _ & H). apply filter_In in H as [H1 H2]. apply N.leb_le in H2. destruct (b_in _ _ Hb _ _ H1) as [-> _]. split; [done|lia].
      - intros [H1 H2]. exists (wth nthr v). split; [apply in_seq; pose proof (wth_lt v); lia|]. apply filter_In. split; [done|]. apply N.leb_le. lia.
    Qed.
    Lemma counted_nodup : List.NoDup (counted nthr s).
    Proof using All.
      unfold counted. generalize (seq_NoDup (N.to_nat nthr) 0). generalize (seq 0 (N.to_nat nthr)). intros l Hl.
      induction Hl as [|t l Hni Hl IH]; [constructor|]. simpl. apply NoDup_ListNoDup, NoDup_app. split; [|split].
      - apply NoDup_ListNoDup. apply List.NoDup_filter, NoDup_ListNoDup, (p_nodup _ _ _ Ha).
      - intros v Hv Hv'. apply elem_of_list_In in Hv, Hv'. apply filter_In in Hv as [Hv _]. apply in_flat_map in Hv' as (t' & Ht' & Hv').
        apply filter_In in Hv' as [Hv' _]. destruct (b_in _ _ Hb _ _ Hv) as [E1 _]. destruct (b_in _ _ Hb _ _ Hv') as [E2 _].
        apply Hni. congruence.
      - by apply NoDup_ListNoDup.
    Qed.
    (** What has passed checkToRemit has been emitted. *)
    Lemma passed_emitted t x : In x (map pev (passed nthr (bpipe s) t)) -> exists i,
      nth_error (ends evs) i = Some (src x, dst x) /\ idx x = N.of_nat i /\ (i < length (emitted (bpipe s)))%nat.
    Proof using All.
      intros Hx. assert (In x (List.filter (inthr nthr t) (E (bpipe s)))) as H by (rewrite (p_passed _ _ Hg); apply in_app_iff; by left).
      apply filter_In in H as [H _]. apply elem_of_list_In, elem_of_list_lookup in H as (i & Hi). exists i.
      destruct (E_nth nthr evs lHnum (bpipe s) i x Ha Hi) as (e & He & <- & Hidx). split; [|split; [done|]].
      - unfold ends. apply (map_nth_error (fun e => (tsrc e, tdst e))). rewrite <- He. clear. revert i. induction evs as [|x l IH]; intros [|i]; [done|done|done|]. apply IH.
      - apply lookup_lt_Some in Hi. unfold E in Hi. by rewrite map_length in Hi.
    Qed.
    Lemma in_table v : occurs (firstn k (ends evs)) v -> In v (verts (bpipe s) (wth nthr v)).
    Proof using All.
      intros (e & He & Hv). rewrite ends_rlog in He. apply in_map_iff in He as (r & <- & Hr). destruct Hv as [<-|<-]; cbn [fst snd].
      - apply (b_taken _ _ Hb). rewrite taken_all. apply filter_In. split; [done|apply Nat.eqb_refl].
      - apply (b_le _ _ Hb _ (pev r)). apply in_map. unfold passed, rfor. apply in_app_iff. left. apply filter_In. split; [done|apply Nat.eqb_refl].
    Qed.
    Lemma dst_counted e : In e (firstn k (ends evs)) -> In (snd e) (counted nthr s).
    Proof using All.
      intros He. assert (Hocc : occurs (firstn k (ends evs)) (snd e)) by (exists e; auto).
      apply in_counted. split; [by apply in_table|]. rewrite ends_rlog in He. apply in_map_iff in He as (r & <- & Hr). cbn [snd].
      eapply N.le_lt_trans; [|exact (rlog_idx r Hr)]. apply (b_le _ _ Hb _ (pev r)). apply in_map. unfold passed, rfor. apply in_app_iff. left.
      apply filter_In. split; [done|apply Nat.eqb_refl].
    Qed.
    Lemma sound v : In v (counted nthr s) -> occurs (firstn k (ends evs)) v.
    Proof using All.
      intros H. apply in_counted in H as [H1 H2]. destruct (b_in _ _ Hb _ _ H1) as [_ [(x & Hx & <- & Hc)|(x & Hx & <- & Hc)]].
      - destruct (passed_emitted _ _ Hx) as (i & Hi & Hidx & _). exists (src x, dst x). split; [|by right].
        rewrite Hc, Hidx in H2. apply (nth_error_In _ i). rewrite <- Hi. clear -H2. assert (i < k)%nat as Hik by lia. clear H2. revert i k Hik.
        induction (ends evs) as [|y l IH]; intros [|i] [|k] Hik; simpl; try done; try lia. apply IH. lia.
      - rewrite ends_rlog. apply in_map_iff in Hx as (r & <- & Hr). exists (rsrc r, rdst r). split; [|by left].
        apply in_map_iff. eauto.
    Qed.
    Lemma missed v : occurs (firstn k (ends evs)) v -> ~ In v (counted nthr s) ->
      (forall e, In e (firstn k (ends evs)) -> snd e <> v) /\
      exists i a, (k <= i < length (emitted (bpipe s)))%nat /\ nth_error (ends evs) i = Some (a, v).
    Proof using All.
      intros Ho Hc. split; [intros e He <-; by apply Hc, dst_counted|].
      pose proof (in_table v Ho) as Ht. assert (Hge : N.of_nat k <= create s (wth nthr v) v).
      { destruct (N.le_gt_cases (N.of_nat k) (create s (wth nthr v) v)); [done|]. exfalso. apply Hc, in_counted. done. }
      destruct (b_in _ _ Hb _ _ Ht) as [_ [(x & Hx & <- & E)|(x & Hx & <- & E)]].
      - destruct (passed_emitted _ _ Hx) as (i & Hi & Hidx & Hlt). exists i, (src x). split; [lia|done].
      - exfalso. apply in_map_iff in Hx as (r & <- & Hr). apply rlog_idx in Hr. rewrite E in Hge. unfold pev, pview in Hge. cbn [idx fst] in Hge. lia.
    Qed.
  End run.

  Lemma vertices_of_spec l v : In v (vertices_of l) <-> occurs l v.
  Proof.
    unfold vertices_of. rewrite nodup_In, in_flat_map. split.
    - intros (e & He & [H|[H|[]]]); exists e; auto.
    - intros (e & He & [H|H]); exists e; simpl; auto.
  Qed.

  (** C76.  The event index of a query after the k-th event is k-1. *)
  Theorem C76_at_event : forall nthr evs sched s k,
    0 < nthr -> numbered evs -> s = born_run zero nthr evs sched -> spurious (bpipe s) = false -> at_query s k -> (1 <= k)%nat ->
    at_index nthr s = N.of_nat k - 1.
  Proof. intros nthr evs sched s k Hn Hnum Es Hsp Hq Hk. exact (at_index_query nthr evs sched s k Hn Hnum Es Hsp Hq Hk). Qed.

  (** C76.  Whatever the schedule, an entry reports only vertices that occur in the events of the query, each once; so
      the reported number of vertices is never too large. *)
  Theorem C76_sound : forall nthr evs sched s k,
    0 < nthr -> numbered evs -> s = born_run zero nthr evs sched -> spurious (bpipe s) = false -> at_query s k -> (1 <= k)%nat ->
    List.NoDup (counted nthr s) /\ (forall v, In v (counted nthr s) -> occurs (firstn k (ends evs)) v) /\
    (length (counted nthr s) <= length (vertices_of (firstn k (ends evs))))%nat.
  Proof.
    intros nthr evs sched s k Hn Hnum Es Hsp Hq Hk. pose proof (counted_nodup nthr evs sched s _ Hn Hnum Es Hsp Hq Hk) as Hnd.
    pose proof (sound nthr evs sched s k Hn Hnum Es Hsp Hq Hk) as Hs. split; [done|]. split; [done|].
    apply NoDup_incl_length; [done|]. intros v Hv. apply vertices_of_spec. auto.
  Qed.

  (** C76.  A vertex that occurs in the events of the query and is not reported occurs in them
      as a source only, and is the destination of an event beyond the query that has been
      emitted already. *)
  Theorem C76_missed : forall nthr evs sched s k v,
    0 < nthr -> numbered evs -> s = born_run zero nthr evs sched -> spurious (bpipe s) = false -> at_query s k -> (1 <= k)%nat ->
    occurs (firstn k (ends evs)) v -> ~ In v (counted nthr s) ->
    (forall e, In e (firstn k (ends evs)) -> snd e <> v) /\
    exists i a, (k <= i < length (emitted (bpipe s)))%nat /\ nth_error (ends evs) i = Some (a, v).
  Proof. intros nthr evs sched s k v Hn Hnum Es Hsp Hq Hk. exact (missed nthr evs sched s k Hn Hnum Es Hsp Hq Hk v). Qed.

  Lemma exact_length nthr (evs : list (tev P)) (s : born P) k : List.NoDup (counted nthr s) ->
    (forall v, In v (counted nthr s) <-> occurs (firstn k (ends evs)) v) ->
    length (counted nthr s) = length (vertices_of (firstn k (ends evs))).
  Proof.
    intros Hnd H. apply Permutation_length. apply Permutation.NoDup_Permutation; [done|apply NoDup_nodup|]. intros v.
    by rewrite H, vertices_of_spec.
  Qed.

  (** C76.  In an undirected graph, a query between the pairs of events reports exactly the
      vertices that occur. *)
  Theorem C76_undirected : forall nthr evs sched s j,
    0 < nthr -> numbered evs -> s = born_run zero nthr evs sched -> spurious (bpipe s) = false -> at_query s (2 * j) -> (1 <= j)%nat ->
    paired (ends evs) ->
    (forall v, In v (counted nthr s) <-> occurs (firstn (2 * j) (ends evs)) v) /\
    length (counted nthr s) = length (vertices_of (firstn (2 * j) (ends evs))).
  Proof.
    intros nthr evs sched s j Hn Hnum Es Hsp Hq Hj Hp. assert (Hk : (1 <= 2 * j)%nat) by lia.
    assert (H : forall v, In v (counted nthr s) <-> occurs (firstn (2 * j) (ends evs)) v).
    { intros v. split; [apply (sound nthr evs sched s (2 * j) Hn Hnum Es Hsp Hq Hk)|].
      intros (e & He & Hv). destruct Hv as [<-|<-]; [|exact (dst_counted nthr evs sched s _ Hn Hnum Es Hsp Hq Hk e He)].
      destruct (In_nth_error _ _ He) as (i & Hi). destruct e as [a b].
      assert (Hlt : (i < 2 * j)%nat).
      { assert (i < length (firstn (2 * j) (ends evs)))%nat by (apply nth_error_Some; by rewrite Hi). rewrite firstn_length in *. lia. }
      assert (Hin : forall m, (m < 2 * j)%nat -> nth_error (firstn (2 * j) (ends evs)) m = nth_error (ends evs) m).
      { intros m Hm. clear -Hm. revert m Hm. generalize (2 * j)%nat. induction (ends evs) as [|y l IH]; intros [|k] [|m] Hm; simpl; try done; try lia. apply IH. lia. }
      rewrite Hin in Hi by done.
      (* the partner of the event has this vertex as its destination *)
      destruct (Nat.Even_or_Odd i) as [[m Em]|[m Em]].
      - subst i. pose proof (Hp m a b Hi) as Hi'. assert (Hm : (2 * m + 1 < 2 * j)%nat) by lia. rewrite <- (Hin _ Hm) in Hi'.
        exact (dst_counted nthr evs sched s _ Hn Hnum Es Hsp Hq Hk (b, a) (nth_error_In _ _ Hi')).
      - subst i. assert (Hm : (2 * m < 2 * j)%nat) by lia. destruct (nth_error (ends evs) (2 * m)) as [[c d]|] eqn:E0.
        + pose proof (Hp m c d E0) as Hi'. rewrite Hi in Hi'. injection Hi' as -> ->. rewrite <- (Hin _ Hm) in E0.
          exact (dst_counted nthr evs sched s _ Hn Hnum Es Hsp Hq Hk (c, d) (nth_error_In _ _ E0)).
        + exfalso. apply nth_error_None in E0. assert (2 * m + 1 < length (ends evs))%nat by (apply nth_error_Some; by rewrite Hi). lia. }
    split; [done|]. apply exact_length; [|done]. exact (counted_nodup nthr evs sched s _ Hn Hnum Es Hsp Hq Hk).
  Qed.

  (** C76.  A query after the last event reports exactly the vertices that occur. *)
  Theorem C76_end : forall nthr evs sched s,
    0 < nthr -> numbered evs -> s = born_run zero nthr evs sched -> spurious (bpipe s) = false -> at_query s (length evs) -> evs <> [] ->
    (forall v, In v (counted nthr s) <-> occurs (ends evs) v) /\
    length (counted nthr s) = length (vertices_of (ends evs)).
  Proof.
    intros nthr evs sched s Hn Hnum Es Hsp Hq Hne. assert (Hk : (1 <= length evs)%nat) by (destruct evs; [done|simpl; lia]).
    assert (Hall : firstn (length evs) (ends evs) = ends evs) by (apply firstn_all2; unfold ends; by rewrite map_length).
    assert (H : forall v, In v (counted nthr s) <-> occurs (firstn (length evs) (ends evs)) v).
    { intros v. split; [apply (sound nthr evs sched s _ Hn Hnum Es Hsp Hq Hk)|]. intros Ho.
      destruct (in_dec N.eq_dec v (counted nthr s)) as [|Hc]; [done|exfalso].
      destruct (missed nthr evs sched s _ Hn Hnum Es Hsp Hq Hk v Ho Hc) as (_ & i & a & Hi & Hnth).
      assert (i < length (ends evs))%nat by (apply nth_error_Some; by rewrite Hnth). unfold ends in *. rewrite map_length in *. lia. }
    pose proof (exact_length _ _ _ _ (counted_nodup nthr evs sched s _ Hn Hnum Es Hsp Hq Hk) H) as Hlen. rewrite Hall in *. done.
  Qed.

  (** C76.  What PageRank discards: for a vertex that is the source of none of the events of the
      query, the test says exactly that it does not occur in them. *)
  Theorem C76_discard : forall nthr evs sched s k v,
    0 < nthr -> numbered evs -> s = born_run zero nthr evs sched -> spurious (bpipe s) = false -> at_query s k -> (1 <= k)%nat ->
    In v (verts (bpipe s) (wth nthr v)) -> (forall e, In e (firstn k (ends evs)) -> fst e <> v) ->
    (not_yet nthr s v = true <-> ~ occurs (firstn k (ends evs)) v).
  Proof.
    intros nthr evs sched s k v Hn Hnum Es Hsp Hq Hk Hv Hsrc. unfold not_yet.
    rewrite (at_index_query nthr evs sched s k Hn Hnum Es Hsp Hq Hk), N.ltb_lt. split.
    - intros Hlt (e & He & [H|H]); [by apply (Hsrc e)|]. pose proof (dst_counted nthr evs sched s k Hn Hnum Es Hsp Hq Hk e He) as Hc.
      rewrite H in Hc. apply (in_counted nthr evs sched s k Hn Hnum Es Hsp Hq Hk) in Hc. lia.
    - intros Ho. destruct (N.le_gt_cases (N.of_nat k) (create s (wth nthr v) v)); [lia|]. exfalso. apply Ho.
      apply (sound nthr evs sched s k Hn Hnum Es Hsp Hq Hk). by apply (in_counted nthr evs sched s k Hn Hnum Es Hsp Hq Hk).
  Qed.
End props.
Print Assumptions C76_at_event.
Print Assumptions C76_sound.
Print Assumptions C76_missed.
Print Assumptions C76_undirected.
Print Assumptions C76_end.
Print Assumptions C76_discard.

(** C76, "all of them": refuted.  Events 1->2 and 3->1, two threads.  The thread of vertex 1 looks at the second event, of
    which 1 is the destination, before the first event, of which it is the source, comes back to it.  A query after the
    first event sees the edge 1->2 in the graph but reports vertex 2 only; vertex 1 counts as created by the second event. *)
Definition missed_evs : list (tev N) := [Tev 0 1 2 5; Tev 4 3 1 6].
Definition missed_sched : list who := [WEmit; WEmit; WEmit; WEmit; WThread 1; WThread 0; WRemit; WRemit; WTake 1].
Theorem C76_all_refuted : exists s, s = born_run 0 2 missed_evs missed_sched /\ spurious (bpipe s) = false /\ at_query s 1 /\
  numbered missed_evs /\
  map (fun r => (rsrc r, rdst r)) (taken (bpipe s) 1) = [(1, 2)] /\ counted 2 s = [2] /\
  vertices_of (firstn 1 (ends missed_evs)) = [1; 2].
Proof.
  eexists. split; [reflexivity|]. split; [reflexivity|]. split.
  { split; [reflexivity|]. intros t. destruct t as [|[|t]]; reflexivity. }
  split; [|vm_compute; auto]. intros [|[|i]] e H; simpl in H; [by injection H as <-|by injection H as <-|destruct i; done].
Qed.
Print Assumptions C76_all_refuted.

(** The same events, with the thread of vertex 1 looking at its incoming events later: both are reported. *)
Example C76_case : forall s, s = born_run 0 2 missed_evs [WEmit; WEmit; WThread 0; WRemit; WRemit; WTake 1; WEmit; WEmit; WThread 1] ->
  at_index 2 s = 0 /\ counted 2 s = [2; 1] /\ map (not_yet 2 s) [1; 2] = [false; false] /\
  forall s', s' = fold_left (born_step 0 2) [WRemit; WRemit; WTake 1] s -> at_index 2 s' = 1 /\ counted 2 s' = [2; 1; 3].
Proof. intros s ->. vm_compute. split_and!; auto. by intros s' ->. Qed.
