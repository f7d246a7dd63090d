(** C92: the event pipeline with queues of limited size never gets stuck. *)
From Verif Require Import Base Vertex_Model Vertex_Proofs Vertex_Props Load_Spec Load_Model Load_Proofs Remit_Spec Remit_Model Remit_Proofs Remit_Props Flow_Model Flow_Proofs.
Open Scope nat_scope.

Section props.
Context {P : Type} (zero : P) (k n sl sf so st_ sq : nat).
Notation frun := (frun zero k n sl sf so st_ sq).
Notation frounds := (frounds zero k n sl sf so st_ sq).
Notation nn := (N.of_nat n).
Notation fstep := (fstep zero k n sl sf so st_ sq).

(** ConvergeDynamic has got past its waiting; the Remitter is done; the queues between emitter, threads and Remitter are
    empty, and every thread has seen both of its queues closed. *)
Definition drained (s : flow P) : Prop :=
  mst s = MAlg /\ rst (pip s) = RDone /\ ord (pip s) = [] /\
  forall t, t < n -> fe (pip s) t = [] /\ tq (pip s) t = [] /\ trclosed (pip s) t = true /\ strc s t = true.
(** Everybody gets a turn. *)
Definition all_in (l : list factor) : Prop :=
  (forall i, i < k -> FRead i ∈ l) /\ (exists g, FEmit g ∈ l) /\ (forall t, t < n -> FPass t ∈ l) /\ (exists g, FRemit g ∈ l) /\
  (forall t, t < n -> FTake t ∈ l) /\ FMain ∈ l.

(** However small the queues (one place; ToRemitQueue: two), however many readers and threads, whatever has happened so far:
    if everybody gets a turn in every round, everything drains.  *)
Theorem C92_drains file sched R : 0 < k -> 0 < n -> 0 < sl -> 0 < sf -> 0 < so -> 1 < st_ -> 0 < sq ->
  (forall j, all_in (R j)) -> exists j, drained (frounds (frun (fstart k file) sched) R j).
Proof.
  intros Hk Hn Hsl Hsf Hso Hst Hsq HR.
  destruct (drains zero k n sl sf so st_ sq Hk Hn Hsl Hsf Hso Hst Hsq file (frun (fstart k file) sched) R) as (j & F1 & F2 & F3 & F4 & F5); [|done|].
  - apply inv_run; [done|done|]. by apply inv_start.
  - exists j. split_and!; [done..|]. intros t Ht. destruct (F5 t Ht) as (A1 & A2 & A3 & A4). done.
Qed.

Lemma run_inv file sched : 0 < k -> 0 < n -> inv zero k n file (frun (fstart k file) sched).
Proof. intros Hk Hn. apply inv_run; [done|done|]. by apply inv_start. Qed.

(** At every moment of every run: the emitter has taken the first lines of the file; if the Remitter was never told that a
    ToRemitQueue is closed while there is something in it (see C22), every thread has received exactly the events of its sources
    among those handed on, which are the first of those lines. *)
Theorem C92_in_order file sched : 0 < k -> 0 < n -> let s := frun (fstart k file) sched in
  (exists rest, file = gone s ++ rest) /\
  (spurious (pip s) = false -> forall t, received (pip s) (N.of_nat t) = share nn (N.of_nat t) (deliver (map view (take (length (rlog (pip s))) (concat (gone s)))))).
Proof.
  intros Hk Hn s. pose proof (run_inv file sched Hk Hn) as HI. fold s in HI. split.
  - destruct (i_deal _ _ _ _ _ HI) as (rest & H & _). by exists rest.
  - intros Hs t. destruct (i_abs _ _ _ _ _ HI) as (l & H). specialize (H [] (or_intror eq_refl)). rewrite more_nil, app_nil_r in H.
    eapply (C22_per_thread_order zero (fun _ => 0%N)); [|exact H|done]; lia.
Qed.

(** Once drained: unless the emitter was told that a reader's queue is closed while there is something in it (C20), the
    threads have taken all events of the file, each those of its sources, in the order of the file. *)
Theorem C92_all file sched : 0 < k -> 0 < n -> let s := frun (fstart k file) sched in drained s -> spurious (pip s) = false -> lq s (cur s) = [] ->
  forall t, t < n -> map pview (taken (pip s) t) = share nn (N.of_nat t) (deliver (map view (concat file))).
Proof.
  intros Hk Hn s (D1 & D2 & D3 & D4) Hs Hl t Ht. pose proof (run_inv file sched Hk Hn) as HI. fold s in HI.
  destruct (i_done _ _ _ _ _ HI D2) as [Hb _]. destruct (i_clo _ _ _ _ _ HI Hb) as (_ & _ & Ho). destruct (i_over _ _ _ _ _ HI Ho) as [Hsr _].
  destruct (i_deal _ _ _ _ _ HI) as (rest & Hf & Hc & Hd). assert (Hck : cur s < k) by (rewrite Hc; apply Nat.mod_upper_bound; lia).
  specialize (Hd (cur s) Hck). rewrite Hl, Hsr in Hd. symmetry in Hd. apply dealt_nil in Hd; [|done]. subst rest. rewrite app_nil_r in Hf.
  destruct (i_abs _ _ _ _ _ HI) as (l & H). specialize (H [] (or_intror eq_refl)). rewrite more_nil, app_nil_r in H.
  assert (HC : received (pip s) (N.of_nat t) = share nn (N.of_nat t) (deliver (map view (concat (gone s))))) by (eapply (C22_complete zero (fun _ => 0%N)); [|exact H|done|done]; lia). unfold received in HC. rewrite Nat2N.id in HC.
  destruct (D4 t Ht) as (_ & Hq & _). rewrite Hq, app_nil_r in HC. by rewrite HC, Hf.
Qed.

(** The channels doneRemit and doneEvents, with room for one message per thread, are never too small: no thread ever waits to
    send on them. *)
Theorem C92_channels file sched : 0 < k -> 0 < n -> let s := frun (fstart k file) sched in nrem s <= n /\ nevt s <= n.
Proof.
  intros Hk Hn s. pose proof (run_inv file sched Hk Hn) as HI. fold s in HI. pose proof (i_nrem _ _ _ _ _ HI). pose proof (i_nevt _ _ _ _ _ HI).
  assert (many n (trclosed (pip s)) <= n) by (eapply many_le; eauto). assert (many n (strc s) <= n) by (eapply many_le; eauto). lia.
Qed.

(** No queue has more than fits, as long as nothing grows. *)
Definition grows (a : factor) : bool := match a with FEmit g | FRemit g => g | _ => false end.
Record fits (s : flow P) : Prop := {
  f_lq : forall i, length (lq s i) <= sl; f_fe : forall t, length (fe (pip s) t) <= sf; f_ord : length (ord (pip s)) <= so;
  f_tr : forall t, waiting s t <= st_ - 1; f_tq : forall t, length (tq (pip s) t) <= sq }.
Lemma fits_step file s a : inv zero k n file s -> fits s -> grows a = false -> fits (fstep s a).
Proof.
  intros HI [F1 F2 F3 F4 F5] Hg. destruct a as [i|g|t|g|t|]; cbn [Flow_Model.fstep].
  - destruct (_ <? k); [|done]. unfold read. destruct (src s i); [done|]. destruct (Nat.ltb_spec (length (lq s i)) sl); [|done]. constructor; try done. cbn. intros j.
    destruct (decide (j = i)) as [->|?]; [rewrite fset_eq, app_length; cbn; lia|]. by rewrite fset_ne.
  - cbn in Hg. subst g. unfold emit. destruct (bst (pip s)) as [|t] eqn:Eb.
    + destruct (todo (pip s)) as [|e l] eqn:Et.
      * destruct (over s).
        -- unfold bstep. rewrite Eb, Et. by constructor.
        -- unfold get. destruct (eseen s); [destruct (src s (cur s)); by constructor|]. destruct (lq s (cur s)) as [|x q] eqn:E; [by constructor|]. constructor; try done. cbn. intros i.
           destruct (decide (i = cur s)) as [->|?]; [rewrite fset_eq; specialize (F1 (cur s)); rewrite E in F1; cbn in F1; lia|]. by rewrite fset_ne.
      * cbn [orb]. match goal with |- context [?a <? ?b] => destruct (Nat.ltb_spec a b) as [Hl|] end; [|done]. unfold bstep. rewrite Eb, Et. constructor; try done. cbn. intros t.
        destruct (decide (t = wth nn (tdst e))) as [->|?]; [rewrite fset_eq, app_length; cbn; lia|]. by rewrite fset_ne.
    + cbn [orb]. match goal with |- context [?a <? ?b] => destruct (Nat.ltb_spec a b) as [Hl|] end; [|done]. unfold bstep. rewrite Eb. constructor; try done. cbn. rewrite app_length. cbn. lia.
  - destruct (_ <? n); [|done]. unfold pass. destruct (trclosed (pip s) t); [done|]. cbn [orb]. destruct (Nat.eqb_spec (space st_ (waiting s t)) 0) as [|Hsp]; [done|]. unfold space in Hsp.
    destruct (fe (pip s) t) as [|e q] eqn:Ef.
    + unfold gstep. rewrite Ef. destruct (bclosed (pip s)); by constructor.
    + destruct (gstep_more (pip s) t e q Ef) as (G1 & G2 & G3 & G4 & G5 & G6 & G7 & G8 & r & G9). set (p := gstep t (pip s)) in *. constructor; cbn; try done.
      * intros u. rewrite G8. destruct (decide (u = t)) as [->|?]; [rewrite fset_eq; specialize (F2 t); rewrite Ef in F2; cbn in F2; lia|]. by rewrite fset_ne.
      * by rewrite G4.
      * intros u. specialize (F4 u). unfold waiting in *. cbn in *. rewrite G6, G9. destruct (decide (u = t)) as [->|?]; [rewrite fset_eq, app_length; cbn; lia|]. by rewrite fset_ne.
      * intros u. by rewrite G7.
  - cbn in Hg. subst g. assert (Hh : (forall t, rst (pip s) <> RLook t) -> hand s = false) by (intros H; destruct (hand s) eqn:E; [|done]; destruct (i_hand _ _ _ _ _ HI E) as (t & H1 & _); by destruct (H t)).
    unfold remitter. destruct (rst (pip s)) as [|t|t|] eqn:Er.
    + specialize (Hh ltac:(done)). unfold rstep. rewrite Er. destruct (ord (pip s)) as [|u o] eqn:Eo.
      * destruct (bclosed (pip s)); (constructor; cbn; [done|done|rewrite ?Eo; cbn; lia| |done]; intros u; specialize (F4 u); unfold waiting in *; cbn; rewrite ?Er in *; done).
      * constructor; cbn; try done; [cbn in F3; lia|]. intros v. specialize (F4 v). unfold waiting in *. cbn. rewrite Er in F4. rewrite Hh. cbn. done.
    + destruct (tr (pip s) t) as [|r q] eqn:Et.
      * unfold rstep. rewrite Er, Et. constructor; cbn; try done. intros v. specialize (F4 v). unfold waiting in *. cbn. rewrite Er in F4.
        assert (Hh' : hand s = false). { destruct (hand s) eqn:E; [|done]. destruct (i_hand _ _ _ _ _ HI E) as (u & H1 & H2). congruence. } rewrite Hh' in F4. done.
      * destruct (hand s) eqn:Eh.
        -- unfold hand_on. cbn [orb]. match goal with |- context [?a <? ?b] => destruct (Nat.ltb_spec a b) as [Hl|] end; [|done]. unfold rstep. rewrite Er, Et. unfold remit. constructor; cbn; try done.
           ++ intros v. specialize (F4 v). unfold waiting in *. cbn. rewrite Er, Eh in F4. cbn in F4. destruct (Nat.eqb_spec t v) as [Q|?]; [subst v; rewrite fset_eq; rewrite Et in F4; cbn in F4; lia|]. rewrite fset_ne by done. lia.
           ++ intros v. destruct (decide (v = wth nn (rsrc r))) as [->|?]; [rewrite fset_eq, app_length; cbn; lia|]. by rewrite fset_ne.
        -- constructor; cbn; try done. intros v. specialize (F4 v). unfold waiting in *. cbn. rewrite Er, Eh in *. cbn in *. destruct (t =? v); lia.
    + specialize (Hh ltac:(done)). destruct (trclosed (pip s) t) eqn:Ec.
      * unfold hand_on. cbn [orb]. match goal with |- context [?a <? ?b] => destruct (Nat.ltb_spec a b) as [Hl|] end; [|done]. unfold rstep. rewrite Er, Ec. unfold remit. constructor; cbn; try done.
        -- intros v. specialize (F4 v). unfold waiting in *. cbn. rewrite Er in F4. destruct (decide (v = t)) as [->|?]; [by rewrite fset_eq|]. by rewrite fset_ne.
        -- intros v. match goal with |- context [fset _ ?d _ v] => set (w := d) in * end. destruct (decide (v = w)) as [->|?]; [rewrite fset_eq, app_length; cbn; change (length (tq (pip s) w) < sq) in Hl; lia|]. by rewrite fset_ne.
      * unfold rstep. rewrite Er, Ec. constructor; cbn; try done. intros v. specialize (F4 v). unfold waiting in *. cbn. rewrite Er in F4. rewrite Hh. done.
    + unfold rstep. rewrite Er. destruct s; by constructor.
  - destruct (_ <? n); [|done]. unfold taking. destruct (strc s t); [done|]. destruct (tq (pip s) t) as [|r q] eqn:Eq; [destruct (rst (pip s)); by constructor|]. unfold tstep. rewrite Eq. constructor; cbn; try done.
    intros v. destruct (decide (v = t)) as [->|?]; [rewrite fset_eq; specialize (F5 t); rewrite Eq in F5; cbn in F5; lia|]. by rewrite fset_ne.
  - unfold main. destruct (mst s) as [|[|j]|[|j]|]; try by constructor.
    + destruct (rst (pip s)); by constructor.
    + destruct (_ =? _); by constructor.
    + destruct (_ =? _); by constructor.
Qed.
Lemma fits_run file sched : 0 < k -> 0 < n -> forall s, inv zero k n file s -> fits s -> Forall (fun a => grows a = false) sched -> fits (frun s sched).
Proof.
  intros Hk Hn. induction sched as [|a l IH]; intros s HI HF Hg; [done|]. apply Forall_cons_1 in Hg as [Ha Hg]. apply IH; [by apply inv_step|by apply (fits_step file)|done].
Qed.
Lemma fits_start file : fits (fstart k file).
Proof. constructor; cbn; intros; lia. Qed.
Theorem C92_sizes file sched : 0 < k -> 0 < n -> Forall (fun a => grows a = false) sched -> let s := frun (fstart k file) sched in
  (forall i, length (lq s i) <= sl) /\ (forall t, length (fe (pip s) t) <= sf) /\ length (ord (pip s)) <= so /\
  (forall t, waiting s t <= st_ - 1) /\ forall t, length (tq (pip s) t) <= sq.
Proof.
  intros Hk Hn Hg s. destruct (fits_run file sched Hk Hn (fstart k file)) as [F1 F2 F3 F4 F5]; [by apply inv_start|apply fits_start|done|]. done.
Qed.

Lemma taken_none t l : (FTake t ∉ l) -> forall s, taken (pip s) t = [] -> taken (pip (frun s l)) t = [].
Proof.
  induction l as [|a l IH]; intros Hn s Hs; [done|]. apply not_elem_of_cons in Hn as [Ha Hl]. apply IH; [done|]. destruct a as [i|g|u|g|u|]; cbn [Flow_Model.fstep].
  - destruct (_ <? k); [|done]. unfold read. destruct (src s i); [done|]. by destruct (_ <? _).
  - unfold emit, get, bstep. destruct (bst (pip s)) eqn:Eb; [destruct (todo (pip s)) eqn:Et|]; [destruct (over s); [done|]| |]; [destruct (eseen s); [by destruct (src s (cur s))|by destruct (lq s (cur s))]| |]; by destruct (g || _).
  - destruct (_ <? n); [|done]. unfold pass. destruct (_ || _); [done|]. cbn. unfold gstep. destruct (fe (pip s) u); [by destruct (bclosed (pip s))|]. by destruct (lookup_or_new _ _ _).
  - unfold remitter, hand_on, rstep. destruct (rst (pip s)) as [|v|v|] eqn:Er; [destruct (ord (pip s)); [by destruct (bclosed (pip s))|done]| | |done].
    + destruct (tr (pip s) v); [done|]. destruct (hand s); [|done]. by destruct (g || _).
    + destruct (trclosed (pip s) v); [|done]. by destruct (g || _).
  - destruct (_ <? n); [|done]. unfold taking. destruct (strc s u); [done|]. destruct (tq (pip s) u) eqn:Eq; [by destruct (rst (pip s))|]. cbn. unfold tstep. rewrite Eq. cbn. rewrite fset_ne; [done|congruence].
  - unfold main. destruct (mst s) as [|[|j]|[|j]|]; try done; [by destruct (rst (pip s))|by destruct (_ =? _)|by destruct (_ =? _)].
Qed.

(** One thread holds up all: while thread [t] takes nothing, the Remitter hands on no more of its events than its queue has places,
    and so, to whomever, nothing that comes after those in the file. *)
Theorem C92_held_up file sched t : 0 < k -> 0 < n -> Forall (fun a => grows a = false) sched -> FTake t ∉ sched ->
  let s := frun (fstart k file) sched in
  length (List.filter (fun r => wth nn (rsrc r) =? t) (rlog (pip s))) <= sq.
Proof.
  intros Hk Hn Hg Ht s. pose proof (run_inv file sched Hk Hn) as HI. fold s in HI.
  destruct (i_abs _ _ _ _ _ HI) as (l & H). specialize (H [] (or_intror eq_refl)). rewrite more_nil, app_nil_r in H.
  pose proof (run_always zero nn (concat (gone s)) l) as Ha. unfold pipe_run in Ha. rewrite <- H in Ha. rewrite <- (p_taken _ _ _ Ha t).
  assert (taken (pip s) t = []) as -> by (by apply taken_none). by apply (C92_sizes file sched Hk Hn Hg).
Qed.
End props.

(** A ToRemitQueue with one place takes nothing, since EnqCheckRange says there is none: the pipeline never drains, on no schedule. *)
Theorem C92_one_place_refuted {P} (zero : P) k n sl sf so sq file sched : 0 < n -> ~ drained n (frun zero k n sl sf so 1 sq (fstart k file) sched).
Proof.
  intros Hn. assert (G : forall l s, (forall t, trclosed (pip s) t = false) -> forall t, trclosed (pip (frun zero k n sl sf so 1 sq s l)) t = false).
  { induction l as [|a l IH]; intros s Hs; [done|]. apply IH. destruct a as [i|g|u|g|u|]; cbn [Flow_Model.fstep].
    - destruct (_ <? k); [|done]. unfold read. destruct (src s i); [done|]. by destruct (_ <? _).
    - unfold emit, get, bstep. destruct (bst (pip s)) eqn:Eb; [destruct (todo (pip s)) eqn:Et|]; [destruct (over s); [done|]| |]; [destruct (eseen s); [by destruct (src s (cur s))|by destruct (lq s (cur s))]| |]; by destruct (g || _).
    - destruct (_ <? n); [|done]. unfold pass. by rewrite orb_true_r.
    - unfold remitter, hand_on, rstep. destruct (rst (pip s)) as [|v|v|] eqn:Er; [destruct (ord (pip s)); [by destruct (bclosed (pip s))|done]| | |done].
      + destruct (tr (pip s) v); [done|]. destruct (hand s); [|done]. by destruct (g || _).
      + destruct (trclosed (pip s) v); [|done]. by destruct (g || _).
    - destruct (_ <? n); [|done]. unfold taking. destruct (strc s u); [done|]. destruct (tq (pip s) u) eqn:Eq; [by destruct (rst (pip s))|]. cbn. unfold tstep. by rewrite Eq.
    - unfold main. destruct (mst s) as [|[|j]|[|j]|]; try done; [by destruct (rst (pip s))|by destruct (_ =? _)|by destruct (_ =? _)]. }
  intros (_ & _ & _ & D). destruct (D 0 Hn) as (_ & _ & H & _). rewrite G in H; [done|]. done.
Qed.

(** Two readers, two threads, the smallest queues; four lines, undirected. *)
Definition fl_file : list (list (tev N)) :=
  [[Tev 0 1 2 5; Tev 4 2 1 5]; [Tev 8 3 2 6; Tev 12 2 3 6]; [Tev 16 1 4 7; Tev 20 4 1 7]; [Tev 24 3 4 8; Tev 28 4 3 8]]%N.
Definition fl_round : list factor := [FRead 0; FRead 1; FEmit false; FPass 0; FPass 1; FRemit false; FTake 0; FTake 1; FMain].
Definition fl_go (j : nat) : flow N := frounds 0%N 2 2 1 1 1 2 1 (fstart 2 fl_file) (fun _ => fl_round) j.
Lemma fl_fair : all_in 2 2 fl_round.
Proof.
  unfold all_in, fl_round. split_and!.
  - intros [|[|i]] Hi; [| |lia]; rewrite !elem_of_cons; auto.
  - exists false. rewrite !elem_of_cons. auto.
  - intros [|[|i]] Hi; [| |lia]; rewrite !elem_of_cons; auto 10.
  - exists false. rewrite !elem_of_cons. auto 10.
  - intros [|[|i]] Hi; [| |lia]; rewrite !elem_of_cons; auto 12.
  - rewrite !elem_of_cons. auto 12.
Qed.
Example C92_case : all_in 2 2 fl_round /\
  (mst (fl_go 12), length (rlog (pip (fl_go 12))), length (todo (pip (fl_go 12))), length (gone (fl_go 12))) = (MInput, 3, 1, 3) /\
  let s := fl_go 40 in drained 2 s /\ spurious (pip s) = false /\ lq s (cur s) = [] /\
  map (fun t => map (fun r => (rsrc r, rdst r)) (taken (pip s) t)) [0; 1] =
    [[(2, 1); (2, 3); (4, 1); (4, 3)]; [(1, 2); (3, 2); (1, 4); (3, 4)]]%N.
Proof.
  split; [apply fl_fair|]. split; [by vm_compute|]. cbv zeta. split_and!; [|by vm_compute..].
  split_and!; [by vm_compute..|]. intros [|[|t]] Ht; [by vm_compute..|lia].
Qed.

Print Assumptions C92_drains.
Print Assumptions C92_in_order.
Print Assumptions C92_all.
Print Assumptions C92_channels.
Print Assumptions C92_sizes.
Print Assumptions C92_held_up.
Print Assumptions C92_one_place_refuted.
