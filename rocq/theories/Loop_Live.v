(** The loops around a machine come to an end: once no more topology events come and only so much
    work is left, every fair schedule brings the machine to rest, and then all threads leave. *)
From Verif Require Import Base Loop_Spec Loop_Model Loop_Proofs.
From Verif Require Engine_Proofs Term_Model Term_Proofs Term_Live Whole_Proofs Live_Proofs.
Open Scope nat_scope.
Notation loc := Live_Proofs.loc.
Notation sumt := Engine_Proofs.sumt.

Section live.
Context (m : machine) (swap : bool) (n : nat) (L : lawful n m).
Notation wstep := (wstep m swap n).
Notation wrun := (wrun m swap n).
Notation rest_of s t := (Live_Proofs.at_rest (trm s) t).

(** No more topology events come. *)
Definition closed (s : wst m) : Prop := forall t, t < n -> Term_Model.open_ (trm s) t = false.
(** No change of the graph. *)
Definition plain (x : wchoice m) : Prop := match x with Ctl _ => True | Do c => m_kind c <> IsChange end.
(** The work of the machine by itself. *)
Definition able (e : m_st m) (t : nat) (c : m_choice m) : bool :=
  match m_kind c with
  | IsRun => m_busy e t
  | IsPop => negb (m_busy e t) && (0 <? m_len e t)
  | IsChange => false
  end.
Context (P : m_st m -> Prop) (mu : m_st m -> nat).
Context (Hdown : forall e t c, P e -> t < n -> able e t c = true -> P (m_step e t c) /\ mu (m_step e t c) < mu e).
(** The choices of running and taking that a round must contain. *)
Context (cr cp : m_choice m) (Hcr : m_kind cr = IsRun) (Hcp : m_kind cp = IsPop).

Record good (s : wst m) : Prop := Good { g_inv : winv m n s; g_closed : closed s; g_P : P (eng s) }.
Definition C : nat := 10 * n + 50.
Definition rem (s : wst m) : nat := mu (eng s) * C + sumt (loc n (trm s)) n.
(** What a thread that is not at rest does next. *)
Definition prog (s : wst m) (t : nat) : wchoice m :=
  match Term_Model.at_ (trm s) t with
  | Term_Model.Work got _ _ => if m_busy (eng s) t then Do cr else if (did s t <? got)%N then Do cp else Ctl Term_Model.Finish
  | _ => Ctl Term_Model.Go
  end.
Definition same (s s' : wst m) (t : nat) : Prop :=
  Term_Model.at_ (trm s') t = Term_Model.at_ (trm s) t /\ Term_Model.queue (trm s') t = Term_Model.queue (trm s) t /\ m_busy (eng s') t = m_busy (eng s) t /\ did s' t = did s t.
Lemma same_prog s s' t : same s s' t -> rest_of s' t = rest_of s t /\ prog s' t = prog s t.
Proof. intros (E1 & E2 & E3 & E4). unfold Live_Proofs.at_rest, prog. by rewrite E1, E2, E3, E4. Qed.

Lemma closed_step s t x : closed s -> closed (wstep s t x).
Proof.
  intros H u Hu. specialize (H u Hu). rewrite trm_step. generalize (lwork m s t x). intros l. revert H. generalize (trm s). induction l as [|[w c] l IH]; intros k Hk; [done|].
  cbn [Term_Model.exec fold_left]. apply IH. unfold Term_Model.step. cbn [fst snd]. destruct (w <? n); [|done]. unfold Term_Model.go, Term_Model.received.
  destruct (Term_Model.at_ k w); destruct c; try done; cbv zeta; repeat case_match; cbn; try done; destruct (decide (u = w)) as [->|Hne]; Term_Proofs.fs; done.
Qed.

(** A step of the loop: not of the machine. *)
Lemma loop_rem s t c : good s -> t < n -> may_loop m s t c = true -> (Term_Model.at_ (trm s) t = Term_Model.Done -> Term_Model.queue (trm s) t = 0%N) ->
  let s' := loop_on m swap n s t c in
  rem s' <= rem s /\ (forall w, w < n -> rest_of s w = false -> rem s' < rem s \/ same s s' w) /\
  (rest_of s t = false -> prog s t = Ctl c -> rem s' < rem s).
Proof.
  intros HG Ht Hm Hd s'. pose proof (may_loop_spec m s t c Hm) as Hw.
  assert (Hc : working (Term_Model.at_ (trm s) t) -> Live_Proofs.is_send c = false).
  { intros Hk. destruct (Hw Hk) as [_ [[[->| ->] _]|[(b & ->) _]]]; done. }
  destruct (Live_Proofs.loc_own swap n (trm s) t c Ht (g_closed _ HG t Ht) Hc Hd) as (L1 & L2 & L3). cbv zeta in L1, L2, L3.
  assert (Hoth : forall u, u <> t -> Term_Model.at_ (trm s') u = Term_Model.at_ (trm s) u /\ Term_Model.queue (trm s') u = Term_Model.queue (trm s) u).
  { intros u Hne. split; [by apply Whole_Proofs.loop_other|by apply Live_Proofs.queue_other]. }
  pose proof (Engine_Proofs.sumt_change (loc n (trm s')) (loc n (trm s)) n t Ht) as Hs. specialize (Hs ltac:(intros k _ Hne; destruct (Hoth k Hne); by apply Live_Proofs.loc_ext)).
  change (trm s') with (Term_Model.step swap n (trm s) (t, c)) in *.
  split_and!.
  - unfold rem. change (trm s') with (Term_Model.step swap n (trm s) (t, c)). change (eng s') with (eng s). lia.
  - intros w Hwn Hr. destruct (decide (w = t)) as [->|Hne].
    + destruct (L2 Hr) as [L0|[E1 E2]]; [left; unfold rem; change (trm s') with (Term_Model.step swap n (trm s) (t, c)); change (eng s') with (eng s); lia|right].
      split_and!; try done. cbn. rewrite upd_eq. destruct (w_did _ _ _ (g_inv _ HG) t) as [->|Hwk]; [done|]. destruct (Hw Hwk) as [_ [[[->| ->] _]|[_ Hz]]]; [exfalso|exfalso|done];
        unfold Term_Model.step in E1; cbn [fst snd] in E1; rewrite (proj2 (Nat.ltb_lt t n) Ht) in E1; unfold Term_Model.go in E1; destruct (Term_Model.at_ (trm s) t) eqn:Hp; try done; cbn in E1; Term_Proofs.fs; congruence.
    + right. destruct (Hoth w Hne). split_and!; try done. cbn. by rewrite upd_ne.
  - intros Hr Hp. assert (loc n (Term_Model.step swap n (trm s) (t, c)) t < loc n (trm s) t); [|unfold rem; change (trm s') with (Term_Model.step swap n (trm s) (t, c)); change (eng s') with (eng s); lia].
    apply L3; [done| |].
    + intros Hwk. unfold prog in Hp. destruct (Term_Model.at_ (trm s) t); try done. destruct (m_busy (eng s) t); [done|]. destruct (did s t <? got)%N; [done|]. by injection Hp as <-.
    + intros Hwk. unfold prog in Hp. destruct (Term_Model.at_ (trm s) t); try (by injection Hp as <-). by destruct Hwk.
Qed.
Lemma send_loc s t u got sent own : t < n -> u < n -> Term_Model.at_ s t = Term_Model.Work got sent own ->
  let s' := Term_Model.exec swap n s [(t, Term_Model.Send u)] in
  loc n s' u <= loc n s u + (Live_Proofs.W n + (5 * n + 14)) /\ forall w, w <> u -> loc n s' w = loc n s w.
Proof.
  intros Ht Hu Hp s'.
  assert (E : s' = Term_Model.at_pc (Term_Model.set_queue s u (Term_Model.queue s u + 1)) t (Term_Model.Work got (sent + 1) own)).
  { unfold s', Term_Model.exec, Term_Model.step. cbn [fold_left fst snd]. rewrite (proj2 (Nat.ltb_lt t n) Ht). unfold Term_Model.go. rewrite Hp. by rewrite (proj2 (Nat.ltb_lt u n) Hu). }
  rewrite E. assert (Hph : forall w, Live_Proofs.ph n (Term_Model.at_ (Term_Model.at_pc (Term_Model.set_queue s u (Term_Model.queue s u + 1)) t (Term_Model.Work got (sent + 1) own)) w) = Live_Proofs.ph n (Term_Model.at_ s w) /\
    Term_Proofs.idle (Term_Model.at_ (Term_Model.at_pc (Term_Model.set_queue s u (Term_Model.queue s u + 1)) t (Term_Model.Work got (sent + 1) own)) w) = Term_Proofs.idle (Term_Model.at_ s w)).
  { intros w. destruct (decide (w = t)) as [->|Hne]; cbn; Term_Proofs.fs; [by rewrite Hp|done]. }
  split.
  - unfold Live_Proofs.loc, Live_Proofs.at_rest. destruct (Hph u) as [-> ->]. cbn [Term_Model.at_pc Term_Model.set_queue Term_Model.queue]. Term_Proofs.fs.
    assert (N.to_nat (Term_Model.queue s u + 1) = S (N.to_nat (Term_Model.queue s u))) as -> by lia. rewrite Nat.mul_succ_r. pose proof (Live_Proofs.ph_bound n (Term_Model.at_ s u)).
    destruct (Term_Proofs.idle (Term_Model.at_ s u)), (N.eqb_spec (Term_Model.queue s u) 0) as [Eq|Eq]; destruct (N.eqb_spec (Term_Model.queue s u + 1) 0); cbn [andb]; rewrite ?Eq; cbn [N.to_nat]; lia.
  - intros w Hne. unfold Live_Proofs.loc, Live_Proofs.at_rest. destruct (Hph w) as [-> ->]. cbn [Term_Model.at_pc Term_Model.set_queue Term_Model.queue]. by Term_Proofs.fs.
Qed.

(** A step of the machine. *)
Lemma work_rem s t c : good s -> may_work m s t c = true -> m_kind c <> IsChange -> rem (wstep s t (Do c)) < rem s /\ P (eng (wstep s t (Do c))).
Proof.
  intros HG Hm Hk. destruct (may_work_spec m n s t c (g_inv _ HG) Hm) as (got & snt & own & Hp & Htn & Hc).
  assert (Ha : able (eng s) t c = true).
  { unfold able. destruct (m_kind c); try done. destruct Hc as (-> & _ & H). by apply Nat.ltb_lt in H as ->. }
  destruct (Hdown (eng s) t c (g_P _ HG) Htn Ha) as [HP Hmu]. unfold Loop_Model.wstep. rewrite Hm. cbn [act_on eng]. split; [|done].
  unfold rem. cbn [act_on eng trm].
  assert (HL : exists u, u < n /\ loc n (Term_Model.exec swap n (trm s) (sending m s t c)) u <= loc n (trm s) u + (Live_Proofs.W n + (5 * n + 14)) /\
    forall w, w <> u -> loc n (Term_Model.exec swap n (trm s) (sending m s t c)) w = loc n (trm s) w).
  { unfold sending. destruct (m_kind c); try (exists t; split_and!; [done|cbn; lia|done]).
    destruct (m_send (eng s) t) as [u|] eqn:Eu; [|exists t; split_and!; [done|cbn; lia|done]].
    assert (Hu : u < n) by (by apply (l_send _ _ L (eng s) t)). exists u. split; [done|]. by eapply send_loc. }
  destruct HL as (u & Hu & L1 & L2).
  pose proof (Engine_Proofs.sumt_change (loc n (Term_Model.exec swap n (trm s) (sending m s t c))) (loc n (trm s)) n u Hu ltac:(intros k _ Hne; by apply L2)) as Hs.
  assert (Live_Proofs.W n + (5 * n + 14) < C) by (unfold C, Live_Proofs.W; lia).
  assert (S (mu (m_step (eng s) t c)) * C <= mu (eng s) * C) by (apply Nat.mul_le_mono_r; lia). lia.
Qed.
(** What one step does. *)
Lemma step_rem s t x : good s -> plain x -> (forall u, u < n -> Term_Model.at_ (trm s) u = Term_Model.Done -> Term_Model.queue (trm s) u = 0%N) ->
  let s' := wstep s t x in good s' /\ rem s' <= rem s /\
  (forall w, w < n -> rest_of s w = false -> rem s' < rem s \/ same s s' w) /\
  (t < n -> rest_of s t = false -> prog s t = x -> rem s' < rem s).
Proof.
  intros HG Hx Hd. pose proof (winv_step m swap n L s t x (g_inv _ HG)) as HW'. pose proof (closed_step s t x (g_closed _ HG)) as HC'. cbv zeta.
  destruct x as [c|c].
  - unfold Loop_Model.wstep in *. destruct (may_loop m s t c) eqn:Em.
    + assert (HG' : good (loop_on m swap n s t c)) by (constructor; [done|done|apply (g_P _ HG)]). destruct (decide (t < n)) as [Ht|Ht].
      * destruct (loop_rem s t c HG Ht Em (Hd t Ht)) as (R1 & R2 & R3). by split_and!.
      * assert (Es : Term_Model.step swap n (trm s) (t, c) = trm s) by (unfold Term_Model.step; cbn [fst]; by rewrite (proj2 (Nat.ltb_ge t n) ltac:(lia))).
        split_and!; try done.
        -- unfold rem, loop_on. cbn [trm eng]. by rewrite Es.
        -- intros w Hwn _. right. unfold same, loop_on. cbn [trm eng did]. rewrite Es. split_and!; try done. rewrite upd_ne; [done|lia].
    + split_and!; try done; [intros; by right|]. intros Ht Hr Hpg. exfalso. unfold may_loop in Em. unfold prog in Hpg. destruct (Term_Model.at_ (trm s) t) eqn:Hp; try done.
      destruct (m_busy (eng s) t); [done|]. destruct (N.ltb_spec (did s t) got); [done|]. injection Hpg as <-. cbn in Em. apply N.eqb_neq in Em.
      pose proof (w_batch _ _ _ (g_inv _ HG) t) as Hb. rewrite Hp in Hb. cbn in Hb. lia.
  - destruct (may_work m s t c) eqn:Em.
    + destruct (work_rem s t c HG Em Hx) as [R HP]. split_and!; [by constructor|lia|intros; by left|done].
    + unfold Loop_Model.wstep in *. rewrite Em in *. split_and!; try done; [intros; by right|]. intros Ht Hr Hpg. exfalso. unfold may_work in Em. unfold prog in Hpg.
      destruct (Term_Model.at_ (trm s) t) eqn:Hp; try done. destruct (m_busy (eng s) t) eqn:Eb.
      * injection Hpg as <-. by rewrite Hcr in Em.
      * destruct (did s t <? got)%N; [|done]. injection Hpg as <-. by rewrite Hcp in Em.
Qed.

(** In a round, every thread gets its turn at everything it may have to do; no change of the graph. *)
Definition turns : list (wchoice m) := [Ctl Term_Model.Go; Ctl Term_Model.Finish; Do cr; Do cp].
Definition fair_round (l : list (nat * wchoice m)) : Prop :=
  (forall t x, (t, x) ∈ l -> plain x) /\ (forall t x, t < n -> x ∈ turns -> (t, x) ∈ l).
Lemma prog_turns s t : prog s t ∈ turns.
Proof. unfold prog, turns. destruct (Term_Model.at_ (trm s) t); try apply elem_of_list_here. destruct (m_busy (eng s) t); [|destruct (did s t <? got)%N]; rewrite !elem_of_cons; auto. Qed.
Definition done_empty (s : wst m) : Prop := forall u, u < n -> Term_Model.at_ (trm s) u = Term_Model.Done -> Term_Model.queue (trm s) u = 0%N.
Definition walong (Q : wst m -> Prop) (s : wst m) (l : list (nat * wchoice m)) : Prop := forall pre post, l = pre ++ post -> Q (wrun s pre).
Lemma walong_cons Q s t x l : walong Q s ((t, x) :: l) -> Q s /\ walong Q (wstep s t x) l.
Proof. intros H. split; [by apply (H [] ((t, x) :: l))|]. intros pre post E. apply (H ((t, x) :: pre) post). by rewrite E. Qed.
Lemma walong_app Q s l1 l2 : walong Q s (l1 ++ l2) -> walong Q s l1 /\ walong Q (wrun s l1) l2.
Proof.
  intros H. split; intros pre post ->.
  - apply (H pre (post ++ l2)). by rewrite app_assoc.
  - rewrite <- wrun_app. apply (H (l1 ++ pre) post). by rewrite app_assoc.
Qed.
Lemma list_rem l : forall s, good s -> (forall t x, (t, x) ∈ l -> plain x) -> walong done_empty s l ->
  good (wrun s l) /\ rem (wrun s l) <= rem s /\
  forall t, t < n -> rest_of s t = false -> (t, prog s t) ∈ l -> rem (wrun s l) < rem s.
Proof.
  induction l as [|[u x] l IH]; intros s HG Hl Ha.
  - split_and!; try done. intros t _ _ H. by apply elem_of_nil in H.
  - apply walong_cons in Ha as [Hd Ha].
    destruct (step_rem s u x HG (Hl u x ltac:(apply elem_of_list_here)) Hd) as (HG1 & R1 & R2 & R3).
    destruct (IH (wstep s u x) HG1 ltac:(intros t' x' Hin; apply (Hl t' x'); by apply elem_of_list_further) Ha) as (HG' & R4 & R5).
    change (wrun s ((u, x) :: l)) with (wrun (wstep s u x) l). split_and!; [done|lia|].
    intros t Ht Hr Hin. destruct (R2 t Ht Hr) as [Hlt|Hsame]; [lia|]. apply same_prog in Hsame as [E1 E2].
    apply elem_of_cons in Hin as [[= Et Ex]|Hin].
    + subst u. specialize (R3 Ht Hr Ex). lia.
    + enough (rem (wrun (wstep s u x) l) < rem (wstep s u x)) by lia. apply (R5 t); [done|by rewrite E1|by rewrite E2].
Qed.
Lemma rest_dec (s : wst m) : (forall t, t < n -> rest_of s t = true) \/ exists t, t < n /\ rest_of s t = false.
Proof.
  assert (G : forall k, (forall t, t < k -> rest_of s t = true) \/ exists t, t < k /\ rest_of s t = false).
  { induction k as [|k [IH|(t & Ht & E)]]; [left; lia| |right; exists t; split; [lia|done]].
    destruct (rest_of s k) eqn:E; [left|right; exists k; split; [lia|done]]. intros t Ht. destruct (decide (t = k)) as [->|]; [done|apply IH; lia]. }
  apply G.
Qed.
Lemma rest_quiet s : closed s -> (forall t, t < n -> rest_of s t = true) -> Term_Proofs.quiet n (trm s).
Proof. intros HC H t Ht. specialize (H t Ht). unfold Live_Proofs.at_rest in H. apply andb_true_iff in H as [H1 H2]. apply N.eqb_eq in H2. split_and!; try done. by apply HC. Qed.
Lemma rounds_rem rounds : Forall fair_round rounds -> forall s, good s -> walong done_empty s (concat rounds) ->
  Term_Proofs.quiet n (trm (wrun s (concat rounds))) \/ rem (wrun s (concat rounds)) + length rounds <= rem s.
Proof.
  induction 1 as [|l rounds Hl _ IH]; intros s HG Ha; [right; cbn; lia|]. cbn [concat] in *. rewrite wrun_app.
  destruct (rest_dec s) as [Hr|(t & Ht & Hr)].
  - left. rewrite <- wrun_app. apply (quiet_run m swap n L); [apply HG|apply rest_quiet; [apply HG|done]].
  - apply walong_app in Ha as [Ha1 Ha2]. destruct (list_rem l s HG (proj1 Hl) Ha1) as (HG1 & _ & R).
    specialize (R t Ht Hr (proj2 Hl t (prog s t) Ht (prog_turns s t))).
    destruct (IH _ HG1 Ha2) as [Hq|Hb']; [by left|right]. cbn [length]. lia.
Qed.
Lemma quiet_lworks l : forall s, winv m n s -> Term_Proofs.quiet n (trm s) -> forall t c, t < n -> (t, Ctl c) ∈ l -> (t, c) ∈ lworks m swap n s l.
Proof.
  induction l as [|[u x] l IH]; intros s HW HQ t c Ht Hin; [by apply elem_of_nil in Hin|]. cbn [lworks]. apply elem_of_app.
  apply elem_of_cons in Hin as [[= -> <-]|Hin]; [left|right].
  - unfold lwork, may_loop. destruct (HQ u Ht) as (Hi & _). destruct (Term_Model.at_ (trm s) u); try discriminate Hi; apply elem_of_list_here.
  - apply IH; try done; [by apply winv_step|]. exact (proj1 (quiet_run m swap n L [(u, x)] s HW HQ)).
Qed.
Lemma quiet_rounds rounds : Forall fair_round rounds -> forall s, winv m n s -> Term_Proofs.quiet n (trm s) ->
  exists trounds, lworks m swap n s (concat rounds) = concat trounds /\ length trounds = length rounds /\ Forall (Term_Live.fair n) trounds.
Proof.
  induction 1 as [|l rounds Hl _ IH]; intros s HW HQ; [by exists []|]. cbn [concat]. rewrite lworks_app.
  destruct (IH (wrun s l)) as (tr & E & Hlen & Hf); [by apply winv_run|by apply (quiet_run m swap n L)|].
  exists (lworks m swap n s l :: tr). cbn [concat length]. rewrite E, Hlen. split_and!; try done. constructor; [|done].
  intros t Ht. apply quiet_lworks; try done. apply Hl; [done|]. apply elem_of_list_here.
Qed.

Lemma ends e own sent0 sched :
  let s0 := wstart m e own sent0 in winv m n s0 -> let s := wrun s0 sched in
  closed s -> P (eng s) ->
  exists bound, forall rounds, Forall fair_round rounds -> bound <= length rounds ->
    swap = true \/ Term_Proofs.tidy swap n (trm s0) (lworks m swap n s0 (sched ++ concat rounds)) ->
    forall t, t < n -> Term_Model.at_ (trm (wrun s (concat rounds))) t = Term_Model.Done.
Proof.
  intros s0 HW0 s HC HB. assert (HG : good s) by (constructor; [by apply winv_run|done|done]).
  set (k := S (rem s)). exists (k + 7 * (10 * n + 31)). intros rounds Hf Hlen Htd.
  assert (Hsound : forall pre post, concat rounds = pre ++ post -> Term_Live.sound swap n (trm (wrun s pre))).
  { intros pre post E. unfold s. rewrite <- wrun_app, trm_run. apply Term_Live.sound_exec; [apply Term_Live.sound_start|].
    destruct Htd as [?|Htd]; [by left|right]. rewrite E, app_assoc, lworks_app in Htd. by apply Term_Live.tidy_app in Htd as [? _]. }
  assert (Hde : walong done_empty s (concat rounds)).
  { intros pre post E u Hu Hdn. destruct (Hsound pre post E) as [_ [(EE & conf & HI & _)|[D Hcalm]]].
    - pose proof (Term_Proofs.i_pc _ _ _ _ _ HI u Hu) as Hp. unfold Term_Proofs.pcok in Hp. by rewrite Hdn in Hp.
    - by apply (Term_Live.m_quiet _ _ _ _ Hcalm). }
  rewrite <- (firstn_skipn k rounds) in Hf, Hde, Htd, Hsound |- *. rewrite concat_app in Hde, Htd, Hsound |- *.
  apply List.Forall_app in Hf as [Hf1 Hf2]. set (l1 := concat (firstn k rounds)) in *. set (r2 := skipn k rounds) in *.
  apply walong_app in Hde as [Hde _].
  assert (HQ : Term_Proofs.quiet n (trm (wrun s l1))).
  { destruct (rounds_rem _ Hf1 s HG Hde) as [?|Hb']; [done|]. rewrite firstn_length in Hb'. lia. }
  assert (HW1 : winv m n (wrun s l1)) by (apply winv_run; [done|apply HG]).
  destruct (quiet_rounds r2 Hf2 (wrun s l1) HW1 HQ) as (tr & Etr & Ltr & Ftr).
  rewrite wrun_app, trm_run, Etr. apply Term_Live.all_leave; try done.
  - by apply (Hsound l1 (concat r2)).
  - rewrite Ltr. unfold r2. rewrite skipn_length. lia.
  - destruct Htd as [?|Htd]; [by left|right]. rewrite app_assoc, lworks_app in Htd. apply Term_Live.tidy_app in Htd as [_ Htd].
    rewrite <- trm_run in Htd. rewrite wrun_app in Htd. fold s in Htd. by rewrite Etr in Htd.
Qed.
End live.
