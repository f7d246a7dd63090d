(** The loops around a machine: the two halves, and what ties them together. *)
From Verif Require Import Base Loop_Spec Loop_Model.
From Verif Require Term_Model Term_Proofs Whole_Proofs.
Open Scope nat_scope.
Notation pulled := Whole_Proofs.pulled.
Notation working := Whole_Proofs.working.
Notation upd_eq := Whole_Proofs.upd_eq.
Notation upd_ne := Whole_Proofs.upd_ne.

Lemma sumN_ext f g k : (forall i, i < k -> f i = g i) -> sumN f k = sumN g k.
Proof. induction k as [|k IH]; intros H; simpl; [done|]. rewrite IH, H; [done|lia|intros; apply H; lia]. Qed.
Lemma sumN_upd f t x k : t < k -> (sumN (upd f t x) k + f t = sumN f k + x)%N.
Proof.
  induction k as [|k IH]; intros Ht; [lia|]. simpl. destruct (decide (t = k)) as [->|Hne].
  - rewrite upd_eq. rewrite (sumN_ext (upd f k x) f k); [lia|]. intros i Hi. apply upd_ne. lia.
  - rewrite (upd_ne f t k x) by lia. specialize (IH ltac:(lia)). lia.
Qed.
Lemma sumN_zero f k : (forall i, i < k -> f i = 0%N) -> sumN f k = 0%N.
Proof. induction k as [|k IH]; intros H; simpl; [done|]. rewrite IH, H; [done|lia|intros; apply H; lia]. Qed.
Lemma sum_len (q q' : nat -> nat) u k : u < k -> q' u = S (q u) -> (forall w, w <> u -> q' w = q w) ->
  sumN (fun t => N.of_nat (q' t)) k = (sumN (fun t => N.of_nat (q t)) k + 1)%N.
Proof.
  intros Hu H1 H2. pose proof (sumN_upd (fun t => N.of_nat (q t)) u (N.of_nat (q' u)) k Hu) as E. cbn beta in E.
  rewrite (sumN_ext (fun t => N.of_nat (q' t)) (upd (fun t => N.of_nat (q t)) u (N.of_nat (q' u))) k); [lia|].
  intros i _. destruct (decide (i = u)) as [->|Hne]; [by rewrite upd_eq|]. rewrite upd_ne by done. by rewrite H2.
Qed.

Section loop.
Context (m : machine) (swap : bool) (n : nat) (L : lawful n m).
Notation wstep := (wstep m swap n).
Notation wrun := (wrun m swap n).

Lemma eng_step s t x : eng (wstep s t x) = runs m_step (eng s) (ework m s t x).
Proof. unfold Loop_Model.wstep, ework. destruct x as [c|c]; by case_match. Qed.
Lemma trm_step s t x : trm (wstep s t x) = Term_Model.exec swap n (trm s) (lwork m s t x).
Proof. unfold Loop_Model.wstep, lwork. destruct x as [c|c]; by case_match. Qed.
Lemma eng_run sched : forall s, eng (wrun s sched) = runs m_step (eng s) (eworks m swap n s sched).
Proof.
  induction sched as [|[t x] l IH]; intros s; [done|]. cbn [eworks]. unfold runs. rewrite fold_left_app. fold (runs m_step (eng s) (ework m s t x)).
  rewrite <- eng_step. apply IH.
Qed.
Lemma trm_run sched : forall s, trm (wrun s sched) = Term_Model.exec swap n (trm s) (lworks m swap n s sched).
Proof.
  induction sched as [|[t x] l IH]; intros s; [done|]. cbn [lworks]. unfold Term_Model.exec. rewrite fold_left_app.
  fold (Term_Model.exec swap n (trm s) (lwork m s t x)). rewrite <- trm_step. apply IH.
Qed.

Record winv (s : wst m) : Prop := Winv {
  w_busy : forall t, m_busy (eng s) t = false \/ working (Term_Model.at_ (trm s) t);
  w_did : forall t, did s t = 0%N \/ working (Term_Model.at_ (trm s) t);
  w_batch : forall t, (did s t <= pulled (Term_Model.at_ (trm s) t))%N;
  w_queue : forall t, (N.of_nat (m_len (eng s) t) + did s t = Term_Model.queue (trm s) t + pulled (Term_Model.at_ (trm s) t))%N;
  w_count : (sumN (nsend s) n = sumN (nrecv s) n + sumN (fun t => N.of_nat (m_len (eng s) t)) n)%N;
  w_unused : forall t, n <= t -> m_len (eng s) t = 0;
  w_out : forall t, n <= t -> Term_Model.at_ (trm s) t = Term_Model.Recv 0 }.

Lemma may_loop_spec s t c : may_loop m s t c = true -> working (Term_Model.at_ (trm s) t) -> m_busy (eng s) t = false /\
  ((c = Term_Model.Finish \/ c = Term_Model.FinishCheck) /\ did s t = pulled (Term_Model.at_ (trm s) t) \/
   (exists b, c = Term_Model.More b) /\ did s t = 0%N).
Proof.
  unfold may_loop. destruct (Term_Model.at_ (trm s) t); try done. intros H _. apply andb_true_iff in H as [H1 H2]. apply negb_true_iff in H1. split; [done|].
  destruct c; try done; apply N.eqb_eq in H2; cbn; eauto.
Qed.
Lemma loop_winv s t c : winv s -> may_loop m s t c = true -> winv (loop_on m swap n s t c).
Proof.
  intros HW Hm. pose proof (may_loop_spec s t c Hm) as Hc. set (s' := loop_on m swap n s t c).
  assert (Hnw : working (Term_Model.at_ (trm s) t) \/ ~ working (Term_Model.at_ (trm s) t)) by (destruct (Term_Model.at_ (trm s) t); cbn; auto).
  assert (Htt : m_busy (eng s) t = false).
  { destruct (w_busy _ HW t) as [?|H]; [done|]. by apply Hc in H as [? _]. }
  assert (Hoth : forall u, u <> t -> Term_Model.at_ (trm s') u = Term_Model.at_ (trm s) u) by (intros u Hne; by apply Whole_Proofs.loop_other).
  assert (Hq : forall u, (N.of_nat (m_len (eng s') u) + did s' u = Term_Model.queue (trm s') u + pulled (Term_Model.at_ (trm s') u))%N).
  { intros u. pose proof (w_queue _ HW u) as Q. destruct Hnw as [Hw|Hnw].
    - destruct (Hc Hw) as [_ Hc']. destruct (Term_Model.at_ (trm s) t) as [got|got|got sent own| |i acc|acc|i acc| |acc|i acc|acc|acc|i|i| |i|] eqn:Hp; try done.
      destruct (decide (t < n)) as [Htn|]; [|rewrite (w_out _ HW t) in Hp by lia; done].
      destruct (decide (u = t)) as [->|Hne].
      + subst s'. unfold loop_on, Term_Model.step. cbn [eng trm did fst snd]. rewrite (proj2 (Nat.ltb_lt t n) Htn), upd_eq. unfold Term_Model.go. rewrite Hp in *. cbn [Whole_Proofs.pulled] in *.
        destruct Hc' as [[[->| ->] Hd]|[(b & ->) Hd]].
        * cbn. Term_Proofs.fs. cbn. lia.
        * cbn. Term_Proofs.fs. cbn. lia.
        * destruct (N.eqb_spec own 0); [rewrite Hp; cbn; lia|]. cbv zeta. destruct b; cbn; Term_Proofs.fs; cbn; lia.
      + rewrite Hoth by done. subst s'. unfold loop_on, Term_Model.step. cbn [eng trm did fst snd]. rewrite (proj2 (Nat.ltb_lt t n) Htn), upd_ne by done. unfold Term_Model.go. rewrite Hp.
        destruct Hc' as [[[->| ->] Hd]|[(b & ->) Hd]]; [done|done|]. destruct (own =? 0)%N; [done|]. by destruct b.
    - pose proof (Whole_Proofs.loop_same swap n (trm s) t c u Hnw) as E. cbv zeta in E. subst s'. unfold loop_on. cbn [eng trm did]. rewrite E, <- Q. f_equal.
      destruct (decide (u = t)) as [->|Hne]; [|by rewrite upd_ne]. rewrite upd_eq. destruct (w_did _ HW t); done. }
  constructor; try done.
  - intros u. destruct (decide (u = t)) as [->|Hne]; [by left|]. rewrite Hoth by done. apply (w_busy _ HW).
  - intros u. destruct (decide (u = t)) as [->|Hne]; [left; subst s'; cbn; by rewrite upd_eq|]. rewrite Hoth by done. subst s'. cbn [loop_on did]. rewrite upd_ne by done. apply (w_did _ HW).
  - intros u. destruct (decide (u = t)) as [->|Hne]; [subst s'; cbn [loop_on did]; rewrite upd_eq; lia|]. rewrite Hoth by done. subst s'. cbn [loop_on did]. rewrite upd_ne by done. apply (w_batch _ HW).
  - apply (w_count _ HW).
  - apply (w_unused _ HW).
  - intros u Hu. destruct (decide (u = t)) as [->|Hne]; [|rewrite Hoth by done; by apply (w_out _ HW)].
    subst s'. unfold loop_on, Term_Model.step. cbn [trm fst]. destruct (Nat.ltb_spec t n); [lia|]. by apply (w_out _ HW).
Qed.
Lemma act_winv s s' t : winv s -> working (Term_Model.at_ (trm s) t) ->
  (forall w, w <> t -> m_busy (eng s') w = m_busy (eng s) w) ->
  (forall u, u <> t -> Term_Model.at_ (trm s') u = Term_Model.at_ (trm s) u) ->
  working (Term_Model.at_ (trm s') t) -> pulled (Term_Model.at_ (trm s') t) = pulled (Term_Model.at_ (trm s) t) ->
  (forall u, u <> t -> did s' u = did s u) -> (did s' t <= pulled (Term_Model.at_ (trm s) t))%N ->
  (forall u, (N.of_nat (m_len (eng s') u) + did s' u + Term_Model.queue (trm s) u = N.of_nat (m_len (eng s) u) + did s u + Term_Model.queue (trm s') u)%N) ->
  (forall u, n <= u -> m_len (eng s') u = m_len (eng s) u) ->
  (sumN (nsend s') n = sumN (nrecv s') n + sumN (fun t => N.of_nat (m_len (eng s') t)) n)%N ->
  winv s'.
Proof.
  intros HW Hw Ht Ha Hw' Hp Hd Hd' Hq Hu' Hc. constructor; try done.
  - intros u. destruct (decide (u = t)) as [->|Hne]; [by right|]. rewrite Ht, Ha by done. apply (w_busy _ HW).
  - intros u. destruct (decide (u = t)) as [->|Hne]; [by right|]. rewrite Hd, Ha by done. apply (w_did _ HW).
  - intros u. destruct (decide (u = t)) as [->|Hne]; [by rewrite Hp|]. rewrite Hd, Ha by done. apply (w_batch _ HW).
  - intros u. specialize (Hq u). pose proof (w_queue _ HW u). assert (pulled (Term_Model.at_ (trm s') u) = pulled (Term_Model.at_ (trm s) u)) as ->.
    { destruct (decide (u = t)) as [->|Hne]; [done|]. by rewrite Ha. }
    lia.
  - intros u Hu. rewrite Hu' by done. by apply (w_unused _ HW).
  - intros u Hu. rewrite Ha; [by apply (w_out _ HW)|]. intros ->. rewrite (w_out _ HW t) in Hw by done. done.
Qed.

(** What a step of the machine is. *)
Lemma may_work_spec s t c : winv s -> may_work m s t c = true -> exists got snt own, Term_Model.at_ (trm s) t = Term_Model.Work got snt own /\ t < n /\
  match m_kind c with
  | IsRun => m_busy (eng s) t = true
  | IsPop => m_busy (eng s) t = false /\ (did s t < got)%N /\ 0 < m_len (eng s) t
  | IsChange => m_busy (eng s) t = false /\ own <> 0%N /\ did s t = 0%N
  end.
Proof.
  intros HW. unfold may_work. destruct (Term_Model.at_ (trm s) t) as [got|got|got snt own| |i acc|acc|i acc| |acc|i acc|acc|acc|i|i| |i|] eqn:Hp; try done.
  intros H. exists got, snt, own. split; [done|]. split.
  - destruct (decide (t < n)) as [|Hge]; [done|]. rewrite (w_out _ HW t) in Hp by lia. done.
  - destruct (m_kind c); [done| |].
    + apply andb_true_iff in H as [H1 H2]. apply negb_true_iff in H1. apply N.ltb_lt in H2. split_and!; try done. pose proof (w_queue _ HW t) as Q. rewrite Hp in Q. cbn in Q. lia.
    + apply andb_true_iff in H as [H1 H3]. apply andb_true_iff in H1 as [H1 H2]. apply negb_true_iff in H1, H2. apply N.eqb_neq in H2. by apply N.eqb_eq in H3.
Qed.
Lemma send_eq s t u got snt own : t < n -> u < n -> Term_Model.at_ s t = Term_Model.Work got snt own ->
  Term_Model.exec swap n s [(t, Term_Model.Send u)] = Term_Model.at_pc (Term_Model.set_queue s u (Term_Model.queue s u + 1)) t (Term_Model.Work got (snt + 1) own).
Proof.
  intros Ht Hu Hp. unfold Term_Model.exec, Term_Model.step. cbn [fold_left fst snd]. rewrite (proj2 (Nat.ltb_lt t n) Ht). unfold Term_Model.go. rewrite Hp. by rewrite (proj2 (Nat.ltb_lt u n) Hu).
Qed.

Lemma winv_step s t x : winv s -> winv (wstep s t x).
Proof.
  intros HW. unfold Loop_Model.wstep. destruct x as [c|c]; [destruct (may_loop m s t c) eqn:E; [by apply loop_winv|done]|].
  destruct (may_work m s t c) eqn:E; [|done]. destruct (may_work_spec s t c HW E) as (got & snt & own & Hp & Htn & Hk). clear E.
  assert (Hw : working (Term_Model.at_ (trm s) t)) by (by rewrite Hp).
  pose proof (w_batch _ HW t) as Hb. rewrite Hp in Hb. cbn [Whole_Proofs.pulled] in Hb. unfold sending.
  pose proof (w_count _ HW) as HC. set (e' := m_step (eng s) t c).
  assert (Hoth : forall w, w <> t -> m_busy e' w = m_busy (eng s) w).
  { intros w Hne. apply (l_other _ _ L); [|done]. destruct (m_kind c); [by left|right; by apply Hk|right; by apply Hk]. }
  destruct (m_kind c) eqn:Ek.
  - assert (R : forall u, m_len e' u = m_len (eng s) u + match m_send (eng s) t with Some d => if u =? d then 1 else 0 | None => 0 end) by (intros u; by apply (l_run _ _ L)).
    destruct (m_send (eng s) t) as [d|] eqn:Ed.
    + assert (Hd : d < n) by (by apply (l_send _ _ L (eng s) t)). apply (act_winv s _ t); try done; cbn [act_on eng trm did nsend nrecv]; rewrite ?(send_eq (trm s) t d got snt own Htn Hd Hp).
      * intros u Hne. cbn. by Term_Proofs.fs.
      * cbn. by Term_Proofs.fs.
      * cbn. Term_Proofs.fs. rewrite Hp. done.
      * intros u Hne. by rewrite upd_ne.
      * rewrite upd_eq, Hp. done.
      * intros u. fold e'. rewrite R. assert (upd (did s) t (did s t) u = did s u) as -> by (destruct (decide (u = t)) as [->|Hne]; [by rewrite upd_eq|by rewrite upd_ne]).
        cbn. destruct (Nat.eqb_spec u d) as [->|Hne]; Term_Proofs.fs; lia.
      * intros u Hu. fold e'. rewrite R. destruct (Nat.eqb_spec u d); lia.
      * cbn [length]. pose proof (sumN_upd (nsend s) t (nsend s t + N.of_nat 1)%N n Htn). pose proof (sumN_upd (nrecv s) t (nrecv s t + 0)%N n Htn).
        fold e'. rewrite (sum_len (m_len (eng s)) (m_len e') d n Hd); [lia| |].
        -- rewrite R, Nat.eqb_refl. lia.
        -- intros w Hne. rewrite R. destruct (Nat.eqb_spec w d); [done|lia].
    + apply (act_winv s _ t); try done; cbn [act_on eng trm did nsend nrecv].
      * intros u Hne. by rewrite upd_ne.
      * rewrite upd_eq, Hp. done.
      * intros u. fold e'. rewrite R. assert (upd (did s) t (did s t) u = did s u) as -> by (destruct (decide (u = t)) as [->|Hne]; [by rewrite upd_eq|by rewrite upd_ne]). cbn. lia.
      * intros u Hu. fold e'. rewrite R. lia.
      * cbn [length]. pose proof (sumN_upd (nsend s) t (nsend s t + N.of_nat 0)%N n Htn). pose proof (sumN_upd (nrecv s) t (nrecv s t + 0)%N n Htn).
        fold e'. rewrite (sumN_ext (fun t => N.of_nat (m_len e' t)) (fun t => N.of_nat (m_len (eng s) t)) n); [lia|]. intros i _. rewrite R. f_equal. lia.
  - destruct Hk as (Hbz & Hlt & Hpos). assert (R : forall u, m_len e' u + (if u =? t then 1 else 0) = m_len (eng s) u) by (intros u; by apply (l_pop _ _ L)).
    apply (act_winv s _ t); try done; cbn [act_on eng trm did nsend nrecv].
    * intros u Hne. by rewrite upd_ne.
    * rewrite upd_eq, Hp. cbn [Whole_Proofs.pulled]. lia.
    * intros u. fold e'. specialize (R u). cbn [Term_Model.exec fold_left]. destruct (Nat.eqb_spec u t) as [Eu|Hne]; [rewrite Eu in *; rewrite upd_eq|rewrite upd_ne by done]; lia.
    * intros u Hu. fold e'. specialize (R u). destruct (Nat.eqb_spec u t); lia.
    * cbn [length]. pose proof (sumN_upd (nsend s) t (nsend s t + N.of_nat 0)%N n Htn). pose proof (sumN_upd (nrecv s) t (nrecv s t + 1)%N n Htn).
      fold e'. pose proof (sum_len (m_len e') (m_len (eng s)) t n Htn) as E. rewrite E in HC; [lia| |].
      -- specialize (R t). rewrite Nat.eqb_refl in R. lia.
      -- intros w Hne. specialize (R w). destruct (Nat.eqb_spec w t); [done|lia].
  - destruct Hk as (Hbz & Ho & Hz). assert (R : forall u, m_len e' u = m_len (eng s) u) by (intros u; by apply (l_change _ _ L)).
    apply (act_winv s _ t); try done; cbn [act_on eng trm did nsend nrecv].
    * intros u Hne. by rewrite upd_ne.
    * rewrite upd_eq. lia.
    * intros u. fold e'. rewrite R. cbn [Term_Model.exec fold_left]. destruct (decide (u = t)) as [->|Hne]; [by rewrite upd_eq|by rewrite upd_ne].
    * cbn [length]. pose proof (sumN_upd (nsend s) t (nsend s t + N.of_nat 0)%N n Htn). pose proof (sumN_upd (nrecv s) t (nrecv s t + 0)%N n Htn).
      fold e'. rewrite (sumN_ext (fun t => N.of_nat (m_len e' t)) (fun t => N.of_nat (m_len (eng s) t)) n); [lia|]. intros i _. by rewrite R.
Qed.
Lemma winv_run sched : forall s, winv s -> winv (wrun s sched).
Proof. induction sched as [|[t x] l IH]; intros s H; [done|]. cbn. apply IH. by apply winv_step. Qed.

(** Nothing to do and nothing begun. *)
Definition resting (e : m_st m) : Prop := forall t, m_busy e t = false /\ m_len e t = 0.
Lemma winv_start e own sent0 : (forall t, m_busy e t = false) -> (forall t, n <= t -> m_len e t = 0) ->
  sumN sent0 n = sumN (fun t => N.of_nat (m_len e t)) n -> winv (wstart m e own sent0).
Proof.
  intros Ht Hu Hs. constructor; cbn; intros; try done; try auto; try lia. rewrite Hs, (sumN_zero (fun _ => 0%N)) by done. lia.
Qed.
Lemma quiet_resting s : winv s -> Term_Proofs.quiet n (trm s) -> resting (eng s).
Proof.
  intros HW HQ t. destruct (decide (t < n)) as [Ht|Ht].
  - destruct (HQ t Ht) as (Hi & Hq & _). pose proof (w_queue _ HW t) as Q.
    assert (Hnw : ~ working (Term_Model.at_ (trm s) t)) by (destruct (Term_Model.at_ (trm s) t); cbn in *; auto; discriminate).
    destruct (w_busy _ HW t) as [->|]; [|done]. destruct (w_did _ HW t) as [E|]; [|done].
    assert (pulled (Term_Model.at_ (trm s) t) = 0%N).
    { destruct (Term_Model.at_ (trm s) t); try done; cbn in *; by apply N.eqb_eq. }
    split; [done|]. lia.
  - split; [|apply (w_unused _ HW); lia]. destruct (w_busy _ HW t) as [?|H]; [done|]. rewrite (w_out _ HW t) in H by lia. done.
Qed.
Lemma resting_complete s : winv s -> resting (eng s) -> Term_Proofs.quiet n (trm s) -> complete n s = true.
Proof.
  intros HW HI HQ. unfold complete. apply andb_true_intro. split.
  - apply N.eqb_eq. rewrite (w_count _ HW), (sumN_zero (fun t => N.of_nat (m_len (eng s) t))); [lia|]. intros t _. by destruct (HI t) as [_ ->].
  - apply forallb_forall. intros t Ht. apply in_seq in Ht. apply N.eqb_eq. apply HQ; lia.
Qed.
(** When nothing is left in the queues and the loops, nothing happens any more. *)
Lemma quiet_ework s t x : winv s -> Term_Proofs.quiet n (trm s) -> ework m s t x = [].
Proof.
  intros HW HQ. unfold ework, may_work. destruct x as [c|c]; [done|]. destruct (decide (t < n)) as [Ht|Ht].
  - destruct (HQ t Ht) as (Hi & _). destruct (Term_Model.at_ (trm s) t); done.
  - by rewrite (w_out _ HW t) by lia.
Qed.
Lemma quiet_run sched : forall s, winv s -> Term_Proofs.quiet n (trm s) ->
  Term_Proofs.quiet n (trm (wrun s sched)) /\ eng (wrun s sched) = eng s.
Proof.
  induction sched as [|[t x] l IH]; intros s HW HQ; [done|]. cbn.
  assert (HQ' : Term_Proofs.quiet n (trm (wstep s t x))).
  { rewrite trm_step. generalize (lwork m s t x) as k. intros k. revert HQ. generalize (trm s). induction k as [|y k IHk]; intros u Hu; [done|]. cbn. apply IHk. by apply Term_Proofs.quiet_step. }
  destruct (IH (wstep s t x)) as [H1 H2]; [by apply winv_step|done|]. split; [done|]. etransitivity; [exact H2|].
  by rewrite eng_step, quiet_ework.
Qed.
Lemma eworks_in s sched t c : (t, c) ∈ eworks m swap n s sched -> (t, Do c) ∈ sched.
Proof.
  revert s. induction sched as [|[t' x] l IH]; intros s; [cbn [eworks]; intros H; by apply elem_of_nil in H|]. cbn [eworks]. rewrite elem_of_app. intros [H|H]; [|by apply elem_of_list_further, (IH _ H)].
  assert (x = Do c /\ t = t') as [-> ->]; [|apply elem_of_list_here]. revert H. unfold ework. destruct x as [y|y]; [intros H; by apply elem_of_nil in H|].
  case_match; [|intros H0; by apply elem_of_nil in H0]. intros H0%elem_of_list_singleton. by injection H0 as -> ->.
Qed.
Lemma wrun_app s l l' : wrun s (l ++ l') = wrun (wrun s l) l'.
Proof. unfold Loop_Model.wrun. by rewrite fold_left_app. Qed.
Lemma lworks_app l1 l2 : forall s, lworks m swap n s (l1 ++ l2) = lworks m swap n s l1 ++ lworks m swap n (wrun s l1) l2.
Proof. induction l1 as [|[t x] l1 IH]; intros s; [done|]. cbn [lworks app]. rewrite IH, app_assoc. done. Qed.
Lemma eworks_app l1 l2 : forall s, eworks m swap n s (l1 ++ l2) = eworks m swap n s l1 ++ eworks m swap n (wrun s l1) l2.
Proof. induction l1 as [|[t x] l1 IH]; intros s; [done|]. cbn [eworks app]. rewrite IH, app_assoc. done. Qed.
End loop.
