(** The machine of loops and algorithm: its two halves, and what ties them together. *)
From Verif Require Import Base Engine_Spec Engine_Model Engine_Proofs Engine_Props Whole_Model.
From Verif Require Term_Model Term_Proofs.
Open Scope nat_scope.

Definition pulled (p : Term_Model.pc) : N :=
  match p with Term_Model.Recv got | Term_Model.Look got | Term_Model.Work got _ _ => got | _ => 0%N end.
Definition working (p : Term_Model.pc) : Prop := match p with Term_Model.Work _ _ _ => True | _ => False end.

Lemma upd_eq {A} (f : nat -> A) i x : upd f i x i = x.
Proof. unfold upd. by rewrite Nat.eqb_refl. Qed.
Lemma upd_ne {A} (f : nat -> A) i j x : j <> i -> upd f i x j = f j.
Proof. intros H. unfold upd. by destruct (Nat.eqb_spec j i). Qed.

(** A step of a loop leaves what is in the queues and what is pulled, taken together. *)
Lemma loop_same swap n s t c u : ~ working (Term_Model.at_ s t) ->
  let s' := Term_Model.step swap n s (t, c) in
  (Term_Model.queue s' u + pulled (Term_Model.at_ s' u) = Term_Model.queue s u + pulled (Term_Model.at_ s u))%N.
Proof.
  intros Hw s'. subst s'. unfold Term_Model.step. cbn [fst snd]. destruct (t <? n); [|done].
  unfold Term_Model.go, Term_Model.received.
  destruct (Term_Model.at_ s t) as [got|got|got sent own| |i acc|acc|i acc| |acc|i acc|acc|acc|i|i| |i|] eqn:Hp; try (by destruct Hw);
    destruct c; try done; cbv zeta; cbn [Term_Model.at_pc Term_Model.queue Term_Model.at_].
  all: try (destruct (decide (u = t)) as [->|Hne]; repeat case_match; cbn; Term_Proofs.fs; rewrite ?Hp; cbn [pulled]; rewrite ?N.eqb_eq, ?N.eqb_neq in *; lia).
Qed.
Lemma loop_other swap n s t c u : u <> t -> Term_Model.at_ (Term_Model.step swap n s (t, c)) u = Term_Model.at_ s u.
Proof.
  intros Hne. unfold Term_Model.step. cbn [fst snd]. destruct (t <? n); [|done]. unfold Term_Model.go, Term_Model.received.
  destruct (Term_Model.at_ s t); destruct c; try done; cbv zeta; repeat case_match; cbn; by Term_Proofs.fs.
Qed.

Lemma sumN_ext f g k : (forall i, i < k -> f i = g i) -> sumN f k = sumN g k.
Proof. induction k as [|k IH]; intros H; simpl; [done|]. rewrite IH, H; [done|lia|intros; apply H; lia]. Qed.
Lemma sumN_upd f t x k : t < k -> (sumN (upd f t x) k + f t = sumN f k + x)%N.
Proof.
  induction k as [|k IH]; intros Ht; [lia|]. simpl. destruct (decide (t = k)) as [->|Hne].
  - rewrite upd_eq. rewrite (sumN_ext (upd f k x) f k); [lia|]. intros i Hi. apply upd_ne. lia.
  - rewrite (upd_ne f t k x) by lia. specialize (IH ltac:(lia)). lia.
Qed.
Lemma sumN_zero f k : (forall i, i < k -> f i = 0%N) -> sumN f k = 0%N.
Proof. induction k as [|k IH]; intros H; simpl; [done|]. rewrite IH, H; [done|lia|intros; apply H; lia]. Qed.

Section whole.
Context (a : alg) (owner : nat -> nat) (swap : bool) (n : nat) (Hown : forall v, owner v < n).
Notation wstep := (wstep a owner swap n).
Notation wrun := (wrun a owner swap n).
Notation estep := (estep a owner).

Lemma eng_step s t x : eng (wstep s t x) = erun a owner (eng s) (ework a s t x).
Proof.
  unfold Whole_Model.wstep, ework. destruct (Term_Model.at_ (trm s) t); destruct x as [c|c]; try done; [by destruct c, (todo (eng s) t); try done; case_match|].
  destruct c; destruct (todo (eng s) t) as [|o l]; try done; try (by destruct o); by case_match.
Qed.
Lemma trm_step s t x : trm (wstep s t x) = Term_Model.exec swap n (trm s) (lwork a owner s t x).
Proof.
  unfold Whole_Model.wstep, lwork. destruct (Term_Model.at_ (trm s) t); destruct x as [c|c]; try done; [by destruct c, (todo (eng s) t); try done; case_match|].
  destruct c; destruct (todo (eng s) t) as [|o l]; try done; try (by destruct o); by case_match.
Qed.
Lemma eng_run sched : forall s, eng (wrun s sched) = erun a owner (eng s) (eworks a owner swap n s sched).
Proof.
  induction sched as [|[t x] l IH]; intros s; [done|]. cbn [eworks]. unfold erun. rewrite fold_left_app. fold (erun a owner (eng s) (ework a s t x)).
  rewrite <- eng_step. apply IH.
Qed.
Lemma trm_run sched : forall s, trm (wrun s sched) = Term_Model.exec swap n (trm s) (lworks a owner swap n s sched).
Proof.
  induction sched as [|[t x] l IH]; intros s; [done|]. cbn [lworks]. unfold Term_Model.exec. rewrite fold_left_app.
  fold (Term_Model.exec swap n (trm s) (lwork a owner s t x)). rewrite <- trm_step. apply IH.
Qed.

Record winv (s : wst a) : Prop := Winv {
  w_todo : forall t, todo (eng s) t = [] \/ working (Term_Model.at_ (trm s) t);
  w_did : forall t, did s t = 0%N \/ working (Term_Model.at_ (trm s) t);
  w_batch : forall t, (did s t <= pulled (Term_Model.at_ (trm s) t))%N;
  w_queue : forall t, (N.of_nat (length (queue (eng s) t)) + did s t = Term_Model.queue (trm s) t + pulled (Term_Model.at_ (trm s) t))%N;
  w_count : (sumN (nsend s) n = sumN (nrecv s) n + sumN (fun t => N.of_nat (length (queue (eng s) t))) n)%N;
  w_out : forall t, n <= t -> Term_Model.at_ (trm s) t = Term_Model.Recv 0 }.

(** What a step of the engine does to the queues. *)
Lemma run_queue e t o rest u : todo e t = o :: rest ->
  (forall w, w <> t -> todo (estep e t Run) w = todo e w) /\
  length (queue (estep e t Run) u) = length (queue e u) + match o with Put d => if u =? owner d then 1 else 0 | _ => 0 end.
Proof.
  intros Ht. unfold Engine_Model.estep. rewrite Ht. unfold exec_op. destruct o as [v d m|d|d|v|v k|v k i got|l|v m]; try (split; [intros w Hw; cbn; by rewrite upd_ne|cbn; lia]).
  - destruct (merge a m v d (box e d)) as [b nw]. split; [intros w Hw; cbn; by rewrite upd_ne|cbn; lia].
  - case_match; (split; [intros w Hw; cbn; by rewrite upd_ne|cbn; lia]).
  - split; [intros w Hw; cbn; by rewrite upd_ne|]. cbn. destruct (Nat.eqb_spec u (owner d)) as [->|Hne].
    + rewrite upd_eq, app_length. simpl. lia.
    + rewrite upd_ne by done. lia.
  - destruct (box e v !! i) eqn:Eb.
    + destruct (take a c) as [c' x]. split; [intros w Hw; cbn; by rewrite upd_ne|cbn; lia].
    + destruct (react a v k (prop e v) (edges e v) got) as [[p ms] ms']. split; [intros w Hw; cbn; by rewrite upd_ne|cbn; lia].
  - destruct (merge a m v v (box e v)) as [b nw]. split; [intros w Hw; cbn; by rewrite upd_ne|cbn; lia].
Qed.
Lemma pop_queue e t u : todo e t = [] -> queue e t <> [] ->
  (forall w, w <> t -> todo (estep e t Pop) w = todo e w) /\
  length (queue (estep e t Pop) u) + (if u =? t then 1 else 0) = length (queue e u).
Proof.
  intros Ht Hq. unfold Engine_Model.estep. rewrite Ht. destruct (queue e t) as [|v q] eqn:E; [done|]. cbn.
  split; [intros w Hw; by rewrite upd_ne|]. destruct (Nat.eqb_spec u t) as [->|Hne]; [rewrite upd_eq, E; simpl; lia|]. rewrite upd_ne by done. lia.
Qed.
Lemma change_queue e t c : todo e t = [] -> c <> Run -> c <> Pop ->
  (forall w, w <> t -> todo (estep e t c) w = todo e w) /\ queue (estep e t c) = queue e.
Proof.
  intros Ht H1 H2. unfold Engine_Model.estep. rewrite Ht. destruct c; try done; case_match; try done; (split; [intros w Hw; cbn; by rewrite upd_ne|done]).
Qed.

Lemma loop_winv s t c : winv s -> (working (Term_Model.at_ (trm s) t) -> todo (eng s) t = [] /\
    ((c = Term_Model.Finish \/ c = Term_Model.FinishCheck) /\ did s t = pulled (Term_Model.at_ (trm s) t) \/
     (exists b, c = Term_Model.More b) /\ did s t = 0%N)) -> winv (loop_on a swap n s t c).
Proof.
  intros HW Hc. set (s' := loop_on a swap n s t c).
  assert (Hnw : working (Term_Model.at_ (trm s) t) \/ ~ working (Term_Model.at_ (trm s) t)) by (destruct (Term_Model.at_ (trm s) t); cbn; auto).
  assert (Htt : todo (eng s) t = []).
  { destruct (w_todo _ HW t) as [?|H]; [done|]. by apply Hc in H as [? _]. }
  assert (Hoth : forall u, u <> t -> Term_Model.at_ (trm s') u = Term_Model.at_ (trm s) u) by (intros u Hne; by apply loop_other).
  assert (Hq : forall u, (N.of_nat (length (queue (eng s') u)) + did s' u = Term_Model.queue (trm s') u + pulled (Term_Model.at_ (trm s') u))%N).
  { intros u. pose proof (w_queue _ HW u) as Q. destruct Hnw as [Hw|Hnw].
    - destruct (Hc Hw) as [_ Hc']. destruct (Term_Model.at_ (trm s) t) as [got|got|got sent own| |i acc|acc|i acc| |acc|i acc|acc|acc|i|i| |i|] eqn:Hp; try done.
      destruct (decide (t < n)) as [Htn|]; [|rewrite (w_out _ HW t) in Hp by lia; done].
      destruct (decide (u = t)) as [->|Hne].
      + subst s'. unfold loop_on, Term_Model.step. cbn [eng trm did queue fst snd]. rewrite (proj2 (Nat.ltb_lt t n) Htn), upd_eq. unfold Term_Model.go. rewrite Hp in *. cbn [pulled] in *.
        destruct Hc' as [[[->| ->] Hd]|[(b & ->) Hd]].
        * cbn. Term_Proofs.fs. cbn. lia.
        * cbn. Term_Proofs.fs. cbn. lia.
        * destruct (N.eqb_spec own 0); [rewrite Hp; cbn; lia|]. cbv zeta. destruct b; cbn; Term_Proofs.fs; cbn; lia.
      + rewrite Hoth by done. subst s'. unfold loop_on, Term_Model.step. cbn [eng trm did queue fst snd]. rewrite (proj2 (Nat.ltb_lt t n) Htn), upd_ne by done. unfold Term_Model.go. rewrite Hp.
        destruct Hc' as [[[->| ->] Hd]|[(b & ->) Hd]]; [done|done|]. destruct (own =? 0)%N; [done|]. by destruct b.
    - pose proof (loop_same swap n (trm s) t c u Hnw) as L. cbv zeta in L. subst s'. unfold loop_on. cbn [eng trm did]. rewrite L, <- Q. f_equal.
      destruct (decide (u = t)) as [->|Hne]; [|by rewrite upd_ne]. rewrite upd_eq. destruct (w_did _ HW t); done. }
  constructor; try done.
  - intros u. destruct (decide (u = t)) as [->|Hne]; [by left|]. rewrite Hoth by done. apply (w_todo _ HW).
  - intros u. destruct (decide (u = t)) as [->|Hne]; [left; subst s'; cbn; by rewrite upd_eq|]. rewrite Hoth by done. subst s'. cbn [loop_on did]. rewrite upd_ne by done. apply (w_did _ HW).
  - intros u. destruct (decide (u = t)) as [->|Hne]; [subst s'; cbn [loop_on did]; rewrite upd_eq; lia|]. rewrite Hoth by done. subst s'. cbn [loop_on did]. rewrite upd_ne by done. apply (w_batch _ HW).
  - apply (w_count _ HW).
  - intros u Hu. destruct (decide (u = t)) as [->|Hne]; [|rewrite Hoth by done; by apply (w_out _ HW)].
    subst s'. unfold loop_on, Term_Model.step. cbn [trm fst]. destruct (Nat.ltb_spec t n); [lia|]. by apply (w_out _ HW).
Qed.
Lemma act_winv s s' t : winv s -> working (Term_Model.at_ (trm s) t) ->
  (forall w, w <> t -> todo (eng s') w = todo (eng s) w) ->
  (forall u, u <> t -> Term_Model.at_ (trm s') u = Term_Model.at_ (trm s) u) ->
  working (Term_Model.at_ (trm s') t) -> pulled (Term_Model.at_ (trm s') t) = pulled (Term_Model.at_ (trm s) t) ->
  (forall u, u <> t -> did s' u = did s u) -> (did s' t <= pulled (Term_Model.at_ (trm s) t))%N ->
  (forall u, (N.of_nat (length (queue (eng s') u)) + did s' u + Term_Model.queue (trm s) u = N.of_nat (length (queue (eng s) u)) + did s u + Term_Model.queue (trm s') u)%N) ->
  (sumN (nsend s') n = sumN (nrecv s') n + sumN (fun t => N.of_nat (length (queue (eng s') t))) n)%N ->
  winv s'.
Proof.
  intros HW Hw Ht Ha Hw' Hp Hd Hd' Hq Hc. constructor; try done.
  - intros u. destruct (decide (u = t)) as [->|Hne]; [by right|]. rewrite Ht, Ha by done. apply (w_todo _ HW).
  - intros u. destruct (decide (u = t)) as [->|Hne]; [by right|]. rewrite Hd, Ha by done. apply (w_did _ HW).
  - intros u. destruct (decide (u = t)) as [->|Hne]; [by rewrite Hp|]. rewrite Hd, Ha by done. apply (w_batch _ HW).
  - intros u. specialize (Hq u). pose proof (w_queue _ HW u). assert (pulled (Term_Model.at_ (trm s') u) = pulled (Term_Model.at_ (trm s) u)) as ->.
    { destruct (decide (u = t)) as [->|Hne]; [done|]. by rewrite Ha. }
    lia.
  - intros u Hu. rewrite Ha; [by apply (w_out _ HW)|]. intros ->. rewrite (w_out _ HW t) in Hw by done. done.
Qed.
Lemma sum_queues (q q' : nat -> list nat) u k : u < k -> length (q' u) = S (length (q u)) -> (forall w, w <> u -> length (q' w) = length (q w)) ->
  sumN (fun t => N.of_nat (length (q' t))) k = (sumN (fun t => N.of_nat (length (q t))) k + 1)%N.
Proof.
  intros Hu H1 H2. pose proof (sumN_upd (fun t => N.of_nat (length (q t))) u (N.of_nat (length (q' u))) k Hu) as E. cbn beta in E.
  rewrite (sumN_ext (fun t => N.of_nat (length (q' t))) (upd (fun t => N.of_nat (length (q t))) u (N.of_nat (length (q' u)))) k); [lia|].
  intros i _. destruct (decide (i = u)) as [->|Hne]; [by rewrite upd_eq|]. rewrite upd_ne by done. by rewrite H2.
Qed.

Lemma winv_step s t x : winv s -> winv (wstep s t x).
Proof.
  intros HW. unfold Whole_Model.wstep.
  destruct (Term_Model.at_ (trm s) t) as [got|got|got snt own| |i acc|acc|i acc| |acc|i acc|acc|acc|i|i| |i|] eqn:Hp;
    try (destruct x as [c|c]; [|by destruct c]; destruct c; apply loop_winv; try done; by rewrite Hp).
  assert (Htn : t < n). { destruct (decide (t < n)) as [|H]; [done|]. rewrite (w_out _ HW t) in Hp by lia. done. }
  assert (Hw : working (Term_Model.at_ (trm s) t)) by (by rewrite Hp).
  destruct x as [c|c].
  - destruct c; try done; destruct (todo (eng s) t) as [|o l] eqn:Et; try done.
    + destruct (N.eqb_spec (did s t) got) as [Hd|]; [|done]. apply loop_winv; [done|]. intros _. rewrite Hp. auto.
    + destruct (N.eqb_spec (did s t) got) as [Hd|]; [|done]. apply loop_winv; [done|]. intros _. rewrite Hp. auto.
    + destruct (N.eqb_spec (did s t) 0) as [Hd|]; [|done]. apply loop_winv; [done|]. intros _. eauto.
  - pose proof (w_batch _ HW t) as Hb. rewrite Hp in Hb. cbn [pulled] in Hb.
    assert (Hch : forall c : choice a, todo (eng s) t = [] -> c <> Run -> c <> Pop -> winv (if (own =? 0)%N || negb (did s t =? 0)%N then s else act_on a owner swap n s t c [] 0 0 0)).
      { clear c. intros c Et H1 H2. destruct (own =? 0)%N; [done|]. destruct (N.eqb_spec (did s t) 0) as [Hd|]; [|done]. cbn [orb negb].
        destruct (change_queue (eng s) t c Et H1 H2) as [R1 R2]. apply (act_winv s _ t); try done; cbn [act_on eng trm did nsend nrecv].
        - intros u Hne. by rewrite upd_ne.
        - rewrite upd_eq. lia.
        - intros u. rewrite R2. cbn [Term_Model.exec fold_left]. destruct (decide (u = t)) as [->|Hne]; [rewrite upd_eq, Hd; done|by rewrite upd_ne].
        - pose proof (sumN_upd (nsend s) t (nsend s t + 0)%N n Htn). pose proof (sumN_upd (nrecv s) t (nrecv s t + 0)%N n Htn). pose proof (w_count _ HW). rewrite R2. lia. }
    destruct c as [| |v es|v gone|v m]; destruct (todo (eng s) t) as [|o l] eqn:Et; try done; try (by destruct o).
    + destruct (run_queue (eng s) t o l 0 Et) as [R1 _]. pose proof (fun u => proj2 (run_queue (eng s) t o l u Et)) as R2.
      assert (Hplain : (forall u, length (queue (estep (eng s) t Run) u) = length (queue (eng s) u)) -> winv (act_on a owner swap n s t Run [] (did s t) 0 0)).
      { intros R. apply (act_winv s _ t); try done; cbn [act_on eng trm did nsend nrecv].
        - intros u Hne. by rewrite upd_ne.
        - rewrite upd_eq, Hp. done.
        - intros u. rewrite R. cbn [Term_Model.exec fold_left]. destruct (decide (u = t)) as [->|Hne]; [by rewrite upd_eq|by rewrite upd_ne].
        - pose proof (sumN_upd (nsend s) t (nsend s t + 0)%N n Htn). pose proof (sumN_upd (nrecv s) t (nrecv s t + 0)%N n Htn). pose proof (w_count _ HW).
          rewrite (sumN_ext (fun u => N.of_nat (length (queue (estep (eng s) t Run) u))) (fun u => N.of_nat (length (queue (eng s) u))) n) by (intros; by rewrite R). lia. }
      destruct o as [v d m|d|d|v|v k|v k i gt|lst|v m]; try (apply Hplain; intros u; rewrite R2; lia).
      assert (Hgo : Term_Model.exec swap n (trm s) [(t, Term_Model.Send (owner d))] =
        Term_Model.at_pc (Term_Model.set_queue (trm s) (owner d) (Term_Model.queue (trm s) (owner d) + 1)) t (Term_Model.Work got (snt + 1) own)).
      { unfold Term_Model.exec, Term_Model.step. cbn [fold_left fst snd]. rewrite (proj2 (Nat.ltb_lt t n) Htn). unfold Term_Model.go. rewrite Hp. by rewrite (proj2 (Nat.ltb_lt (owner d) n) (Hown d)). }
      apply (act_winv s _ t); try done; cbn [act_on eng trm did nsend nrecv]; rewrite ?Hgo.
      * intros u Hne. cbn. by Term_Proofs.fs.
      * cbn. by Term_Proofs.fs.
      * cbn. Term_Proofs.fs. by rewrite Hp.
      * intros u Hne. by rewrite upd_ne.
      * rewrite upd_eq, Hp. done.
      * intros u. rewrite R2. assert (upd (did s) t (did s t) u = did s u) as ->. { destruct (decide (u = t)) as [->|Hne]; [by rewrite upd_eq|by rewrite upd_ne]. }
        cbn. destruct (Nat.eqb_spec u (owner d)) as [->|Hne]; Term_Proofs.fs; lia.
      * pose proof (sumN_upd (nsend s) t (nsend s t + 1)%N n Htn). pose proof (sumN_upd (nrecv s) t (nrecv s t + 0)%N n Htn). pose proof (w_count _ HW).
        rewrite (sum_queues (queue (eng s)) (queue (estep (eng s) t Run)) (owner d) n); [lia|done| |].
        -- rewrite R2, Nat.eqb_refl. lia.
        -- intros w Hne. rewrite R2. destruct (Nat.eqb_spec w (owner d)); [done|lia].
    + destruct (N.ltb_spec (did s t) got) as [Hlt|]; [|done].
      assert (Hq : queue (eng s) t <> []). { intros E. pose proof (w_queue _ HW t) as Q. rewrite E, Hp in Q. cbn in Q. lia. }
      destruct (pop_queue (eng s) t 0 Et Hq) as [R1 _]. pose proof (fun u => proj2 (pop_queue (eng s) t u Et Hq)) as R2.
      apply (act_winv s _ t); try done; cbn [act_on eng trm did nsend nrecv].
      * intros u Hne. by rewrite upd_ne.
      * rewrite upd_eq, Hp. cbn [pulled]. lia.
      * intros u. specialize (R2 u). cbn [Term_Model.exec fold_left]. destruct (Nat.eqb_spec u t) as [Eu|Hne]; [rewrite Eu in *; rewrite upd_eq|rewrite upd_ne by done]; lia.
      * pose proof (sumN_upd (nsend s) t (nsend s t + 0)%N n Htn). pose proof (sumN_upd (nrecv s) t (nrecv s t + 1)%N n Htn). pose proof (w_count _ HW).
        pose proof (sum_queues (queue (estep (eng s) t Pop)) (queue (eng s)) t n Htn) as E. rewrite E in H1; [lia| |].
        -- specialize (R2 t). rewrite Nat.eqb_refl in R2. lia.
        -- intros w Hne. specialize (R2 w). destruct (Nat.eqb_spec w t); [done|lia].
    + by apply Hch.
    + by apply Hch.
    + by apply Hch.
Qed.

Lemma winv_run sched : forall s, winv s -> winv (wrun s sched).
Proof. induction sched as [|[t x] l IH]; intros s H; [done|]. cbn. apply IH. by apply winv_step. Qed.

(** No thread beyond [n] gets a notification. *)
Definition unused (e : est a) : Prop := forall t, n <= t -> queue e t = [].
Lemma unused_step e t c : unused e -> unused (estep e t c).
Proof.
  intros H u Hu. assert (E0 : length (queue e u) = 0) by (by rewrite H). apply length_zero_iff_nil.
  destruct (todo e t) as [|o l] eqn:Et.
  - destruct c as [| |v es|v gone|v m]; try (match goal with |- context [Engine_Model.estep _ _ _ _ ?c] => pose proof (change_queue e t c Et ltac:(done) ltac:(done)) as [_ Hq] end; by rewrite Hq).
    + unfold Engine_Model.estep. by rewrite Et.
    + destruct (queue e t) eqn:Eq; [unfold Engine_Model.estep; by rewrite Et, Eq|].
      pose proof (proj2 (pop_queue e t u Et ltac:(by rewrite Eq))). lia.
  - destruct c as [| |v es|v gone|v m]; try (unfold Engine_Model.estep; by rewrite Et).
    rewrite (proj2 (run_queue e t o l u Et)), E0. destruct o; try done. pose proof (Hown d). destruct (Nat.eqb_spec u (owner d)); lia.
Qed.
Lemma unused_run e l : unused e -> unused (erun a owner e l).
Proof. revert e. induction l as [|[t c] l IH]; intros e H; [done|]. cbn. apply IH. by apply unused_step. Qed.

Lemma winv_start e own sent0 : (forall t, todo e t = []) -> sumN sent0 n = sumN (fun t => N.of_nat (length (queue e t))) n -> winv (wstart a e own sent0).
Proof.
  intros Ht Hs. constructor; cbn; intros; try done; try auto; try lia. rewrite Hs, (sumN_zero (fun _ => 0%N)) by done. lia.
Qed.
Lemma quiet_idle s : winv s -> unused (eng s) -> Term_Proofs.quiet n (trm s) -> idle (eng s).
Proof.
  intros HW HU HQ t. destruct (decide (t < n)) as [Ht|Ht].
  - destruct (HQ t Ht) as (Hi & Hq & _). pose proof (w_queue _ HW t) as Q.
    assert (Hnw : ~ working (Term_Model.at_ (trm s) t)) by (destruct (Term_Model.at_ (trm s) t); cbn in *; auto; discriminate).
    destruct (w_todo _ HW t) as [->|]; [|done]. destruct (w_did _ HW t) as [E|]; [|done].
    assert (pulled (Term_Model.at_ (trm s) t) = 0%N).
    { destruct (Term_Model.at_ (trm s) t); try done; cbn in *; by apply N.eqb_eq. }
    split; [done|]. apply length_zero_iff_nil. lia.
  - split; [|apply HU; lia]. destruct (w_todo _ HW t) as [?|H]; [done|]. rewrite (w_out _ HW t) in H by lia. done.
Qed.
Lemma idle_complete s : winv s -> idle (eng s) -> Term_Proofs.quiet n (trm s) -> complete n s = true.
Proof.
  intros HW HI HQ. unfold complete. apply andb_true_intro. split.
  - apply N.eqb_eq. rewrite (w_count _ HW), (sumN_zero (fun t => N.of_nat (length (queue (eng s) t)))); [lia|]. intros t _. by destruct (HI t) as [_ ->].
  - apply forallb_forall. intros t Ht. apply in_seq in Ht. apply N.eqb_eq. apply HQ; lia.
Qed.
(** When nothing is left in the queues and the loops, nothing happens any more. *)
Lemma idle_ework s t x : winv s -> Term_Proofs.quiet n (trm s) -> ework a s t x = [].
Proof.
  intros HW HQ. unfold ework. destruct (decide (t < n)) as [Ht|Ht].
  - destruct (HQ t Ht) as (Hi & _). destruct (Term_Model.at_ (trm s) t); done.
  - by rewrite (w_out _ HW t) by lia.
Qed.
Lemma quiet_run sched : forall s, winv s -> Term_Proofs.quiet n (trm s) ->
  Term_Proofs.quiet n (trm (wrun s sched)) /\ eng (wrun s sched) = eng s.
Proof.
  induction sched as [|[t x] l IH]; intros s HW HQ; [done|]. cbn.
  assert (HQ' : Term_Proofs.quiet n (trm (wstep s t x))).
  { rewrite trm_step. generalize (lwork a owner s t x) as k. intros k. revert HQ. generalize (trm s). induction k as [|y k IHk]; intros u Hu; [done|]. cbn. apply IHk. by apply Term_Proofs.quiet_step. }
  destruct (IH (wstep s t x)) as [H1 H2]; [by apply winv_step|done|]. split; [done|]. etransitivity; [exact H2|].
  by rewrite eng_step, idle_ework.
Qed.
End whole.
