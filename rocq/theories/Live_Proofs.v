(** The loops come to an end: once no more topology events come, every fair schedule brings the
    algorithm to rest, and then all threads leave. *)
From Verif Require Import Base Engine_Spec Engine_Model Engine_Proofs Engine_Props Rest_Proofs Whole_Model Whole_Proofs.
From Verif Require Term_Model Term_Proofs Term_Live.
Open Scope nat_scope.

Section loc.
Context (swap : bool) (n : nat).
Notation at_ := Term_Model.at_.
(** How much a thread has to do by itself before it is idle with an empty queue. *)
Definition ph (p : Term_Model.pc) : nat :=
  match p with
  | Term_Model.Recv got => if (got =? 0)%N then 0 else 5 * n + 13
  | Term_Model.Look got => 5 * n + 13
  | Term_Model.Work got sent own => if (own =? 0)%N then 5 * n + 12 else 5 * n + 14
  | p => Term_Live.d n p
  end.
Definition W : nat := 5 * n + 30.
Definition at_rest (s : Term_Model.st) (t : nat) : bool := Term_Proofs.idle (at_ s t) && (Term_Model.queue s t =? 0)%N.
Definition loc (s : Term_Model.st) (t : nat) : nat :=
  if at_rest s t then 0 else W * N.to_nat (Term_Model.queue s t) + ph (at_ s t).
Lemma ph_bound p : ph p <= 5 * n + 14.
Proof. destruct p; cbn; try case_match; lia. Qed.
Lemma loc_pos s t : at_rest s t = false -> 0 < loc s t.
Proof.
  unfold loc. intros E. rewrite E. unfold at_rest in E. apply andb_false_iff in E as [E|E].
  - destruct (at_ s t); cbn in *; try discriminate; try rewrite E; try case_match; lia.
  - apply N.eqb_neq in E. unfold W. assert (1 <= N.to_nat (Term_Model.queue s t)) by lia.
    pose proof (Nat.mul_le_mono_l _ _ (5 * n + 30) H). lia.
Qed.
Lemma loc_ext s s' t : at_ s' t = at_ s t -> Term_Model.queue s' t = Term_Model.queue s t -> loc s' t = loc s t.
Proof. unfold loc, at_rest. by intros -> ->. Qed.

Definition is_send (c : Term_Model.choice) : bool := match c with Term_Model.Send _ => true | _ => false end.
(** A step of the loop of [t]. *)
Lemma loc_own s t c : t < n -> Term_Model.open_ s t = false -> (working (at_ s t) -> is_send c = false) -> (at_ s t = Term_Model.Done -> Term_Model.queue s t = 0%N) ->
  let s' := Term_Model.step swap n s (t, c) in
  loc s' t <= loc s t /\
  (at_rest s t = false -> loc s' t < loc s t \/ (at_ s' t = at_ s t /\ Term_Model.queue s' t = Term_Model.queue s t)) /\
  (at_rest s t = false -> (working (at_ s t) -> c = Term_Model.Finish) -> (~ working (at_ s t) -> c = Term_Model.Go) -> loc s' t < loc s t).
Proof.
  intros Ht Ho Hc Hd. cbv zeta.
  assert (G : at_rest (Term_Model.step swap n s (t, c)) t = true /\ at_rest s t = true \/ loc (Term_Model.step swap n s (t, c)) t < loc s t \/
    ((at_ (Term_Model.step swap n s (t, c)) t = at_ s t /\ Term_Model.queue (Term_Model.step swap n s (t, c)) t = Term_Model.queue s t) /\
     (~ ((working (at_ s t) -> c = Term_Model.Finish) /\ (~ working (at_ s t) -> c = Term_Model.Go)) \/ at_rest s t = true))).
  { assert (K : forall s' p, at_ s' t = p -> Term_Model.queue s' t = Term_Model.queue s t -> Term_Proofs.idle p = true -> Term_Proofs.idle (at_ s t) = true -> ph p < ph (at_ s t) ->
      at_rest s' t = true /\ at_rest s t = true \/ loc s' t < loc s t).
    { intros s' p Ep Eq Hp Hi Hlt. unfold loc, at_rest. rewrite Ep, Eq, Hp, Hi. cbn [andb]. destruct (Term_Model.queue s t =? 0)%N; [by left|right; lia]. }
    assert (K' : forall s' p, at_ s' t = p -> Term_Model.queue s' t = Term_Model.queue s t -> Term_Proofs.idle (at_ s t) = false -> ph p < ph (at_ s t) -> loc s' t < loc s t).
    { intros s' p Ep Eq Hi Hlt. unfold loc, at_rest. rewrite Ep, Eq, Hi. cbn [andb]. destruct (Term_Proofs.idle p && (Term_Model.queue s t =? 0)%N); lia. }
    unfold Term_Model.step. cbn [fst snd]. destruct (Nat.ltb_spec t n) as [_|]; [|lia]. unfold Term_Model.go, Term_Model.received. rewrite Ho.
    destruct (at_ s t) as [got|got|got sent own| |i acc|acc|i acc| |acc|i acc|acc|acc|i|i| |i|] eqn:Hp; destruct c; try discriminate (Hc I); rewrite ?Hp; try (right; right; split; [done|left; intros [X1 X2]; first [discriminate (X1 I) | discriminate (X2 (fun x => x))]]);
      try (right; right; split; [done|right; unfold at_rest; rewrite Hp, Hd by done; done]).
    all: cbv zeta; repeat Term_Live.ifs; subst; rewrite ?Hp; try (right; right; split; [done|left; intros [X1 X2]; first [discriminate (X1 I) | discriminate (X2 (fun x => x))]]).
    all: try match goal with |- (at_rest ?s' _ = true /\ _) \/ _ => destruct (K s' (at_ s' t)) as [H|H]; [done|done|cbn; by Term_Proofs.fs|done|cbn; Term_Proofs.fs; cbn; rewrite ?N.eqb_refl; cbn; lia|by left|right; by left] end.
    all: try match goal with |- (at_rest ?s' _ = true /\ _) \/ _ => right; left; apply (K' s' (at_ s' t)); [done|done|first [done|cbn; by apply N.eqb_neq]|cbn; Term_Proofs.fs; cbn; rewrite ?N.eqb_refl; cbn; repeat case_match; rewrite ?N.eqb_eq, ?N.eqb_neq in *; lia] end.
    - left. unfold at_rest. rewrite Hp. cbn. Term_Proofs.fs. cbn. rewrite Heqb. done.
    - right. left. unfold loc, at_rest. rewrite Hp. cbn. Term_Proofs.fs. cbn. rewrite (proj2 (N.eqb_neq (Term_Model.queue s t) 0)) by done. rewrite andb_false_r.
      assert (N.to_nat (Term_Model.queue s t) = S (N.to_nat (Term_Model.queue s t - 1))) as -> by lia. set (k := N.to_nat (Term_Model.queue s t - 1)).
      rewrite Nat.mul_succ_r. repeat case_match; lia. }
  destruct G as [[G1 G2]|[G|[[G1 G2] G3]]].
  - unfold loc. rewrite G1, G2. split_and!; try done.
  - split_and!; try lia; auto. 
  - rewrite (loc_ext _ _ _ G1 G2). split_and!; [done|auto|]. intros E H1 H2. destruct G3 as [G3|G3]; [by destruct G3|congruence].
Qed.
End loc.

Section live.
Context (a : alg) (owner : nat -> nat) (swap : bool) (n : nat) (Hown : forall v, owner v < n).
Notation wstep := (wstep a owner swap n).
Notation wrun := (wrun a owner swap n).
Notation estep := (estep a owner).
Notation rest_of s t := (at_rest (trm s) t).

(** No more topology events come. *)
Definition closed (s : wst a) : Prop := forall t, t < n -> Term_Model.open_ (trm s) t = false.
(** No change of the graph. *)
Definition plain (x : wchoice a) : Prop := match x with Ctl _ => True | Do c => c ∈ acts a end.
(** At most [b] steps of the engine are to come. *)
Definition budget (e : est a) (b : nat) : Prop := forall l, (forall t c, (t, c) ∈ l -> c ∈ acts a) -> count a owner e l <= b.
Record good (s : wst a) (b : nat) : Prop := Good { g_inv : winv a n s; g_closed : closed s; g_budget : budget (eng s) b }.
Definition C : nat := 10 * n + 50.
Definition rem (s : wst a) (b : nat) : nat := b * C + sumt (loc n (trm s)) n.
(** What a thread that is not at rest does next. *)
Definition prog (s : wst a) (t : nat) : wchoice a :=
  match Term_Model.at_ (trm s) t with
  | Term_Model.Work got _ _ =>
      match todo (eng s) t with _ :: _ => Do Run | [] => if (did s t <? got)%N then Do Pop else Ctl Term_Model.Finish end
  | _ => Ctl Term_Model.Go
  end.
Definition same (s s' : wst a) (t : nat) : Prop :=
  Term_Model.at_ (trm s') t = Term_Model.at_ (trm s) t /\ Term_Model.queue (trm s') t = Term_Model.queue (trm s) t /\ todo (eng s') t = todo (eng s) t /\ did s' t = did s t.
Lemma same_prog s s' t : same s s' t -> rest_of s' t = rest_of s t /\ prog s' t = prog s t.
Proof. intros (E1 & E2 & E3 & E4). unfold at_rest, prog. by rewrite E1, E2, E3, E4. Qed.

Lemma budget_spend e b t c : budget e b -> c ∈ acts a -> can a e t c = true -> exists b', b = S b' /\ budget (estep e t c) b'.
Proof.
  intros HB Hc Hcan. destruct b as [|b].
  - specialize (HB [(t, c)]). cbn in HB. rewrite Hcan in HB. enough (1 + 0 <= 0) by lia. apply HB. intros t' c' Hin. by apply elem_of_list_singleton in Hin as [= -> ->].
  - exists b. split; [done|]. intros l Hl. specialize (HB ((t, c) :: l)). cbn in HB. rewrite Hcan in HB. enough (1 + count a owner (estep e t c) l <= S b) by lia. apply HB.
    intros t' c' Hin. apply elem_of_cons in Hin as [[= -> ->]|Hin]; [done|by apply (Hl t')].
Qed.
Lemma closed_step s t x : closed s -> closed (wstep s t x).
Proof.
  intros H u Hu. specialize (H u Hu). rewrite trm_step. generalize (lwork a owner s t x). intros l. revert H. generalize (trm s). induction l as [|[w c] l IH]; intros k Hk; [done|].
  cbn [Term_Model.exec fold_left]. apply IH. unfold Term_Model.step. cbn [fst snd]. destruct (w <? n); [|done]. unfold Term_Model.go, Term_Model.received.
  destruct (Term_Model.at_ k w); destruct c; try done; cbv zeta; repeat case_match; cbn; try done; destruct (decide (u = w)) as [->|Hne]; Term_Proofs.fs; done.
Qed.

Lemma queue_other s t c u : u <> t -> (working (Term_Model.at_ s t) -> is_send c = false) -> Term_Model.queue (Term_Model.step swap n s (t, c)) u = Term_Model.queue s u.
Proof.
  intros Hne Hc. unfold Term_Model.step. cbn [fst snd]. destruct (t <? n); [|done]. unfold Term_Model.go, Term_Model.received.
  destruct (Term_Model.at_ s t); destruct c; try discriminate (Hc I); try done; cbv zeta; repeat case_match; cbn; by Term_Proofs.fs.
Qed.
(** A step of the loop: not of the engine. *)
Lemma loop_rem s t c b : good s b -> t < n -> (working (Term_Model.at_ (trm s) t) -> is_send c = false) -> (Term_Model.at_ (trm s) t = Term_Model.Done -> Term_Model.queue (trm s) t = 0%N) ->
  (working (Term_Model.at_ (trm s) t) -> todo (eng s) t = [] /\ (c = Term_Model.Finish \/ c = Term_Model.FinishCheck \/ did s t = 0%N)) ->
  let s' := loop_on a swap n s t c in
  rem s' b <= rem s b /\ (forall w, w < n -> rest_of s w = false -> rem s' b < rem s b \/ same s s' w) /\
  (rest_of s t = false -> prog s t = Ctl c -> rem s' b < rem s b).
Proof.
  intros HG Ht Hc Hd Hw s'. destruct (loc_own swap n (trm s) t c Ht (g_closed _ _ HG t Ht) Hc Hd) as (L1 & L2 & L3). cbv zeta in L1, L2, L3.
  assert (Hoth : forall u, u <> t -> Term_Model.at_ (trm s') u = Term_Model.at_ (trm s) u /\ Term_Model.queue (trm s') u = Term_Model.queue (trm s) u).
  { intros u Hne. split; [by apply loop_other|by apply queue_other]. }
  pose proof (sumt_change (loc n (trm s')) (loc n (trm s)) n t Ht) as Hs. specialize (Hs ltac:(intros k _ Hne; destruct (Hoth k Hne); by apply loc_ext)).
  change (trm s') with (Term_Model.step swap n (trm s) (t, c)) in *.
  split_and!.
  - unfold rem. change (trm s') with (Term_Model.step swap n (trm s) (t, c)). lia.
  - intros w Hwn Hr. destruct (decide (w = t)) as [->|Hne].
    + destruct (L2 Hr) as [L|[E1 E2]]; [left; unfold rem; change (trm s') with (Term_Model.step swap n (trm s) (t, c)); lia|right].
      split_and!; try done. cbn. rewrite upd_eq. destruct (w_did _ _ _ (g_inv _ _ HG) t) as [->|Hwk]; [done|]. destruct (Hw Hwk) as [_ [->|[->|Hz]]]; [exfalso|exfalso|done];
        unfold Term_Model.step in E1; cbn [fst snd] in E1; rewrite (proj2 (Nat.ltb_lt t n) Ht) in E1; unfold Term_Model.go in E1; destruct (Term_Model.at_ (trm s) t) eqn:Hp; try done; cbn in E1; Term_Proofs.fs; congruence.
    + right. destruct (Hoth w Hne). split_and!; try done. cbn. by rewrite upd_ne.
  - intros Hr Hp. assert (loc n (Term_Model.step swap n (trm s) (t, c)) t < loc n (trm s) t); [|unfold rem; change (trm s') with (Term_Model.step swap n (trm s) (t, c)); lia].
    apply L3; [done| |].
    + intros Hwk. unfold prog in Hp. destruct (Term_Model.at_ (trm s) t); try done. destruct (todo (eng s) t); [|done]. destruct (did s t <? got)%N; [done|]. by injection Hp as <-.
    + intros Hwk. unfold prog in Hp. destruct (Term_Model.at_ (trm s) t); try (by injection Hp as <-). by destruct Hwk.
Qed.

(** A step of the engine. *)
Lemma act_rem s t c b l d ds dr : good s b -> t < n -> c ∈ acts a -> can a (eng s) t c = true ->
  let s' := act_on a owner swap n s t c l d ds dr in winv a n s' -> closed s' ->
  (exists u, u < n /\ loc n (trm s') u <= loc n (trm s) u + (W n + (5 * n + 14)) /\ forall w, w <> u -> loc n (trm s') w = loc n (trm s) w) ->
  exists b', good s' b' /\ rem s' b' < rem s b.
Proof.
  intros HG Ht Hc Hcan s' HW HC (u & Hu & L1 & L2). destruct (budget_spend _ _ t c (g_budget _ _ HG) Hc Hcan) as (b' & -> & HB). exists b'. split; [by constructor|].
  pose proof (sumt_change (loc n (trm s')) (loc n (trm s)) n u Hu ltac:(intros k _ Hne; by apply L2)) as Hs. unfold rem. cbn [Nat.mul]. assert (W n + (5 * n + 14) < C) by (unfold C, W; lia). lia.
Qed.
Lemma send_loc s t u got sent own : t < n -> u < n -> Term_Model.at_ s t = Term_Model.Work got sent own ->
  let s' := Term_Model.exec swap n s [(t, Term_Model.Send u)] in
  loc n s' u <= loc n s u + (W n + (5 * n + 14)) /\ forall w, w <> u -> loc n s' w = loc n s w.
Proof.
  intros Ht Hu Hp s'.
  assert (E : s' = Term_Model.at_pc (Term_Model.set_queue s u (Term_Model.queue s u + 1)) t (Term_Model.Work got (sent + 1) own)).
  { unfold s', Term_Model.exec, Term_Model.step. cbn [fold_left fst snd]. rewrite (proj2 (Nat.ltb_lt t n) Ht). unfold Term_Model.go. rewrite Hp. by rewrite (proj2 (Nat.ltb_lt u n) Hu). }
  rewrite E. assert (Hph : forall w, ph n (Term_Model.at_ (Term_Model.at_pc (Term_Model.set_queue s u (Term_Model.queue s u + 1)) t (Term_Model.Work got (sent + 1) own)) w) = ph n (Term_Model.at_ s w) /\
    Term_Proofs.idle (Term_Model.at_ (Term_Model.at_pc (Term_Model.set_queue s u (Term_Model.queue s u + 1)) t (Term_Model.Work got (sent + 1) own)) w) = Term_Proofs.idle (Term_Model.at_ s w)).
  { intros w. destruct (decide (w = t)) as [->|Hne]; cbn; Term_Proofs.fs; [by rewrite Hp|done]. }
  split.
  - unfold loc, at_rest. destruct (Hph u) as [-> ->]. cbn [Term_Model.at_pc Term_Model.set_queue Term_Model.queue]. Term_Proofs.fs.
    assert (N.to_nat (Term_Model.queue s u + 1) = S (N.to_nat (Term_Model.queue s u))) as -> by lia. rewrite Nat.mul_succ_r. pose proof (ph_bound n (Term_Model.at_ s u)).
    destruct (Term_Proofs.idle (Term_Model.at_ s u)), (N.eqb_spec (Term_Model.queue s u) 0) as [Eq|Eq]; destruct (N.eqb_spec (Term_Model.queue s u + 1) 0); cbn [andb]; rewrite ?Eq; cbn [N.to_nat]; lia.
  - intros w Hne. unfold loc, at_rest. destruct (Hph w) as [-> ->]. cbn [Term_Model.at_pc Term_Model.set_queue Term_Model.queue]. by Term_Proofs.fs.
Qed.

Lemma working_dec p : working p \/ ~ working p.
Proof. destruct p; cbn; auto. Qed.
(** What one step does. *)
Lemma step_rem s t x b : good s b -> plain x -> (forall u, u < n -> Term_Model.at_ (trm s) u = Term_Model.Done -> Term_Model.queue (trm s) u = 0%N) ->
  exists b', let s' := wstep s t x in good s' b' /\ rem s' b' <= rem s b /\
  (forall w, w < n -> rest_of s w = false -> rem s' b' < rem s b \/ same s s' w) /\
  (t < n -> rest_of s t = false -> prog s t = x -> rem s' b' < rem s b).
Proof.
  intros HG Hx Hd. pose proof (winv_step a owner swap n Hown s t x (g_inv _ _ HG)) as HW'. pose proof (closed_step s t x (g_closed _ _ HG)) as HC'.
  assert (Hnone : wstep s t x = s -> prog s t <> x \/ rest_of s t = true \/ n <= t -> exists b', let s' := wstep s t x in good s' b' /\ rem s' b' <= rem s b /\
    (forall w, w < n -> rest_of s w = false -> rem s' b' < rem s b \/ same s s' w) /\ (t < n -> rest_of s t = false -> prog s t = x -> rem s' b' < rem s b)).
  { intros -> H. exists b. cbv zeta. split_and!; [done|done|intros; by right|]. intros Ht Hr Hp. destruct H as [?|[?|?]]; [done|congruence|lia]. }
  assert (Hloop : forall c, x = Ctl c -> wstep s t x = loop_on a swap n s t c -> (working (Term_Model.at_ (trm s) t) -> is_send c = false) ->
    (working (Term_Model.at_ (trm s) t) -> todo (eng s) t = [] /\ (c = Term_Model.Finish \/ c = Term_Model.FinishCheck \/ did s t = 0%N)) ->
    exists b', let s' := wstep s t x in good s' b' /\ rem s' b' <= rem s b /\
    (forall w, w < n -> rest_of s w = false -> rem s' b' < rem s b \/ same s s' w) /\ (t < n -> rest_of s t = false -> prog s t = x -> rem s' b' < rem s b)).
  { intros c -> E Hc Hw. exists b. rewrite E in *. cbv zeta. assert (HG' : good (loop_on a swap n s t c) b) by (constructor; [done|done|apply (g_budget _ _ HG)]).
    destruct (decide (t < n)) as [Ht|Ht].
    - destruct (loop_rem s t c b HG Ht Hc (Hd t Ht) Hw) as (R1 & R2 & R3). by split_and!.
    - assert (Es : Term_Model.step swap n (trm s) (t, c) = trm s) by (unfold Term_Model.step; cbn [fst]; by rewrite (proj2 (Nat.ltb_ge t n) ltac:(lia))).
      split_and!; try done.
      + unfold rem, loop_on. cbn [trm]. by rewrite Es.
      + intros w Hwn _. right. unfold same, loop_on. cbn [trm eng did]. rewrite Es. split_and!; try done. rewrite upd_ne; [done|lia]. }
  assert (Heng : (exists b', good (wstep s t x) b' /\ rem (wstep s t x) b' < rem s b) -> exists b', let s' := wstep s t x in good s' b' /\ rem s' b' <= rem s b /\
    (forall w, w < n -> rest_of s w = false -> rem s' b' < rem s b \/ same s s' w) /\ (t < n -> rest_of s t = false -> prog s t = x -> rem s' b' < rem s b)).
  { intros (b' & H1 & H2). exists b'. cbv zeta. split_and!; try done; [lia|]. intros; by left. }
  unfold plain in Hx. destruct (working_dec (Term_Model.at_ (trm s) t)) as [Hw|Hw].
  2: { destruct x as [c|c].
    - apply (Hloop c); [done| |done|done]. unfold Whole_Model.wstep. by destruct (Term_Model.at_ (trm s) t).
    - apply Hnone; [unfold Whole_Model.wstep; by destruct (Term_Model.at_ (trm s) t)|left]. unfold prog. by destruct (Term_Model.at_ (trm s) t). }
  destruct (Term_Model.at_ (trm s) t) as [got|got|got snt own| |i acc|acc|i acc| |acc|i acc|acc|acc|i|i| |i|] eqn:Hp; try done.
  assert (Htn : t < n). { destruct (decide (t < n)) as [|H]; [done|]. rewrite (w_out _ _ _ (g_inv _ _ HG) t) in Hp by lia. done. }
  pose proof (w_batch _ _ _ (g_inv _ _ HG) t) as Hb. rewrite Hp in Hb. cbn [pulled] in Hb.
  destruct x as [c|c].
  - destruct c; try (apply Hnone; [unfold Whole_Model.wstep; rewrite Hp; by destruct (todo (eng s) t)|left; unfold prog; rewrite Hp; destruct (todo (eng s) t); [by destruct (did s t <? got)%N|done]]).
    + destruct (todo (eng s) t) eqn:Et; [destruct (N.eqb_spec (did s t) got) as [Eg|Eg]|].
      * apply (Hloop Term_Model.Finish); [done| |done|by auto]. unfold Whole_Model.wstep. rewrite Hp, Et. by rewrite (proj2 (N.eqb_eq _ _) Eg).
      * apply Hnone; [unfold Whole_Model.wstep; rewrite Hp, Et; by rewrite (proj2 (N.eqb_neq _ _) Eg)|left]. unfold prog. rewrite Hp, Et. by rewrite (proj2 (N.ltb_lt (did s t) got)) by lia.
      * apply Hnone; [unfold Whole_Model.wstep; by rewrite Hp, Et|left]. unfold prog. by rewrite Hp, Et.
    + destruct (todo (eng s) t) eqn:Et; [destruct (N.eqb_spec (did s t) got) as [Eg|Eg]|].
      * apply (Hloop Term_Model.FinishCheck); [done| |done|by auto]. unfold Whole_Model.wstep. rewrite Hp, Et. by rewrite (proj2 (N.eqb_eq _ _) Eg).
      * apply Hnone; [unfold Whole_Model.wstep; rewrite Hp, Et; by rewrite (proj2 (N.eqb_neq _ _) Eg)|left]. unfold prog. rewrite Hp, Et. by rewrite (proj2 (N.ltb_lt (did s t) got)) by lia.
      * apply Hnone; [unfold Whole_Model.wstep; by rewrite Hp, Et|left]. unfold prog. by rewrite Hp, Et.
    + destruct (todo (eng s) t) eqn:Et; [destruct (N.eqb_spec (did s t) 0) as [Eg|Eg]|].
      * apply (Hloop (Term_Model.More closed0)); [done| |done|by auto]. unfold Whole_Model.wstep. rewrite Hp, Et. by rewrite (proj2 (N.eqb_eq _ _) Eg).
      * apply Hnone; [unfold Whole_Model.wstep; rewrite Hp, Et; by rewrite (proj2 (N.eqb_neq _ _) Eg)|left]. unfold prog. rewrite Hp, Et. by destruct (did s t <? got)%N.
      * apply Hnone; [unfold Whole_Model.wstep; by rewrite Hp, Et|left]. unfold prog. by rewrite Hp, Et.
  - unfold acts in Hx. rewrite !elem_of_cons, elem_of_nil in Hx. destruct Hx as [->|[->|[]]].
    + destruct (todo (eng s) t) as [|o l] eqn:Et.
      * apply Hnone; [unfold Whole_Model.wstep; by rewrite Hp, Et|left]. unfold prog. rewrite Hp, Et. by destruct (did s t <? got)%N.
      * apply Heng. assert (Hcan : can a (eng s) t Run = true) by (unfold can; by rewrite Et).
        assert (Hplain : wstep s t (Do Run) = act_on a owner swap n s t Run [] (did s t) 0 0 -> exists b', good (wstep s t (Do Run)) b' /\ rem (wstep s t (Do Run)) b' < rem s b).
        { intros E. rewrite E in *. apply act_rem; try done; [unfold acts; apply elem_of_list_here|]. exists t. split_and!; try done. cbn. lia. }
        destruct o; try (apply Hplain; unfold Whole_Model.wstep; by rewrite Hp, Et).
        assert (E : wstep s t (Do Run) = act_on a owner swap n s t Run [(t, Term_Model.Send (owner d))] (did s t) 1 0) by (unfold Whole_Model.wstep; by rewrite Hp, Et).
        rewrite E in *. apply act_rem; try done; [unfold acts; apply elem_of_list_here|]. exists (owner d). split; [done|]. by eapply send_loc.
    + destruct (todo (eng s) t) as [|o l] eqn:Et.
      * destruct (N.ltb_spec (did s t) got) as [Hlt|Hge].
        -- apply Heng. assert (E : wstep s t (Do Pop) = act_on a owner swap n s t Pop [] (did s t + 1) 0 1) by (unfold Whole_Model.wstep; rewrite Hp, Et; by rewrite (proj2 (N.ltb_lt _ _) Hlt)).
           rewrite E in *. apply act_rem; try done; [unfold acts; apply elem_of_list_further, elem_of_list_here| |].
           ++ pose proof (w_queue _ _ _ (g_inv _ _ HG) t) as Q. rewrite Hp in Q. cbn [pulled] in Q. unfold can. rewrite Et. destruct (queue (eng s) t); [cbn in Q; lia|done].
           ++ exists t. split_and!; try done. cbn. lia.
        -- apply Hnone; [unfold Whole_Model.wstep; rewrite Hp, Et; by rewrite (proj2 (N.ltb_ge _ _) Hge)|left]. unfold prog. rewrite Hp, Et. by rewrite (proj2 (N.ltb_ge _ _) Hge).
      * apply Hnone; [unfold Whole_Model.wstep; rewrite Hp, Et; by destruct o|left]. unfold prog. by rewrite Hp, Et.
Qed.

(** In a round, every thread gets its turn at everything it may have to do; no change of the graph. *)
Definition turns : list (wchoice a) := [Ctl Term_Model.Go; Ctl Term_Model.Finish; Do Run; Do Pop].
Definition fair_round (l : list (nat * wchoice a)) : Prop :=
  (forall t x, (t, x) ∈ l -> plain x) /\ (forall t x, t < n -> x ∈ turns -> (t, x) ∈ l).
Lemma prog_turns s t : prog s t ∈ turns.
Proof. unfold prog, turns. destruct (Term_Model.at_ (trm s) t); try apply elem_of_list_here. destruct (todo (eng s) t); [destruct (did s t <? got)%N|]; rewrite !elem_of_cons; auto. Qed.
Definition done_empty (s : wst a) : Prop := forall u, u < n -> Term_Model.at_ (trm s) u = Term_Model.Done -> Term_Model.queue (trm s) u = 0%N.
Definition walong (P : wst a -> Prop) (s : wst a) (l : list (nat * wchoice a)) : Prop := forall pre post, l = pre ++ post -> P (wrun s pre).
Lemma walong_cons P s t x l : walong P s ((t, x) :: l) -> P s /\ walong P (wstep s t x) l.
Proof. intros H. split; [by apply (H [] ((t, x) :: l))|]. intros pre post E. apply (H ((t, x) :: pre) post). by rewrite E. Qed.
Lemma wrun_app s l l' : wrun s (l ++ l') = wrun (wrun s l) l'.
Proof. unfold Whole_Model.wrun. by rewrite fold_left_app. Qed.
Lemma walong_app P s l1 l2 : walong P s (l1 ++ l2) -> walong P s l1 /\ walong P (wrun s l1) l2.
Proof.
  intros H. split; intros pre post ->.
  - apply (H pre (post ++ l2)). by rewrite app_assoc.
  - rewrite <- wrun_app. apply (H (l1 ++ pre) post). by rewrite app_assoc.
Qed.
Lemma list_rem l : forall s b, good s b -> (forall t x, (t, x) ∈ l -> plain x) -> walong done_empty s l ->
  exists b', good (wrun s l) b' /\ rem (wrun s l) b' <= rem s b /\
  forall t, t < n -> rest_of s t = false -> (t, prog s t) ∈ l -> rem (wrun s l) b' < rem s b.
Proof.
  induction l as [|[u x] l IH]; intros s b HG Hl Ha.
  - exists b. split_and!; try done. intros t _ _ H. by apply elem_of_nil in H.
  - apply walong_cons in Ha as [Hd Ha].
    destruct (step_rem s u x b HG (Hl u x ltac:(apply elem_of_list_here)) Hd) as (b1 & HG1 & R1 & R2 & R3).
    destruct (IH (wstep s u x) b1 HG1 ltac:(intros t' x' Hin; apply (Hl t' x'); by apply elem_of_list_further) Ha) as (b' & HG' & R4 & R5).
    exists b'. change (wrun s ((u, x) :: l)) with (wrun (wstep s u x) l). split_and!; [done|lia|].
    intros t Ht Hr Hin. destruct (R2 t Ht Hr) as [Hlt|Hsame]; [lia|]. apply same_prog in Hsame as [E1 E2].
    apply elem_of_cons in Hin as [[= Et Ex]|Hin].
    + subst u. specialize (R3 Ht Hr Ex). lia.
    + enough (rem (wrun (wstep s u x) l) b' < rem (wstep s u x) b1) by lia. apply (R5 t); [done|by rewrite E1|by rewrite E2].
Qed.
Lemma rest_dec (s : wst a) : (forall t, t < n -> rest_of s t = true) \/ exists t, t < n /\ rest_of s t = false.
Proof.
  assert (G : forall k, (forall t, t < k -> rest_of s t = true) \/ exists t, t < k /\ rest_of s t = false).
  { induction k as [|k [IH|(t & Ht & E)]]; [left; lia| |right; exists t; split; [lia|done]].
    destruct (rest_of s k) eqn:E; [left|right; exists k; split; [lia|done]]. intros t Ht. destruct (decide (t = k)) as [->|]; [done|apply IH; lia]. }
  apply G.
Qed.
Lemma rest_quiet s : closed s -> (forall t, t < n -> rest_of s t = true) -> Term_Proofs.quiet n (trm s).
Proof. intros HC H t Ht. specialize (H t Ht). unfold at_rest in H. apply andb_true_iff in H as [H1 H2]. apply N.eqb_eq in H2. split_and!; try done. by apply HC. Qed.
Lemma rounds_rem rounds : Forall fair_round rounds -> forall s b, good s b -> walong done_empty s (concat rounds) ->
  Term_Proofs.quiet n (trm (wrun s (concat rounds))) \/ exists b', rem (wrun s (concat rounds)) b' + length rounds <= rem s b.
Proof.
  induction 1 as [|l rounds Hl _ IH]; intros s b HG Ha; [right; exists b; cbn; lia|]. cbn [concat] in *. rewrite wrun_app.
  destruct (rest_dec s) as [Hr|(t & Ht & Hr)].
  - left. rewrite <- wrun_app. apply (quiet_run a owner swap n Hown); [apply HG|apply rest_quiet; [apply HG|done]].
  - apply walong_app in Ha as [Ha1 Ha2]. destruct (list_rem l s b HG (proj1 Hl) Ha1) as (b1 & HG1 & _ & R).
    specialize (R t Ht Hr (proj2 Hl t (prog s t) Ht (prog_turns s t))).
    destruct (IH _ _ HG1 Ha2) as [Hq|(b' & Hb')]; [by left|right]. exists b'. cbn [length]. lia.
Qed.
Lemma lworks_app l1 l2 : forall s, lworks a owner swap n s (l1 ++ l2) = lworks a owner swap n s l1 ++ lworks a owner swap n (wrun s l1) l2.
Proof. induction l1 as [|[t x] l1 IH]; intros s; [done|]. cbn [lworks app]. rewrite IH, app_assoc. done. Qed.
Lemma eworks_app l1 l2 : forall s, eworks a owner swap n s (l1 ++ l2) = eworks a owner swap n s l1 ++ eworks a owner swap n (wrun s l1) l2.
Proof. induction l1 as [|[t x] l1 IH]; intros s; [done|]. cbn [eworks app]. rewrite IH, app_assoc. done. Qed.
Lemma quiet_lworks l : forall s, winv a n s -> Term_Proofs.quiet n (trm s) -> forall t c, t < n -> (t, Ctl c) ∈ l -> (t, c) ∈ lworks a owner swap n s l.
Proof.
  induction l as [|[u x] l IH]; intros s HW HQ t c Ht Hin; [by apply elem_of_nil in Hin|]. cbn [lworks]. apply elem_of_app.
  apply elem_of_cons in Hin as [[= -> <-]|Hin]; [left|right].
  - unfold lwork. destruct (HQ u Ht) as (Hi & _). destruct (Term_Model.at_ (trm s) u); try discriminate Hi; apply elem_of_list_here.
  - apply IH; try done; [by apply winv_step|]. exact (proj1 (quiet_run a owner swap n Hown [(u, x)] s HW HQ)).
Qed.
Lemma quiet_rounds rounds : Forall fair_round rounds -> forall s, winv a n s -> Term_Proofs.quiet n (trm s) ->
  exists trounds, lworks a owner swap n s (concat rounds) = concat trounds /\ length trounds = length rounds /\ Forall (Term_Live.fair n) trounds.
Proof.
  induction 1 as [|l rounds Hl _ IH]; intros s HW HQ; [by exists []|]. cbn [concat]. rewrite lworks_app.
  destruct (IH (wrun s l)) as (tr & E & Hlen & Hf); [by apply winv_run|by apply (quiet_run a owner swap n Hown)|].
  exists (lworks a owner swap n s l :: tr). cbn [concat length]. rewrite E, Hlen. split_and!; try done. constructor; [|done].
  intros t Ht. apply quiet_lworks; try done. apply Hl; [done|]. apply elem_of_list_here.
Qed.

Lemma ends e own sent0 sched b :
  let s0 := wstart a e own sent0 in winv a n s0 -> let s := wrun s0 sched in
  closed s -> budget (eng s) b ->
  exists bound, forall rounds, Forall fair_round rounds -> bound <= length rounds ->
    swap = true \/ Term_Proofs.tidy swap n (trm s0) (lworks a owner swap n s0 (sched ++ concat rounds)) ->
    forall t, t < n -> Term_Model.at_ (trm (wrun s (concat rounds))) t = Term_Model.Done.
Proof.
  intros s0 HW0 s HC HB. assert (HG : good s b) by (constructor; [by apply winv_run|done|done]).
  set (k := S (rem s b)). exists (k + 7 * (10 * n + 31)). intros rounds Hf Hlen Htd.
  assert (Hsound : forall pre post, concat rounds = pre ++ post -> Term_Live.sound swap n (trm (wrun s pre))).
  { intros pre post E. unfold s. rewrite <- wrun_app, trm_run. apply Term_Live.sound_exec; [apply Term_Live.sound_start|].
    destruct Htd as [?|Htd]; [by left|right]. rewrite E, app_assoc, lworks_app in Htd. by apply Term_Live.tidy_app in Htd as [? _]. }
  assert (Hde : walong done_empty s (concat rounds)).
  { intros pre post E u Hu Hdn. destruct (Hsound pre post E) as [_ [(EE & conf & HI & _)|[D Hcalm]]].
    - pose proof (Term_Proofs.i_pc _ _ _ _ _ HI u Hu) as Hp. unfold Term_Proofs.pcok in Hp. by rewrite Hdn in Hp.
    - by apply (Term_Live.m_quiet _ _ _ _ Hcalm). }
  rewrite <- (firstn_skipn k rounds) in Hf, Hde, Htd, Hsound |- *. rewrite concat_app in Hde, Htd, Hsound |- *.
  apply List.Forall_app in Hf as [Hf1 Hf2]. set (l1 := concat (firstn k rounds)) in *. set (r2 := skipn k rounds) in *.
  apply walong_app in Hde as [Hde _].
  assert (HQ : Term_Proofs.quiet n (trm (wrun s l1))).
  { destruct (rounds_rem _ Hf1 s b HG Hde) as [?|(b' & Hb')]; [done|]. rewrite firstn_length in Hb'. lia. }
  assert (HW1 : winv a n (wrun s l1)) by (apply winv_run; [done|apply HG]).
  destruct (quiet_rounds r2 Hf2 (wrun s l1) HW1 HQ) as (tr & Etr & Ltr & Ftr).
  rewrite wrun_app, trm_run, Etr. apply Term_Live.all_leave; try done.
  - by apply (Hsound l1 (concat r2)).
  - rewrite Ltr. unfold r2. rewrite skipn_length. lia.
  - destruct Htd as [?|Htd]; [by left|right]. rewrite app_assoc, lworks_app in Htd. apply Term_Live.tidy_app in Htd as [_ Htd].
    rewrite <- trm_run in Htd. rewrite wrun_app in Htd. fold s in Htd. by rewrite Etr in Htd.
Qed.
End live.
