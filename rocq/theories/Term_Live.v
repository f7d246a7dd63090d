(** When nothing is left, all threads leave, under every fair schedule. *)
From Verif Require Import Base Term_Model Term_Proofs Term_All Rest_Spec.
Open Scope N_scope.

Ltac ifs := match goal with |- context [if ?b then _ else _] => destruct b eqn:?; rewrite ?N.eqb_eq, ?N.eqb_neq, ?N.ltb_lt, ?N.ltb_ge, ?Nat.ltb_lt, ?Nat.ltb_ge in * end.

(** Where a thread is in its check, and what it has voted there. *)
Definition well_placed (n : nat) (s : st) (t : nat) : Prop :=
  vote s t <= 3 /\
  match at_ s t with
  | KSum i _ => (i < n)%nat
  | KViews i acc => (i < n)%nat /\ acc = view s t
  | KSeen i _ => (i < n)%nat /\ 1 <= vote s t
  | KBack _ | KReady _ => 1 <= vote s t
  | KReadys i => (i < n)%nat /\ 2 <= vote s t
  | KFall i => (i < n)%nat /\ 2 <= vote s t
  | KFinal => 2 <= vote s t
  | KFinals i => (i < n)%nat /\ vote s t = 3
  | Done => vote s t = 3
  | _ => True
  end.
Definition shape (n : nat) (s : st) : Prop := forall t, (t < n)%nat -> well_placed n s t.

Lemma other_thread swap n s u c t : t <> u ->
  let s' := step swap n s (u, c) in at_ s' t = at_ s t /\ view s' t = view s t /\ vote s' t = vote s t /\ cnt s' t = cnt s t /\ data s' t = data s t /\ open_ s' t = open_ s t.
Proof.
  intros Hne s'. subst s'. unfold step. cbn [fst snd]. destruct (u <? n)%nat; [|done]. unfold go, received.
  destruct (at_ s u); destruct c; try done; cbv zeta; repeat case_match; cbn; split_and!; by fs.
Qed.
Lemma shape_step swap n s x : shape n s -> shape n (step swap n s x).
Proof.
  intros HS t Ht. destruct x as [u c]. destruct (decide (t = u)) as [->|Hne].
  - specialize (HS u Ht). unfold well_placed in *. unfold step. cbn [fst snd]. destruct (Nat.ltb_spec u n) as [_|]; [|done]. destruct HS as [Hv Hp].
    unfold go, received. destruct (at_ s u) as [got|got|got sent own| |i acc|acc|i acc| |acc|i acc|acc|acc|i|i| |i|] eqn:E; destruct c; try (by rewrite E); cbv zeta;
    repeat ifs; cbn; fs; try (split; [lia|]); rewrite ?E; try done; try (split_and!; lia); try lia; try naive_solver lia.
  - destruct (other_thread swap n s u c t Hne) as (E1 & E2 & E3 & _). unfold well_placed. rewrite E1, E2, E3. by apply HS.
Qed.

(** A phase: while [I] holds, every thread comes to its goal. *)
Section phase.
Context (swap : bool) (n : nat).
Definition fair (l : list (nat * choice)) : Prop := forall t, (t < n)%nat -> (t, Go) ∈ l.
Context (I : st -> Prop) (G : st -> nat -> Prop) (r : st -> nat -> nat).
Hypothesis G_step : forall s x t, (t < n)%nat -> I s -> G s t -> G (step swap n s x) t.
Hypothesis r_other : forall s u c t, (t < n)%nat -> t <> u -> I s -> r (step swap n s (u, c)) t = r s t.
Hypothesis r_own : forall s c t, (t < n)%nat -> I s -> G s t \/ G (step swap n s (t, c)) t \/ (r (step swap n s (t, c)) t <= r s t)%nat.
Hypothesis r_go : forall s t, (t < n)%nat -> I s -> G s t \/ G (step swap n s (t, Go)) t \/ (r (step swap n s (t, Go)) t < r s t)%nat.
Definition along (s : st) (l : list (nat * choice)) : Prop := forall pre post, l = pre ++ post -> I (exec swap n s pre).
Lemma along_cons s x l : along s (x :: l) -> I s /\ along (step swap n s x) l.
Proof. intros H. split; [by apply (H [] (x :: l))|]. intros pre post E. apply (H (x :: pre) post). by rewrite E. Qed.
Lemma along_app s l1 l2 : along s (l1 ++ l2) -> along s l1 /\ along (exec swap n s l1) l2.
Proof.
  intros H. split; intros pre post ->.
  - apply (H pre (post ++ l2)). by rewrite app_assoc.
  - assert (exec swap n (exec swap n s l1) pre = exec swap n s (l1 ++ pre)) as -> by (unfold exec; by rewrite fold_left_app).
    apply (H (l1 ++ pre) post). by rewrite app_assoc.
Qed.
Lemma phase_kept t l : (t < n)%nat -> forall s, along s l -> G s t -> G (exec swap n s l) t.
Proof.
  intros Ht. induction l as [|x l IH]; intros s Ha HG; [done|]. apply along_cons in Ha. destruct Ha as [HI Ha].
  cbn [exec fold_left]. apply IH; [done|by apply G_step].
Qed.
Lemma phase_list t l : (t < n)%nat -> forall s, along s l -> G (exec swap n s l) t \/ ((r (exec swap n s l) t <= r s t)%nat /\ ((t, Go) ∈ l -> (r (exec swap n s l) t < r s t)%nat)).
Proof.
  intros Ht. induction l as [|[u c] l IH]; intros s Ha; [right; split; [done|intros H; by apply elem_of_nil in H]|].
  apply along_cons in Ha. destruct Ha as [HI Ha]. change (exec swap n s ((u, c) :: l)) with (exec swap n (step swap n s (u, c)) l).
  assert (G (step swap n s (u, c)) t \/ ((r (step swap n s (u, c)) t <= r s t)%nat /\ ((u, c) = (t, Go) -> (r (step swap n s (u, c)) t < r s t)%nat))) as [HG|[Hle Hlt]].
  { destruct (decide (t = u)) as [<-|Hne]; [|right; rewrite (r_other s u c t) by done; split; [done|intros E; by simplify_eq]].
    destruct (r_own s c t Ht HI) as [HG|[HG|Hr]]; [left; by apply G_step|by left|].
    destruct c; try (right; split; [done|intros E; by simplify_eq]).
    destruct (r_go s t Ht HI) as [HG|[HG|Hr']]; [left; by apply G_step|by left|right; by split]. }
  - left. by apply phase_kept.
  - destruct (IH _ Ha) as [HG|[H1 H2]]; [by left|right]. split; [lia|]. intros Hin. apply elem_of_cons in Hin.
    destruct Hin as [E|Hin]; [specialize (Hlt (eq_sym E)); lia|specialize (H2 Hin); lia].
Qed.
Lemma phase_rounds t rounds : (t < n)%nat -> Forall fair rounds -> forall s, along s (concat rounds) ->
  G (exec swap n s (concat rounds)) t \/ (r (exec swap n s (concat rounds)) t + length rounds <= r s t)%nat.
Proof.
  intros Ht. induction 1 as [|l rounds Hl _ IH]; intros s Ha; [right; cbn; lia|]. cbn [concat] in *.
  unfold exec. rewrite fold_left_app. change (G (exec swap n (exec swap n s l) (concat rounds)) t \/ (r (exec swap n (exec swap n s l) (concat rounds)) t + length (l :: rounds) <= r s t)%nat).
  apply along_app in Ha. destruct Ha as [H1 H2]. destruct (phase_list t l Ht s H1) as [HG|[_ Hlt]]; [left; by apply phase_kept|].
  specialize (Hlt (Hl t Ht)). destruct (IH _ H2) as [HG|Hr]; [by left|right]. cbn [length]. lia.
Qed.
Lemma phase b s rounds : Forall fair rounds -> along s (concat rounds) -> (forall t, (t < n)%nat -> (r s t <= b)%nat) -> (b < length rounds)%nat ->
  forall t, (t < n)%nat -> G (exec swap n s (concat rounds)) t.
Proof.
  intros Hf Ha Hb Hl t Ht. destruct (phase_rounds t rounds Ht Hf s Ha) as [HG|Hr]; [done|]. specialize (Hb t Ht). lia.
Qed.
End phase.

(** Nothing left and everything published: [D] is what has been counted. *)
Section calm.
Context (swap : bool) (n : nat) (D : nat -> N).
Definition full : N := sumf D n.
Definition freshp (p : pc) (v : N) : Prop :=
  match p with
  | Recv _ | Look _ | Work _ _ _ | K0 | KUnvote => True
  | KSum i acc => acc = sumf D i
  | KReset acc => acc = full /\ (swap = false -> v = full)
  | _ => v = full
  end.
Definition fresh (s : st) (t : nat) : Prop := freshp (at_ s t) (view s t).
Record calm (s : st) : Prop := Calm {
  m_quiet : quiet n s;
  m_sum : forall t, (t < n)%nat -> cnt s t = D t /\ data s t = D t;
  m_shape : shape n s;
  m_vote : forall t, (t < n)%nat -> 2 <= vote s t -> fresh s t }.

(** The steps of a thread in such a state. *)
Definition next (s : st) (t : nat) (p : pc) : pc * N * N :=
  match p with
  | Recv _ => (K0, view s t, vote s t)
  | Look _ => (Recv 0, view s t, vote s t)
  | K0 => (KSum 0 0, view s t, vote s t)
  | KSum i acc => if (S i <? n)%nat then (KSum (S i) (acc + D i), view s t, vote s t)
      else if view s t =? acc + D i then (KViews 0 (acc + D i), view s t, vote s t)
      else if swap then (KReset (acc + D i), view s t, 0) else (KReset (acc + D i), acc + D i, vote s t)
  | KReset acc => if swap then (Recv 0, acc, vote s t) else (Recv 0, view s t, 0)
  | KViews i acc => (if view s i =? acc then (if (S i <? n)%nat then KViews (S i) acc else KVote acc) else KUnvote, view s t, vote s t)
  | KUnvote => (Recv 0, view s t, 0)
  | KVote acc => (KSeen 0 acc, view s t, if vote s t =? 0 then 1 else vote s t)
  | KSeen i acc => (if vote s i =? 0 then KBack acc else if (S i <? n)%nat then KSeen (S i) acc else KReady acc, view s t, vote s t)
  | KBack _ => (Recv 0, view s t, 1)
  | KReady acc => if vote s t =? 1 then (Recv 0, view s t, 2) else (KReadys 0, view s t, vote s t)
  | KReadys i => (if vote s i <? 2 then (if vote s t =? 3 then KFall i else Recv 0) else if (S i <? n)%nat then KReadys (S i) else KFinal, view s t, vote s t)
  | KFall i => (Recv 0, view s t, if vote s i =? 0 then 1 else 2)
  | KFinal => (KFinals 0, view s t, 3)
  | KFinals i => (if vote s i =? 3 then (if (S i <? n)%nat then KFinals (S i) else Done) else Recv 0, view s t, vote s t)
  | _ => (p, view s t, vote s t)
  end.
Lemma is_go (c : choice) : {c = Go} + {c <> Go}.
Proof. destruct c; by (left + right). Qed.
Lemma calm_go s t : calm s -> (t < n)%nat -> let s' := step swap n s (t, Go) in (at_ s' t, view s' t, vote s' t) = next s t (at_ s t).
Proof.
  intros [Hq Hs Hsh _] Ht s'. subst s'. unfold step. cbn [fst snd]. destruct (Nat.ltb_spec t n) as [_|]; [|lia]. destruct (Hq t Ht) as (Hi & Hz & Ho).
  pose proof (Hsh t Ht) as [_ Hw]. unfold go, received, next. destruct (at_ s t) as [got|got|got sent own| |i acc|acc|i acc| |acc|i acc|acc|acc|i|i| |i|] eqn:E; cbn [idle] in Hi; try discriminate Hi;
    rewrite ?N.eqb_eq in Hi; subst; rewrite ?Hz, ?Ho; cbn; fs; try done.
  - destruct (Hs i Hw) as [_ ->]. repeat case_match; cbn; fs; done.
  - destruct swap; cbn; fs; done.
  - destruct (vote s t =? 0); cbn; fs; done.
  - destruct (vote s t =? 1); cbn; fs; done.
  - by rewrite E.
Qed.
Lemma calm_wait s t c : calm s -> (t < n)%nat -> c <> Go -> let s' := step swap n s (t, c) in
  (at_ s' t, view s' t, vote s' t) = (at_ s t, view s t, vote s t) \/ (exists got, at_ s t = Look got) /\ (at_ s' t, view s' t, vote s' t) = (K0, view s t, vote s t).
Proof.
  intros [Hq Hs Hsh _] Ht Hc s'. subst s'. unfold step. cbn [fst snd]. destruct (Nat.ltb_spec t n) as [_|]; [|lia]. destruct (Hq t Ht) as (Hi & Hz & Ho).
  unfold go, received. destruct (at_ s t) as [got|got|got sent own| |i acc|acc|i acc| |acc|i acc|acc|acc|i|i| |i|] eqn:E; cbn [idle] in Hi; try discriminate Hi;
    rewrite ?N.eqb_eq in Hi; subst; destruct c; try done; cbn; rewrite ?Ho; try (rewrite E; by left); fs; try (rewrite ?E; by left).
  right. split; [by eexists|done].
Qed.
Lemma calm_sum_step s x : calm s -> forall t, (t < n)%nat -> cnt (step swap n s x) t = D t /\ data (step swap n s x) t = D t.
Proof.
  intros [Hq Hs _ _] t Ht. destruct x as [u c]. destruct (Hs t Ht) as [Hc Hd]. unfold step. cbn [fst snd]. destruct (Nat.ltb_spec u n) as [Hu|]; [|done].
  destruct (Hq u Hu) as (Hi & Hz & Ho). unfold go, received. destruct (at_ s u); try discriminate Hi; destruct c; try done; cbv zeta; rewrite ?Hz, ?Ho; repeat case_match; cbn; try done.
  destruct (decide (t = u)) as [->|Hne]; fs; done.
Qed.
Lemma full_last i : (i < n)%nat -> (n <= S i)%nat -> sumf D i + D i = full.
Proof. intros H1 H2. unfold full. by assert (n = S i) as -> by lia. Qed.
Ltac own s t HC Ht :=
  let E := fresh "E" in pose proof (calm_go s t HC Ht) as E; cbv zeta in E; unfold next in E;
  destruct (at_ s t) as [got|got|got sent own| |i acc|acc|i acc| |acc|i acc|acc|acc|i|i| |i|] eqn:Hp;
    repeat (match type of E with context [if ?b then _ else _] => destruct b eqn:?; rewrite ?N.eqb_eq, ?N.eqb_neq, ?N.ltb_lt, ?N.ltb_ge, ?Nat.ltb_lt, ?Nat.ltb_ge in * end);
    let E1 := fresh "E1" in let E2 := fresh "E2" in let E3 := fresh "E3" in injection E as E1 E2 E3; rewrite ?E1, ?E2, ?E3; subst.
Lemma fresh_next s t : calm s -> (t < n)%nat -> fresh s t -> fresh (step swap n s (t, Go)) t.
Proof.
  intros HC Ht HF. pose proof (m_shape _ HC t Ht) as [_ Hw]. unfold fresh, freshp in *.
  own s t HC Ht; try done; subst; try (by destruct HF); rewrite ?full_last in * by lia; done.
Qed.
Lemma fresh_step s x t : calm s -> (t < n)%nat -> fresh s t -> fresh (step swap n s x) t.
Proof.
  intros HC Ht HF. destruct x as [u c]. destruct (decide (t = u)) as [<-|Hne].
  - destruct (is_go c) as [->|Hc]; [by apply fresh_next|]. unfold fresh, freshp in *.
    destruct (calm_wait s t c HC Ht Hc) as [E|[[got Hl] E]]; injection E as E1 E2 _; rewrite E1, ?E2; done.
  - destruct (other_thread swap n s u c t Hne) as (E1 & E2 & _). unfold fresh in *. by rewrite E1, E2.
Qed.
Lemma calm_step s x : calm s -> calm (step swap n s x).
Proof.
  intros HC. constructor; [apply quiet_step, HC|by apply calm_sum_step|apply shape_step, HC|]. intros t Ht Hv.
  destruct x as [u c]. destruct (decide (t = u)) as [<-|Hne].
  - destruct (is_go c) as [->|Hc].
    + destruct (N.le_gt_cases 2 (vote s t)) as [Hv'|Hv']; [apply fresh_step; [done|done|by apply HC]|].
      pose proof (m_shape _ HC t Ht) as [_ Hw]. unfold fresh, freshp. revert Hv. own s t HC Ht; intros; try done; try lia.
    + destruct (calm_wait s t c HC Ht Hc) as [E|[[got Hl] E]]; injection E as E1 E2 E3; rewrite E3 in Hv; apply fresh_step; try done; by apply HC.
  - destruct (other_thread swap n s u c t Hne) as (E1 & E2 & E3 & _). rewrite E3 in Hv. apply fresh_step; try done. by apply HC.
Qed.

Section calm_phase.
Context (I : st -> Prop) (G : pc -> N -> N -> Prop) (r : pc -> nat).
Definition at_goal (s : st) (t : nat) : Prop := G (at_ s t) (view s t) (vote s t).
Hypothesis I_calm : forall s, I s -> calm s.
Hypothesis I_step : forall s x, I s -> I (step swap n s x).
Hypothesis G_next : forall s t, (t < n)%nat -> I s -> at_goal s t -> let '(p, v, w) := next s t (at_ s t) in G p v w.
Hypothesis r_next : forall s t, (t < n)%nat -> I s -> at_goal s t \/ let '(p, v, w) := next s t (at_ s t) in G p v w \/ (r p < r (at_ s t))%nat.
Hypothesis G_look : forall got v w, G (Look got) v w -> G K0 v w.
Hypothesis r_look : forall got, (r K0 <= r (Look got))%nat.
Lemma goal_step s x t : (t < n)%nat -> I s -> at_goal s t -> at_goal (step swap n s x) t.
Proof.
  intros Ht HI HG. destruct x as [u c]. destruct (decide (t = u)) as [<-|Hne].
  - destruct (is_go c) as [->|Hc].
    + pose proof (G_next s t Ht HI HG) as H. rewrite <- (calm_go s t (I_calm s HI) Ht) in H. exact H.
    + unfold at_goal in *. destruct (calm_wait s t c (I_calm s HI) Ht Hc) as [E|[[got Hl] E]]; injection E as -> -> ->; [done|].
      apply (G_look got). by rewrite <- Hl.
  - destruct (other_thread swap n s u c t Hne) as (E1 & E2 & E3 & _). unfold at_goal. by rewrite E1, E2, E3.
Qed.
Definition reached (s : st) : Prop := I s /\ forall t, (t < n)%nat -> at_goal s t.
Lemma reached_step s x : reached s -> reached (step swap n s x).
Proof. intros [HI HG]. split; [by apply I_step|]. intros t Ht. apply goal_step; auto. Qed.
Lemma I_exec l : forall s, I s -> I (exec swap n s l).
Proof. induction l as [|x l IH]; intros s HI; [done|]. cbn [exec fold_left]. by apply IH, I_step. Qed.
Lemma reach b s rounds : I s -> Forall (fair n) rounds -> (forall p, (r p <= b)%nat) -> (b < length rounds)%nat -> reached (exec swap n s (concat rounds)).
Proof.
  intros HI Hf Hb Hl. split; [by apply I_exec|]. intros t Ht.
  apply (phase swap n I at_goal (fun s t => r (at_ s t))) with (b := b); auto.
  - intros. by apply goal_step.
  - intros s' u c t' _ Hne _. by destruct (other_thread swap n s' u c t' Hne) as (-> & _).
  - intros s' c t' Ht' HI'. destruct (is_go c) as [->|Hc].
    + pose proof (r_next s' t' Ht' HI') as H. rewrite <- (calm_go s' t' (I_calm s' HI') Ht') in H. destruct H as [H|[H|H]]; [by left|right; by left|right; right; lia].
    + right. right. destruct (calm_wait s' t' c (I_calm s' HI') Ht' Hc) as [E|[[got E0] E]]; injection E as -> _ _; [done|]. rewrite E0. apply r_look.
  - intros s' t' Ht' HI'. pose proof (r_next s' t' Ht' HI') as H. rewrite <- (calm_go s' t' (I_calm s' HI') Ht') in H. exact H.
  - intros pre post _. by apply I_exec.
Qed.
End calm_phase.

(** How far it is to the end of the check. *)
Definition d (p : pc) : nat :=
  match p with
  | Done | Work _ _ _ => 0
  | KFall _ | KBack _ | KUnvote | KReset _ => 1
  | KFinals i => n - i + 1
  | KFinal => n + 2
  | KReadys i => n - i + n + 3
  | KReady _ => 2 * n + 4
  | KSeen i _ => n - i + 2 * n + 5
  | KVote _ => 3 * n + 6
  | KViews i _ => n - i + 3 * n + 7
  | KSum i _ => n - i + 4 * n + 8
  | K0 => 5 * n + 9
  | Recv _ => 5 * n + 10
  | Look _ => 5 * n + 11
  end%nat.
(** How far to a point of the check that is [x] from its end. *)
Definition rk (x : nat) (p : pc) : nat := if (x <=? d p)%nat then d p - x else d p + 5 * n + 13.
Lemma rk_bound x p : (rk x p <= 10 * n + 30)%nat.
Proof. unfold rk. destruct (Nat.leb_spec x (d p)); destruct p; cbn [d] in *; lia. Qed.
Ltac rks := unfold rk, d; repeat match goal with |- context [Nat.leb ?a ?b] => destruct (Nat.leb_spec a b) end; lia.

Definition G2 (p : pc) (v w : N) : Prop := freshp p v.
Definition G3 (p : pc) (v w : N) : Prop := v = full.
Definition G4 (p : pc) (v w : N) : Prop := 1 <= w /\ p <> KUnvote /\ match p with KReset _ => False | _ => True end.
Definition G5 (p : pc) (v w : N) : Prop := 2 <= w /\ match p with KBack _ => False | _ => True end.
Definition G6 (p : pc) (v w : N) : Prop := w = 3 /\ match p with KFall _ => False | _ => True end.
Definition G7 (p : pc) (v w : N) : Prop := p = Done.
Definition I2 : st -> Prop := reached calm G2.
Definition I3 : st -> Prop := reached I2 G3.
Definition I4 : st -> Prop := reached I3 G4.
Definition I5 : st -> Prop := reached I4 G5.
Definition I6 : st -> Prop := reached I5 G6.
Definition I7 : st -> Prop := reached I6 G7.

Lemma next2 s t : (t < n)%nat -> calm s -> at_goal G2 s t -> let '(p, v, w) := next s t (at_ s t) in G2 p v w.
Proof.
  intros Ht HC HG. rewrite <- (calm_go s t HC Ht). by apply fresh_step.
Qed.
Lemma near2 s t : (t < n)%nat -> calm s -> at_goal G2 s t \/ let '(p, v, w) := next s t (at_ s t) in G2 p v w \/ (rk 0 p < rk 0 (at_ s t))%nat.
Proof.
  intros Ht HC. destruct (N.le_gt_cases 2 (vote s t)) as [Hv|Hv]; [left; by apply HC|].
  pose proof (m_shape _ HC t Ht) as [_ Hw]. pose proof (proj1 (m_quiet _ HC t Ht)) as Hi. unfold at_goal, G2, next.
  destruct (at_ s t) as [got|got|got sent own| |i acc|acc|i acc| |acc|i acc|acc|acc|i|i| |i|]; try (by left); try lia; right; repeat ifs; try (left; done); right; rks.
Qed.
Lemma step2 s x : I2 s -> I2 (step swap n s x).
Proof. apply reached_step; [done|apply calm_step|apply next2|done]. Qed.
Lemma reach2 s rounds : calm s -> Forall (fair n) rounds -> (10 * n + 30 < length rounds)%nat -> I2 (exec swap n s (concat rounds)).
Proof. intros HC Hf Hl. apply (reach calm G2 (rk 0)) with (b := (10 * n + 30)%nat); try done; [apply calm_step|apply next2|apply near2|intros; rks|apply rk_bound]. Qed.

Lemma I2_calm s : I2 s -> calm s.
Proof. by intros [? _]. Qed.
Lemma next3 s t : (t < n)%nat -> I2 s -> at_goal G3 s t -> let '(p, v, w) := next s t (at_ s t) in G3 p v w.
Proof.
  intros Ht [HC HF] HG. specialize (HF t Ht). pose proof (m_shape _ HC t Ht) as [_ Hw]. unfold at_goal, G2, freshp, G3 in *. unfold next.
  destruct (at_ s t) as [got|got|got sent own| |i acc|acc|i acc| |acc|i acc|acc|acc|i|i| |i|]; repeat ifs; try done.
  - subst acc. by apply full_last.
  - by destruct HF.
Qed.
Definition r3 (p : pc) : nat := match p with KReset _ => 1 | KSum i _ => n - i + 1 | K0 => n + 2 | Recv _ => n + 3 | Look _ => n + 4 | KUnvote => n + 5 | _ => 0 end%nat.
Lemma near3 s t : (t < n)%nat -> I2 s -> at_goal G3 s t \/ let '(p, v, w) := next s t (at_ s t) in G3 p v w \/ (r3 p < r3 (at_ s t))%nat.
Proof.
  intros Ht [HC HF]. specialize (HF t Ht). pose proof (m_shape _ HC t Ht) as [_ Hw]. pose proof (proj1 (m_quiet _ HC t Ht)) as Hi. unfold at_goal, G2, freshp, G3 in *. unfold next.
  destruct (at_ s t) as [got|got|got sent own| |i acc|acc|i acc| |acc|i acc|acc|acc|i|i| |i|]; try (by left); try done; right; repeat ifs; try (right; cbn [r3]; lia); left; subst; try (by apply full_last); try (by destruct HF as [? HF]; auto).
Qed.
Lemma step3 s x : I3 s -> I3 (step swap n s x).
Proof. apply reached_step; [apply I2_calm|apply step2|apply next3|done]. Qed.
Lemma reach3 s rounds : I2 s -> Forall (fair n) rounds -> (10 * n + 30 < length rounds)%nat -> I3 (exec swap n s (concat rounds)).
Proof. intros HC Hf Hl. apply (reach I2 G3 r3) with (b := (10 * n + 30)%nat); try done; [apply I2_calm|apply step2|apply next3|apply near3|cbn; lia|intros []; cbn; lia]. Qed.

Lemma I3_calm s : I3 s -> calm s.
Proof. by intros [[? _] _]. Qed.
(** Once the views are full, the check comes to the votes. *)
Lemma past_views s t : (t < n)%nat -> I3 s -> match at_ s t with
  | KSum i acc => (S i <? n)%nat = false -> view s t =? acc + D i = true
  | KViews i acc => view s i =? acc = true
  | _ => True end.
Proof.
  intros Ht [[HC HF] HV]. pose proof (m_shape _ HC t Ht) as [_ Hw]. pose proof (HV t Ht) as Hv. specialize (HF t Ht). unfold at_goal, G2, G3, freshp in *.
  destruct (at_ s t) as [got|got|got sent own| |i acc|acc|i acc| |acc|i acc|acc|acc|i|i| |i|]; try done.
  - intros Hlt. apply Nat.ltb_ge in Hlt. apply N.eqb_eq. subst acc. rewrite Hv. by rewrite full_last.
  - destruct Hw as [Hi ->]. apply N.eqb_eq. rewrite Hv. by apply HV.
Qed.
Lemma next4 s t : (t < n)%nat -> I3 s -> at_goal G4 s t -> let '(p, v, w) := next s t (at_ s t) in G4 p v w.
Proof.
  intros Ht HI HG. pose proof (past_views s t Ht HI) as Hpv. pose proof (m_shape _ (I3_calm _ HI) t Ht) as [_ Hw]. unfold at_goal, G4 in *. unfold next.
  destruct HG as (H1 & H2 & H3).
  destruct (at_ s t) as [got|got|got sent own| |i acc|acc|i acc| |acc|i acc|acc|acc|i|i| |i|]; try done; repeat ifs; try (split_and!; done || lia).
  all: exfalso; intuition congruence.
Qed.
Lemma near4 s t : (t < n)%nat -> I3 s -> at_goal G4 s t \/ let '(p, v, w) := next s t (at_ s t) in G4 p v w \/ (rk (3 * n + 6) p < rk (3 * n + 6) (at_ s t))%nat.
Proof.
  intros Ht HI. pose proof (past_views s t Ht HI) as Hpv. pose proof (m_shape _ (I3_calm _ HI) t Ht) as [_ Hw]. pose proof (proj1 (m_quiet _ (I3_calm _ HI) t Ht)) as Hi. unfold at_goal, G4. unfold next.
  destruct (at_ s t) as [got|got|got sent own| |i acc|acc|i acc| |acc|i acc|acc|acc|i|i| |i|]; try done; try (left; split_and!; done || lia); right; repeat ifs;
    try (left; split_and!; done || lia); try (right; rks).
  all: exfalso; intuition congruence.
Qed.
Lemma step4 s x : I4 s -> I4 (step swap n s x).
Proof. apply reached_step; [apply I3_calm|apply step3|apply next4|intros ? ? ? (? & ? & ?); done]. Qed.
Lemma reach4 s rounds : I3 s -> Forall (fair n) rounds -> (10 * n + 30 < length rounds)%nat -> I4 (exec swap n s (concat rounds)).
Proof. intros HC Hf Hl. apply (reach I3 G4 (rk (3 * n + 6))) with (b := (10 * n + 30)%nat); try done; [apply I3_calm|apply step3|apply next4|apply near4|intros ? ? ? (? & ? & ?); done|intros; rks|apply rk_bound]. Qed.

Lemma I4_calm s : I4 s -> calm s.
Proof. intros [? _]. by apply I3_calm. Qed.
Lemma past_seen s t i acc : (t < n)%nat -> I4 s -> at_ s t = KSeen i acc -> vote s i =? 0 = false.
Proof.
  intros Ht HI Hp. pose proof (m_shape _ (I4_calm _ HI) t Ht) as [_ Hw]. rewrite Hp in Hw. destruct HI as [_ HV]. destruct (HV i (proj1 Hw)) as (? & _). apply N.eqb_neq. lia.
Qed.
Lemma next5 s t : (t < n)%nat -> I4 s -> at_goal G5 s t -> let '(p, v, w) := next s t (at_ s t) in G5 p v w.
Proof.
  intros Ht HI HG. pose proof (past_views s t Ht (proj1 HI)) as Hpv. pose proof (past_seen s t) as Hps. pose proof (m_shape _ (I4_calm _ HI) t Ht) as [_ Hw].
  destruct (proj2 HI t Ht) as (_ & Hk1 & Hk2). unfold at_goal, G5 in *. unfold next. destruct HG as (H1 & H2).
  destruct (at_ s t) as [got|got|got sent own| |i acc|acc|i acc| |acc|i acc|acc|acc|i|i| |i|]; try done; try (specialize (Hps i acc Ht HI eq_refl)); repeat ifs; try (split_and!; done || lia); try congruence; try (exfalso; intuition congruence).
  destruct (proj2 HI i (proj1 Hw)) as [Hi _]. lia.
Qed.
Lemma near5 s t : (t < n)%nat -> I4 s -> at_goal G5 s t \/ let '(p, v, w) := next s t (at_ s t) in G5 p v w \/ (rk (2 * n + 4) p < rk (2 * n + 4) (at_ s t))%nat.
Proof.
  intros Ht HI. pose proof (past_views s t Ht (proj1 HI)) as Hpv. pose proof (past_seen s t) as Hps. pose proof (m_shape _ (I4_calm _ HI) t Ht) as [_ Hw].
  pose proof (proj1 (m_quiet _ (I4_calm _ HI) t Ht)) as Hi. destruct (proj2 HI t Ht) as (Hk0 & Hk1 & Hk2). unfold at_goal, G5. unfold next.
  destruct (at_ s t) as [got|got|got sent own| |i acc|acc|i acc| |acc|i acc|acc|acc|i|i| |i|]; try done; try (specialize (Hps i acc Ht HI eq_refl)); try (left; split_and!; done || lia); right; repeat ifs;
    try (left; split_and!; done || lia); try (right; rks); try congruence; exfalso; intuition congruence.
Qed.
Lemma step5 s x : I5 s -> I5 (step swap n s x).
Proof. apply reached_step; [apply I4_calm|apply step4|apply next5|intros ? ? ? (? & ?); done]. Qed.
Lemma reach5 s rounds : I4 s -> Forall (fair n) rounds -> (10 * n + 30 < length rounds)%nat -> I5 (exec swap n s (concat rounds)).
Proof. intros HC Hf Hl. apply (reach I4 G5 (rk (2 * n + 4))) with (b := (10 * n + 30)%nat); try done; [apply I4_calm|apply step4|apply next5|apply near5|intros; rks|apply rk_bound]. Qed.

Lemma I5_calm s : I5 s -> calm s.
Proof. intros [? _]. by apply I4_calm. Qed.
Lemma past_ready s t i : (t < n)%nat -> I5 s -> at_ s t = KReadys i -> vote s i <? 2 = false.
Proof.
  intros Ht HI Hp. pose proof (m_shape _ (I5_calm _ HI) t Ht) as [_ Hw]. rewrite Hp in Hw. destruct HI as [_ HV]. destruct (HV i (proj1 Hw)) as (? & _). by apply N.ltb_ge.
Qed.
Lemma next6 s t : (t < n)%nat -> I5 s -> at_goal G6 s t -> let '(p, v, w) := next s t (at_ s t) in G6 p v w.
Proof.
  intros Ht HI HG. pose proof (past_views s t Ht (proj1 (proj1 HI))) as Hpv. pose proof (past_ready s t) as Hps. pose proof (m_shape _ (I5_calm _ HI) t Ht) as [_ Hw].
  destruct (proj2 (proj1 HI) t Ht) as (_ & Hk1 & Hk2). destruct (proj2 HI t Ht) as (_ & Hk3). unfold at_goal, G6 in *. unfold next. destruct HG as (H1 & H2).
  destruct (at_ s t) as [got|got|got sent own| |i acc|acc|i acc| |acc|i acc|acc|acc|i|i| |i|]; try done; try (specialize (Hps i Ht HI eq_refl)); repeat ifs; try (split_and!; done || lia); try congruence; try (exfalso; intuition congruence).
Qed.
Lemma near6 s t : (t < n)%nat -> I5 s -> at_goal G6 s t \/ let '(p, v, w) := next s t (at_ s t) in G6 p v w \/ (rk (n + 2) p < rk (n + 2) (at_ s t))%nat.
Proof.
  intros Ht HI. pose proof (past_views s t Ht (proj1 (proj1 HI))) as Hpv. pose proof (past_seen s t) as Hps. pose proof (past_ready s t) as Hpr. pose proof (m_shape _ (I5_calm _ HI) t Ht) as [_ Hw].
  pose proof (proj1 (m_quiet _ (I5_calm _ HI) t Ht)) as Hi. destruct (proj2 (proj1 HI) t Ht) as (Hk0 & Hk1 & Hk2). destruct (proj2 HI t Ht) as (Hk4 & Hk3). unfold at_goal, G6. unfold next.
  destruct (at_ s t) as [got|got|got sent own| |i acc|acc|i acc| |acc|i acc|acc|acc|i|i| |i|]; try done; try (specialize (Hps i acc Ht (proj1 HI) eq_refl)); try (specialize (Hpr i Ht HI eq_refl)); try (left; split_and!; done || lia); right; repeat ifs;
    try (left; split_and!; done || lia); try (right; rks); try congruence; try lia; exfalso; intuition congruence.
Qed.
Lemma step6 s x : I6 s -> I6 (step swap n s x).
Proof. apply reached_step; [apply I5_calm|apply step5|apply next6|intros ? ? ? (? & ?); done]. Qed.
Lemma reach6 s rounds : I5 s -> Forall (fair n) rounds -> (10 * n + 30 < length rounds)%nat -> I6 (exec swap n s (concat rounds)).
Proof. intros HC Hf Hl. apply (reach I5 G6 (rk (n + 2))) with (b := (10 * n + 30)%nat); try done; [apply I5_calm|apply step5|apply next6|apply near6|intros; rks|apply rk_bound]. Qed.

Lemma I6_calm s : I6 s -> calm s.
Proof. intros [? _]. by apply I5_calm. Qed.
Lemma next7 s t : (t < n)%nat -> I6 s -> at_goal G7 s t -> let '(p, v, w) := next s t (at_ s t) in G7 p v w.
Proof. intros Ht HI HG. unfold at_goal, G7 in *. rewrite HG. done. Qed.
Lemma near7 s t : (t < n)%nat -> I6 s -> at_goal G7 s t \/ let '(p, v, w) := next s t (at_ s t) in G7 p v w \/ (rk 0 p < rk 0 (at_ s t))%nat.
Proof.
  intros Ht HI. pose proof (past_views s t Ht (proj1 (proj1 (proj1 HI)))) as Hpv. pose proof (past_seen s t) as Hps. pose proof (past_ready s t) as Hpr. pose proof (m_shape _ (I6_calm _ HI) t Ht) as [_ Hw].
  pose proof (proj1 (m_quiet _ (I6_calm _ HI) t Ht)) as Hi. destruct (proj2 (proj1 (proj1 HI)) t Ht) as (Hk0 & Hk1 & Hk2). destruct (proj2 (proj1 HI) t Ht) as (Hk4 & Hk3). destruct (proj2 HI t Ht) as (Hk5 & Hk6).
  assert (Hpf : forall i, at_ s t = KFinals i -> vote s i = 3) by (intros i E; rewrite E in Hw; apply (proj2 HI i (proj1 Hw))). unfold at_goal, G7. unfold next.
  destruct (at_ s t) as [got|got|got sent own| |i acc|acc|i acc| |acc|i acc|acc|acc|i|i| |i|]; try done; try (by left); try (specialize (Hps i acc Ht (proj1 (proj1 HI)) eq_refl)); try (specialize (Hpr i Ht (proj1 HI) eq_refl)); try (specialize (Hpf i eq_refl)); right; repeat ifs;
    try (by left); try (right; rks); try congruence; try lia; exfalso; intuition congruence.
Qed.
Lemma reach7 s rounds : I6 s -> Forall (fair n) rounds -> (10 * n + 30 < length rounds)%nat -> I7 (exec swap n s (concat rounds)).
Proof. intros HC Hf Hl. apply (reach I6 G7 (rk 0)) with (b := (10 * n + 30)%nat); try done; [apply I6_calm|apply step6|apply next7|apply near7|intros; rks|apply rk_bound]. Qed.

Definition leads (b : nat) (P Q : st -> Prop) : Prop :=
  forall s rounds, P s -> Forall (fair n) rounds -> (b <= length rounds)%nat -> Q (exec swap n s (concat rounds)).
Lemma leads_trans b c P Q R : leads b P Q -> leads c Q R -> leads (b + c) P R.
Proof.
  intros H1 H2 s rounds HP Hf Hl. rewrite <- (firstn_skipn b rounds) in Hf |- *. apply List.Forall_app in Hf. destruct Hf as [Hf1 Hf2].
  rewrite concat_app. unfold exec. rewrite fold_left_app. apply (H2 (exec swap n s (concat (firstn b rounds)))).
  - apply H1; try done. rewrite firstn_length. lia.
  - done.
  - rewrite skipn_length. lia.
Qed.
Lemma calm_leaves : leads (6 * (10 * n + 31)) calm (fun s => forall t, (t < n)%nat -> at_ s t = Done).
Proof.
  set (b := (10 * n + 31)%nat). replace (6 * b)%nat with (b + (b + (b + (b + (b + b)))))%nat by lia.
  apply (leads_trans b _ calm I2); [intros s rounds ? ? ?; apply reach2; auto; lia|].
  apply (leads_trans b _ I2 I3); [intros s rounds ? ? ?; apply reach3; auto; lia|].
  apply (leads_trans b _ I3 I4); [intros s rounds ? ? ?; apply reach4; auto; lia|].
  apply (leads_trans b _ I4 I5); [intros s rounds ? ? ?; apply reach5; auto; lia|].
  apply (leads_trans b _ I5 I6); [intros s rounds ? ? ?; apply reach6; auto; lia|].
  intros s rounds HI Hf Hl t Ht. destruct (reach7 s rounds HI Hf ltac:(lia)) as [_ H]. by apply H.
Qed.
End calm.

(** Where the threads can be, when no early yes is said. *)
Section reach.
Context (swap : bool) (n : nat).
Definition sound (s : st) : Prop := shape n s /\
  ((exists E conf, inv swap n s E conf /\ forall t, (t < n)%nat -> vote s t <= 1) \/ exists D, calm swap n D s).
Definition careful (s : st) (x : nat * choice) : Prop := forall i acc, at_ s (fst x) = KSeen i acc -> forall a, at_ s i <> KReset a.
Lemma over_calm s : shape n s -> over n s -> (forall t, (t < n)%nat -> vote s t <= 1) -> exists D, calm swap n D s.
Proof.
  intros Hs [Hq He] Hv. exists (data s). constructor; [done| |done|].
  - intros t Ht. split; [by apply He|done].
  - intros t Ht H. specialize (Hv t Ht). lia.
Qed.
Lemma sound_step s x : sound s -> (swap = true \/ careful s x) -> sound (step swap n s x).
Proof.
  intros [Hs HJ] Hc. split; [by apply shape_step|]. destruct HJ as [(E & conf & HI & Hv)|[D HC]]; [|right; exists D; by apply calm_step].
  assert (Hv' : forall t, (t < n)%nat -> vote (step swap n s x) t <= 1).
  { intros t Ht. destruct x as [u c]. destruct (decide (t = u)) as [<-|Hne]; [|destruct (other_thread swap n s u c t Hne) as (_ & _ & -> & _); by apply Hv].
    specialize (Hv t Ht). pose proof (i_pc _ _ _ _ _ HI t Ht) as Hp. unfold pcok in Hp. unfold step. cbn [fst snd]. destruct (Nat.ltb_spec t n) as [_|]; [|done].
    unfold go, received. destruct (at_ s t); try done; destruct c; try done; cbv zeta; repeat ifs; cbn; fs; try done; lia. }
  destruct x as [u c]. revert Hv'. pose proof (shape_step swap n s (u, c) Hs) as Hs'. revert Hs'. unfold step. cbn [fst snd]. destruct (Nat.ltb_spec u n) as [Hu|]; [|intros; left; by exists E, conf].
  intros Hs' Hv'. destruct (step_inv swap n s E conf u c HI Hu) as [(E' & conf' & HI')|Ho].
  - destruct Hc as [?|Hc]; [by left|right]. intros i acc Ha [_ Htn]. specialize (Hc i acc Ha). cbn [fst] in Hc. destruct (at_ s i); try done. by apply (Hc acc0).
  - left. by exists E', conf'.
  - right. by apply over_calm.
Qed.
Lemma sound_start own q c : sound (start own q c).
Proof.
  assert (Hs : shape n (start own q c)) by (intros t Ht; split; cbn; [lia|done]). split; [done|].
  destruct (inv_start swap n own q c) as [HI|Ho]; [left; eexists _, _; split; [done|cbn; lia]|right]. by apply over_calm.
Qed.
Lemma sound_exec l : forall s, sound s -> (swap = true \/ tidy swap n s l) -> sound (exec swap n s l).
Proof.
  induction l as [|x l IH]; intros s Hs Ht; [done|]. cbn [exec fold_left]. apply IH.
  - apply sound_step; [done|]. destruct Ht as [?|[? _]]; [by left|by right].
  - destruct Ht as [?|[_ ?]]; [by left|by right].
Qed.
Lemma tidy_app l1 l2 : forall s, tidy swap n s (l1 ++ l2) <-> tidy swap n s l1 /\ tidy swap n (exec swap n s l1) l2.
Proof. induction l1 as [|x l1 IH]; intros s; cbn; [naive_solver|]. rewrite IH. unfold exec. naive_solver. Qed.

Definition I1 (s : st) : Prop := sound s /\ quiet n s.
Definition r1 (p : pc) : nat := match p with K0 => 0 | Recv _ => 1 | Look _ => 2 | _ => d n p + 3 end.
Definition G1 (s : st) (t : nat) : Prop := cnt s t = data s t.
Lemma G1_step s x t : (t < n)%nat -> I1 s -> G1 s t -> G1 (step swap n s x) t.
Proof.
  intros Ht [_ Hq] HG. destruct x as [u c]. unfold G1 in *. destruct (decide (t = u)) as [<-|Hne]; [|destruct (other_thread swap n s u c t Hne) as (_ & _ & _ & -> & -> & _); done].
  unfold step. cbn [fst snd]. destruct (Nat.ltb_spec t n) as [_|]; [|done]. destruct (Hq t Ht) as (Hi & Hz & Ho). unfold go, received.
  destruct (at_ s t); try discriminate Hi; destruct c; try done; cbv zeta; rewrite ?Hz, ?Ho; repeat ifs; cbn; fs; done.
Qed.
Lemma is_done (p : pc) : p = Done \/ p <> Done.
Proof. destruct p; try (right; discriminate); by left. Qed.
Lemma near1 s t : (t < n)%nat -> I1 s -> G1 s t \/ G1 (step swap n s (t, Go)) t \/ (r1 (at_ (step swap n s (t, Go)) t) < r1 (at_ s t))%nat.
Proof.
  intros Ht [[Hs HJ] Hq]. destruct (Hq t Ht) as (Hi & Hz & Ho). pose proof (Hs t Ht) as [_ Hw].
  destruct (is_done (at_ s t)) as [Hd|Hd].
  { left. destruct HJ as [(E & conf & HI & _)|[D HC]]; [|unfold G1; by destruct (m_sum _ _ _ _ HC t Ht) as [-> ->]].
    pose proof (i_pc _ _ _ _ _ HI t Ht) as Hp. unfold pcok in Hp. by rewrite Hd in Hp. }
  right. unfold G1, step. cbn [fst snd]. destruct (Nat.ltb_spec t n) as [_|]; [|lia]. unfold go, received.
  destruct (at_ s t) as [got|got|got sent own| |i acc|acc|i acc| |acc|i acc|acc|acc|i|i| |i|] eqn:E; try discriminate Hi; cbn [idle] in Hi; rewrite ?N.eqb_eq in Hi; subst; rewrite ?Hz, ?Ho; cbv zeta; repeat ifs; cbn; fs; try (by left); try (right; unfold r1, d; lia); done.
Qed.
Lemma near1' s c t : (t < n)%nat -> I1 s -> G1 s t \/ G1 (step swap n s (t, c)) t \/ (r1 (at_ (step swap n s (t, c)) t) <= r1 (at_ s t))%nat.
Proof.
  intros Ht HI. destruct (is_go c) as [->|Hc]; [destruct (near1 s t Ht HI) as [?|[?|?]]; [by left|right; by left|right; right; lia]|].
  destruct HI as [_ Hq]. destruct (Hq t Ht) as (Hi & Hz & Ho). right; right. unfold step. cbn [fst snd]. destruct (Nat.ltb_spec t n) as [_|]; [|lia]. unfold go, received.
  destruct (at_ s t) as [got|got|got sent own| |i acc|acc|i acc| |acc|i acc|acc|acc|i|i| |i|] eqn:E; try discriminate Hi; cbn [idle] in Hi; rewrite ?N.eqb_eq in Hi; subst; destruct c; try done; rewrite ?Ho; cbn; fs; rewrite ?E; cbn; lia.
Qed.
Lemma I1_along s l : I1 s -> (swap = true \/ tidy swap n s l) -> along swap n I1 s l.
Proof.
  intros [Hs Hq] Ht pre post ->. split.
  - apply sound_exec; [done|]. destruct Ht as [?|Ht]; [by left|right]. by apply tidy_app in Ht as [? _].
  - clear Ht Hs post. revert s Hq. induction pre as [|x pre IH]; intros s Hq; [done|]. cbn [exec fold_left]. by apply IH, quiet_step.
Qed.
Lemma all_leave s rounds : sound s -> quiet n s -> Forall (fair n) rounds -> (7 * (10 * n + 31) <= length rounds)%nat -> (swap = true \/ tidy swap n s (concat rounds)) ->
  forall t, (t < n)%nat -> at_ (exec swap n s (concat rounds)) t = Done.
Proof.
  intros Hs Hq Hf Hl Ht. set (b := (10 * n + 31)%nat) in *. rewrite <- (firstn_skipn b rounds) in Hf, Ht |- *. apply List.Forall_app in Hf. destruct Hf as [Hf1 Hf2].
  rewrite concat_app in *. set (l1 := concat (firstn b rounds)) in *. set (s1 := exec swap n s l1).
  assert (Ha : along swap n I1 s l1).
  { apply I1_along; [done|]. destruct Ht as [?|Ht]; [by left|right]. by apply tidy_app in Ht as [? _]. }
  assert (HI1 : I1 s1) by (apply (Ha l1 []); by rewrite app_nil_r).
  assert (HG1 : forall t, (t < n)%nat -> cnt s1 t = data s1 t).
  { apply (phase swap n I1 G1 (fun s t => r1 (at_ s t)) G1_step) with (b := (10 * n + 30)%nat); try done.
    - intros s' u c t _ Hne _. by destruct (other_thread swap n s' u c t Hne) as (-> & _).
    - intros. by apply near1'.
    - intros. by apply near1.
    - intros t _. unfold r1. destruct (at_ s t); cbn [d]; lia.
    - rewrite firstn_length. lia. }
  assert (exists D, calm swap n D s1) as [D HC].
  { destruct HI1 as [[Hsh [(E & conf & HI & Hv)|?]] Hq1]; [|done]. apply over_calm; try done. }
  assert (exec swap n s (l1 ++ concat (skipn b rounds)) = exec swap n s1 (concat (skipn b rounds))) as -> by (unfold s1, exec; by rewrite fold_left_app).
  intros t Hlt. apply (calm_leaves swap n D s1); try done. rewrite skipn_length. lia.
Qed.
End reach.
