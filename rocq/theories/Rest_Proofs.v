(** When only what is there is worked off (no changes to the graph, no initial mail), does the engine come to rest? *)
From Verif Require Import Base Engine_Spec Engine_Model Engine_Proofs Engine_Props Rest_Spec.
Open Scope nat_scope.

Section rest.
Context (a : alg) (owner : nat -> nat) (n : nat).
Notation est := (est a).
Notation estep := (estep a owner).
Notation choice := (choice a).
Definition acts : list choice := [Run; Pop].

(** A step that does something. *)
Definition can (s : est) (t : nat) (c : choice) : bool :=
  match c, todo s t, queue s t with
  | Run, _ :: _, _ => true
  | Pop, [], _ :: _ => true
  | _, _, _ => false
  end.
Lemma cannot s t c : c ∈ acts -> can s t c = false -> estep s t c = s.
Proof.
  unfold acts, can, Engine_Model.estep. rewrite !elem_of_cons, elem_of_nil. intros [->|[->|[]]]; destruct (todo s t); try done; by destruct (queue s t).
Qed.
Fixpoint count (s : est) (l : list (nat * choice)) : nat :=
  match l with [] => 0 | (t, c) :: l => (if can s t c then 1 else 0) + count (estep s t c) l end.
Lemma count_app s l l' : count s (l ++ l') = count s l + count (erun a owner s l) l'.
Proof. revert s. induction l as [|[t c] l IH]; intros s; simpl; [done|]. rewrite IH. unfold erun. simpl. lia. Qed.
Lemma erun_app s l l' : erun a owner s (l ++ l') = erun a owner (erun a owner s l) l'.
Proof. unfold erun. by rewrite fold_left_app. Qed.
Lemma count_zero s l : (forall t c, (t, c) ∈ l -> c ∈ acts) -> count s l = 0 -> erun a owner s l = s /\ forall t c, (t, c) ∈ l -> can s t c = false.
Proof.
  revert s. induction l as [|[t c] l IH]; intros s Ha H; simpl in *; [split; [done|]; intros t c Hin; by apply elem_of_nil in Hin|].
  destruct (can s t c) eqn:Ec; [lia|]. assert (Es : estep s t c = s) by (apply cannot; [apply (Ha t c), elem_of_list_here|done]).
  rewrite Es in *. destruct (IH s) as [H1 H2]; [intros; by apply (Ha t0 c0), elem_of_list_further|done|].
  split; [done|]. intros t' c' Hin. apply elem_of_cons in Hin as [[= -> ->]|Hin]; eauto.
Qed.

(** No thread beyond [n] has anything to do. *)
Definition threads (s : est) : Prop := forall t, n <= t -> todo s t = [] /\ queue s t = [].
Lemma idle_round s l : threads s -> round acts n l -> count s l = 0 -> idle s /\ erun a owner s l = s.
Proof.
  intros HT [H1 H2] Hc. destruct (count_zero s l H1 Hc) as [H3 H4]. split; [|done]. intros t. destruct (decide (t < n)) as [Ht|Ht]; [|apply HT; lia].
  pose proof (H4 t Run (H2 t Run Ht ltac:(unfold acts; by apply elem_of_list_here))) as C1.
  pose proof (H4 t Pop (H2 t Pop Ht ltac:(unfold acts; apply elem_of_list_further, elem_of_list_here))) as C2.
  unfold can in C1, C2. destruct (todo s t); [|done]. by destruct (queue s t).
Qed.
Lemma idle_stays s l : idle s -> (forall t c, (t, c) ∈ l -> c ∈ acts) -> erun a owner s l = s.
Proof.
  intros Hi. induction l as [|[t c] l IH]; intros Ha; [done|]. unfold erun in *. simpl. rewrite cannot; [apply IH; intros; by apply (Ha t0 c0), elem_of_list_further|by apply (Ha t c), elem_of_list_here|].
  unfold can. destruct (Hi t) as [-> ->]. by destruct c.
Qed.

(** It is enough that every step that does something leads down in some well-founded sense, among the states
    that satisfy an invariant. *)
Context (inv : est -> Prop) (inv_threads : forall s, inv s -> threads s)
  (inv_step : forall s t c, inv s -> c ∈ acts -> inv (estep s t c)).
Definition next (s' s : est) : Prop := exists t c, inv s /\ c ∈ acts /\ can s t c = true /\ s' = estep s t c.
(** Only so many steps that do something. *)
Definition finite (s : est) : Prop := exists B, forall l, (forall t c, (t, c) ∈ l -> c ∈ acts) -> count s l <= B.
Lemma bounded s : Acc next s -> inv s -> finite s.
Proof.
  induction 1 as [s _ IH]. intros Hs.
  assert (G : forall k, k <= n -> exists B, forall t c, t < k -> c ∈ acts -> can s t c = true -> forall l, (forall t c, (t, c) ∈ l -> c ∈ acts) -> count (estep s t c) l <= B).
  { induction k as [|k IHk]; intros Hk; [exists 0; intros; lia|]. destruct IHk as (B & HB); [lia|].
    assert (X : forall c, c ∈ acts -> exists B, can s k c = true -> forall l, (forall t c, (t, c) ∈ l -> c ∈ acts) -> count (estep s k c) l <= B).
    { intros c Hc. destruct (can s k c) eqn:Ec; [|by exists 0]. destruct (IH (estep s k c)) as (B' & HB'); [by exists k, c|by apply inv_step|]. by exists B'. }
    destruct (X Run) as (B1 & H1); [apply elem_of_list_here|]. destruct (X Pop) as (B2 & H2); [apply elem_of_list_further, elem_of_list_here|].
    exists (B + B1 + B2). intros t c Ht Hc Hcan l Hl. destruct (decide (t = k)) as [->|Hne].
    - unfold acts in Hc. rewrite !elem_of_cons, elem_of_nil in Hc. destruct Hc as [->|[->|[]]]; [pose proof (H1 Hcan l Hl)|pose proof (H2 Hcan l Hl)]; lia.
    - pose proof (HB t c ltac:(lia) Hc Hcan l Hl). lia. }
  destruct (G n ltac:(lia)) as (B & HB). exists (S B). induction l as [|[t c] l IHl]; intros Hl; simpl; [lia|].
  assert (Hc : c ∈ acts) by (apply (Hl t c), elem_of_list_here). assert (Hl' : forall t c, (t, c) ∈ l -> c ∈ acts) by (intros; by apply (Hl t0 c0), elem_of_list_further).
  destruct (can s t c) eqn:Ec; [|rewrite cannot by done; by apply IHl].
  assert (Ht : t < n). { destruct (decide (t < n)) as [|Ht]; [done|]. destruct (inv_threads s Hs t ltac:(lia)) as [E1 E2]. unfold can in Ec. rewrite E1, E2 in Ec. by destruct c. }
  pose proof (HB t c Ht Hc Ec l Hl'). lia.
Qed.
Lemma inv_run s l : inv s -> (forall t c, (t, c) ∈ l -> c ∈ acts) -> inv (erun a owner s l).
Proof.
  revert s. induction l as [|[t c] l IH]; intros s Hs Hl; [done|]. unfold erun in *. simpl. apply IH; [|intros; by apply (Hl t0 c0), elem_of_list_further].
  apply inv_step; [done|]. by apply (Hl t c), elem_of_list_here.
Qed.
Lemma settles_bound s B : inv s -> (forall l, (forall t c, (t, c) ∈ l -> c ∈ acts) -> count s l <= B) -> settles (erun a owner) acts n idle s.
Proof.
  intros Hs HB. exists (S B). intros rounds. revert s B Hs HB. induction rounds as [|r rounds IH]; intros s B Hs HB HF Hlen; [simpl in Hlen; lia|].
  apply list.Forall_cons in HF as [Hr HF]. cbn [concat]. rewrite erun_app.
  assert (HC : forall t c, (t, c) ∈ concat rounds -> c ∈ acts).
  { intros t c Hin. apply elem_of_list_In, in_concat in Hin as (r' & Hr' & Hin). rewrite list.Forall_forall in HF. apply (HF r') with t; by apply elem_of_list_In. }
  destruct (decide (count s r = 0)) as [E|E].
  - destruct (idle_round s r (inv_threads s Hs) Hr E) as [Hi ->]. by rewrite (idle_stays s _ Hi HC).
  - simpl in Hlen. destruct B as [|B]; [pose proof (HB r (proj1 Hr)); lia|]. apply (IH _ B); [apply inv_run; [done|apply Hr]| |done|lia].
    intros l Hl. pose proof (HB (r ++ l)) as H. rewrite count_app in H. enough (count s r + count (erun a owner s r) l <= S B) by lia.
    apply H. intros t c Hin. apply elem_of_app in Hin as [Hin|Hin]; [by apply Hr in Hin|by apply Hl in Hin].
Qed.
Theorem settles_acc s : inv s -> Acc next s -> finite s /\ settles (erun a owner) acts n idle s.
Proof. intros Hs HA. pose proof (bounded s HA Hs) as HF. split; [done|]. destruct HF as (B & HB). by apply (settles_bound s B). Qed.
End rest.

(** Rounds do not change the graph. *)
Lemma engine_edges {a} owner (s : est a) t c : c ∈ acts a -> edges (estep a owner s t c) = edges s.
Proof.
  unfold acts. rewrite !elem_of_cons, elem_of_nil. intros [->|[->|[]]]; unfold estep.
  - destruct (todo s t) as [|o rest]; [done|]. unfold exec_op. destruct o as [v d m|d|d|v|v k|v k i got|l|v m]; try done.
    + by destruct (merge a m v d (box s d)).
    + by destruct (act s d =? 0).
    + destruct (box s v !! i); [by destruct (take a c)|]. by destruct (react a v k (prop s v) (edges s v) got) as [[p ms] ms'].
    + by destruct (merge a m v v (box s v)).
  - destruct (todo s t); [|done]. by destruct (queue s t).
Qed.
Lemma acts_run_edges {a} owner (s : est a) l : (forall t c, (t, c) ∈ l -> c ∈ acts a) -> edges (erun a owner s l) = edges s.
Proof.
  revert s. induction l as [|[t c] l IH]; intros s Hl; [done|]. unfold erun in *. cbn [fold_left]. rewrite IH by (intros; by apply (Hl t0 c0), elem_of_list_further).
  apply engine_edges. by apply (Hl t c), elem_of_list_here.
Qed.
Lemma rounds_acts {a} n (rounds : list (list (nat * choice a))) t c : Forall (round (acts a) n) rounds -> (t, c) ∈ concat rounds -> c ∈ acts a.
Proof.
  intros HF Hin. apply elem_of_list_In, in_concat in Hin as (r' & Hr' & Hin). rewrite list.Forall_forall in HF. apply (HF r') with t; by apply elem_of_list_In.
Qed.

