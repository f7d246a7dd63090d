(** Super-steps: the barrier together with the termination check. *)
From Verif Require Import Base Term_Model Term_Proofs Term_All SStep_Model.
Open Scope nat_scope.

(** What the termination check keeps between two resets. *)
Definition good (swap : bool) (n : nat) (s : st) : Prop := base swap n s /\ forall D, within n D s -> emptied n D s.
Lemma good_start swap n own q c : 0 < n -> good swap n (start own q c).
Proof. intros Hn. split; [by apply base_start|]. intros D _ t Ht _ []. Qed.
Lemma good_step swap n s x : good swap n s -> good swap n (step swap n s x).
Proof.
  intros [HB HE]. split; [by apply base_step|]. intros D HW.
  assert (W0 : within n D s). { intros t Ht. etransitivity; [by apply (low_step swap n s x)|by apply HW]. }
  apply (emptied_step swap n D s x); try done. by apply HE.
Qed.
Lemma good_quiet swap n s : good swap n s -> (forall t, t < n -> at_ s t = Done) ->
  quiet n s /\ (forall t, t < n -> view s t = sumf (cnt s) n) /\ (forall t, t < n -> data s t = cnt s t).
Proof.
  intros [HB HE] Hall. pose proof (all_views swap n s HB Hall) as Hv. split_and!; [|done|].
  - intros t Ht. split_and!.
    + by rewrite Hall.
    + apply (HE (cnt s)); [by apply all_within|done|by apply Hv|by rewrite Hall].
    + apply (b_chk _ _ _ HB t Ht). by rewrite Hall.
  - intros t Ht. apply (b_chk _ _ _ HB t Ht). by rewrite Hall.
Qed.

(** The same state with the threads at other places. *)
Definition lift (s : st) (f : nat -> pc) : st := St f (open_ s) (queue s) (cnt s) (data s) (view s) (vote s).
Lemma go_lift swap n s f t c : f t = at_ s t -> exists f', go swap n (lift s f) t c = lift (go swap n s t c) f' /\
  f' t = at_ (go swap n s t c) t /\ (forall j, j <> t -> f' j = f j) /\ (forall j, j <> t -> at_ (go swap n s t c) j = at_ s j).
Proof.
  intros E.
  assert (Hno : forall x, x = s -> exists f', lift s f = lift x f' /\ f' t = at_ x t /\ (forall j, j <> t -> f' j = f j) /\ (forall j, j <> t -> at_ x j = at_ s j)).
  { intros x ->. by exists f. }
  assert (Hpc : forall s1 p, at_ s1 = at_ s -> exists f', at_pc (lift s1 f) t p = lift (at_pc s1 t p) f' /\ f' t = at_ (at_pc s1 t p) t /\
    (forall j, j <> t -> f' j = f j) /\ (forall j, j <> t -> at_ (at_pc s1 t p) j = at_ s j)).
  { intros s1 p H. exists (fset f t p). cbn. rewrite H. split_and!; [done|by rewrite !fset_eq|by intros; rewrite fset_ne..]. }
  unfold go, received. cbn [lift at_ open_ queue cnt data view vote]. rewrite E.
  destruct (at_ s t) as [got|got|got sent own| |i acc|acc|i acc| |acc|i acc|acc|acc|i|i| |i|]; destruct c; try (by apply Hno); cbv zeta;
    repeat match goal with |- context [if ?b then _ else _] => destruct b end; try (by apply Hno); 
    first [by apply (Hpc s) | by apply (Hpc (set_open s t _)) | by apply (Hpc (set_queue s _ _)) | by apply (Hpc (set_cnt s t _)) | by apply (Hpc (set_data s t _))
      | by apply (Hpc (set_view s t _)) | by apply (Hpc (set_vote s t _)) | by apply (Hpc (set_open (set_cnt s t _) t _)) | idtac].
Qed.

(** What a step of thread [t] leaves alone. *)
Lemma go_vote swap n s t c j : j <> t -> vote (go swap n s t c) j = vote s j.
Proof.
  intros H. unfold go, received. destruct (at_ s t); destruct c; try done; cbv zeta; repeat case_match; cbn; fs; try done; by rewrite ?fset_ne.
Qed.

(** Counting threads. *)
Fixpoint num (p : nat -> bool) (k : nat) : nat := match k with O => 0 | S k => num p k + (if p k then 1 else 0) end.
Lemma num_ext p p' k : (forall j, j < k -> p j = p' j) -> num p k = num p' k.
Proof. induction k as [|k IH]; intros H; cbn; [done|]. rewrite IH, H by (intros; auto with lia). done. Qed.
Lemma num_one p p' k t : t < k -> p t = false -> p' t = true -> (forall j, j < k -> j <> t -> p' j = p j) -> num p' k = S (num p k).
Proof.
  induction k as [|k IH]; intros Ht H1 H2 H; [lia|]. cbn. destruct (decide (t = k)) as [->|Hne].
  - rewrite H1, H2, (num_ext p' p k) by (intros; apply H; lia). lia.
  - rewrite (H k), IH; [lia|lia|done|done|intros; apply H; lia|lia|lia].
Qed.
Lemma num_none p k : num p k = 0 -> forall j, j < k -> p j = false.
Proof. induction k as [|k IH]; intros H j Hj; [lia|]. cbn in H. destruct (p k) eqn:E; [lia|]. destruct (decide (j = k)) as [->|]; [done|]. apply IH; lia. Qed.
Lemma num_zero p k : (forall j, j < k -> p j = false) -> num p k = 0.
Proof. intros H. rewrite (num_ext p (fun _ => false) k H). clear. induction k as [|k IH]; cbn; lia. Qed.
Lemma num_le p k : num p k <= k.
Proof. induction k as [|k IH]; cbn; [lia|]. destruct (p k); lia. Qed.
Lemma num_lt p n : p 0 = false -> 0 < n -> num p n < n.
Proof.
  intros H0 Hn. induction n as [|n IH]; [lia|]. cbn. destruct n as [|n]; [cbn; rewrite H0; lia|].
  pose proof (IH ltac:(lia)). destruct (p (S n)); lia.
Qed.
Lemma num_most p n : p 0 = false -> n <= S (num p n) -> forall j, 0 < j < n -> p j = true.
Proof.
  intros H0. induction n as [|n IH]; intros H j Hj; [lia|]. cbn in H. destruct (decide (j = n)) as [->|Hne].
  - destruct (p n) eqn:E; [done|]. exfalso. destruct n as [|n]; [lia|]. 
    assert (Hle : num p (S n) <= n); [|lia]. clear -H0. induction n as [|n IH]; [cbn; rewrite H0; lia|]. change (num p (S (S n))) with (num p (S n) + if p (S n) then 1 else 0). destruct (p (S n)); lia.
  - apply IH; [|lia]. destruct (p n); lia.
Qed.
Lemma num_all p n : p 0 = false -> (forall j, 0 < j < n -> p j = true) -> 0 < n -> S (num p n) = n.
Proof.
  intros H0 H Hn. induction n as [|n IH]; [lia|]. cbn. destruct n as [|n]; [cbn; by rewrite H0|].
  rewrite (H (S n)) by lia. rewrite Nat.add_1_r. f_equal. apply IH; [|lia]. intros; apply H; lia.
Qed.
Lemma num_pos p k j : j < k -> p j = true -> 0 < num p k.
Proof. induction k as [|k IH]; intros Hj E; [lia|]. cbn. destruct (decide (j = k)) as [->|]; [rewrite E; lia|]. pose proof (IH ltac:(lia) E). lia. Qed.

Lemma num_find p n : (exists j, 0 < j < n /\ p j = false) \/ forall j, 0 < j < n -> p j = true.
Proof.
  induction n as [|n IH]; [right; lia|]. destruct IH as [(j & Hj & H)|H]; [left; exists j; split; [lia|done]|].
  destruct (decide (n = 0)) as [->|Hn]; [right; lia|].
  destruct (p n) eqn:E; [|left; exists n; split; [lia|done]]. right. intros j Hj. destruct (decide (j = n)) as [->|]; [done|]. apply H. lia.
Qed.

Section sstep.
Context (swap : bool) (n : nat) (Hn : 0 < n).
Notation srun := (srun swap n).
Notation sstep := (sstep swap n).

(** The check that follows a reset cannot return true: the vote starts at 0. *)
Definition first (p : pc) (v : N) : Prop :=
  match p with
  | K0 | KSum _ _ | KReset _ | KViews _ _ | KUnvote | KVote _ => v = 0%N
  | KSeen _ _ | KBack _ | KReady _ => v = 1%N
  | _ => False
  end.
Lemma first_go s t : first (at_ s t) (vote s t) -> let x := go swap n s t Go in back (at_ x t) = true \/ first (at_ x t) (vote x t).
Proof.
  intros Hr x. unfold x, go. clear x. destruct (at_ s t) as [got|got|got sent own| |i acc|acc|i acc| |acc|i acc|acc|acc|i|i| |i|] eqn:Ea; cbn in Hr; try done; cbv zeta; cbn -[Nat.ltb].
  - right. by rewrite !fset_eq.
  - destruct (S i <? n); [right; cbn; by rewrite fset_eq|]. destruct (view s t =? _)%N; [right; cbn; by rewrite fset_eq|].
    right. cbn. destruct swap; cbn; by rewrite !fset_eq.
  - left. by rewrite fset_eq.
  - rewrite fset_eq. destruct (view s i =? acc)%N; [|by right]. destruct (S i <? n); by right.
  - left. by rewrite fset_eq.
  - right. rewrite fset_eq, Hr. cbn. by rewrite fset_eq.
  - rewrite fset_eq. destruct (vote s i =? 0)%N; [by right|]. destruct (S i <? n); by right.
  - left. by rewrite fset_eq.
  - left. rewrite Hr. cbn. by rewrite fset_eq.
Qed.
Definition asleep (p : phase) : bool := match p with Asleep => true | _ => false end.
Definition taken (p : phase) : nat := match p with Collect i => i - 1 | _ => 0 end.
Definition unfreed (p : phase) : nat := match p with Free i => n - i | _ => 0 end.

(** Running: [P] are the threads that have not been freed yet, after a super-step that sent something. *)
Record running (s : sst) (P : nat -> bool) (f : nat -> pc) : Prop := Running {
  r_good : good swap n (lift (trm s) f);
  r_f : forall t, f t = if P t then K0 else at_ (trm s) t;
  r_pend : forall t, t < n -> P t = true -> vote (trm s) t = 0%N /\ (t <> 0 -> ph s t = Asleep) /\ (t = 0 -> exists i, 1 <= i <= n /\ ph s 0 = Free i);
  r_ph : forall t, t < n -> P t = false ->
    match ph s t with
    | Loop => True
    | Last => first (at_ (trm s) t) (vote (trm s) t)
    | Asleep => t <> 0 /\ at_ (trm s) t = Done
    | Collect i => t = 0 /\ 1 <= i <= n /\ at_ (trm s) t = Done
    | _ => False
    end;
  r_seen : forall t, t < n -> P t = false ->
    match at_ (trm s) t with KFinals i => i < n /\ vote (trm s) t = 3%N /\ forall k, k < i -> P k = false | Done => vote (trm s) t = 3%N /\ forall k, k < n -> P k = false | _ => True end;
  r_dn : dn s + taken (ph s 0) = num (fun j => negb (j =? 0) && asleep (ph s j) && negb (P j)) n;
  r_rs : rs s + unfreed (ph s 0) = num (fun j => negb (j =? 0) && P j) n }.

(** A super-step: all others are asleep. *)
Record alone (s : sst) : Prop := Alone_ {
  a_ph : forall t, 0 < t < n -> ph s t = Asleep;
  a_at : forall t, t < n -> at_ (trm s) t = Done;
  a_open : forall t, t < n -> open_ (trm s) t = false;
  a_dn : dn s = 0; a_rs : rs s = 0 }.
Record stepping (s : sst) (k : N) : Prop := Stepping {
  s_alone : alone s;
  s_ph : ph s 0 = Super k;
  s_vote : forall t, t < n -> vote (trm s) t = 3%N;
  s_data : forall t, t < n -> data (trm s) t = cnt (trm s) t;
  s_view : forall t, t < n -> view (trm s) t = sumf (cnt (trm s)) n;
  s_queue : sumf (queue (trm s)) n = k }.
Record wiping (s : sst) (i j : nat) : Prop := Wiping {
  w_alone : alone s;
  w_ph : ph s 0 = Wipe i j;
  w_i : i <= n; w_j : j <= 2;
  w_cnt : (0 < sumf (cnt (trm s)) n)%N;
  w_vote : forall t, t < n -> t < i \/ (t = i /\ 0 < j) -> vote (trm s) t = 0%N;
  w_view : forall t, t < n -> t < i \/ (t = i /\ 1 < j) -> view (trm s) t = 0%N;
  w_data : forall t, t < n -> t < i -> data (trm s) t = 0%N }.

(** The last check, when the super-step sent nothing. *)
Definition ending_at (s : st) (p : pc) : Prop :=
  let all := sumf (cnt s) n in
  match p with
  | K0 | KFinal | Done => True
  | KSum i acc => i < n /\ acc = sumf (cnt s) i
  | KViews i acc | KSeen i acc => i < n /\ acc = all
  | KVote acc | KReady acc => acc = all
  | KReadys i | KFinals i => i < n
  | _ => False
  end.
Record ending (s : sst) : Prop := Ending {
  e_vote : forall t, t < n -> vote (trm s) t = 3%N;
  e_data : forall t, t < n -> data (trm s) t = cnt (trm s) t;
  e_view : forall t, t < n -> view (trm s) t = sumf (cnt (trm s)) n;
  e_queue : forall t, t < n -> queue (trm s) t = 0%N;
  e_open : forall t, t < n -> open_ (trm s) t = false;
  e_ph : forall t, t < n ->
    match ph s t with
    | Asleep => t <> 0
    | Free i => t = 0 /\ 1 <= i <= n
    | Last => ending_at (trm s) (at_ (trm s) t)
    | Out => True
    | _ => False
    end;
  e_at : forall t, t < n -> idle (at_ (trm s) t) = true;
  e_rs : rs s + unfreed (ph s 0) = num (fun j => negb (j =? 0) && asleep (ph s j)) n }.

Definition sinv (s : sst) : Prop :=
  (exists P f, running s P f) \/ (exists k, stepping s k) \/ (exists i j, wiping s i j) \/ ending s.

Lemma sinv_start own q c : sinv (sstart own q c).
Proof.
  left. exists (fun _ => false), (at_ (start own q c)). constructor; try done.
  - by apply good_start.
  - cbn. rewrite num_zero; [done|]. intros j _. by rewrite andb_false_r.
  - cbn. rewrite num_zero; [done|]. intros j _. by rewrite andb_false_r.
Qed.

(** A step of a thread that is not waiting. *)
Lemma running_go s P f t c : running s P f -> t < n -> P t = false -> (ph s t = Loop \/ ph s t = Last) ->
  let x := go swap n (trm s) t c in
  let s' := set_ph (set_trm s x) t (match ph s t with Last => if back (at_ x t) then Loop else Last | p => p end) in
  (ph s t = Last -> c = Go \/ x = trm s) -> exists f', running s' P f'.
Proof.
  intros R Ht HP Hph x s' Hc. destruct (go_lift swap n (trm s) f t c) as (f' & E1 & E2 & E3 & E4). { by rewrite (r_f _ _ _ R), HP. }
  fold x in E1, E2, E4. exists f'.
  assert (Hpc : match at_ x t with KFinals i => i < n /\ vote x t = 3%N /\ forall k, k < i -> P k = false | Done => vote x t = 3%N /\ forall k, k < n -> P k = false | _ => True end).
  { pose proof (r_seen _ _ _ R t Ht HP) as Hs. unfold x, go, received.
    destruct (at_ (trm s) t) as [got|got|got sent own| |i acc|acc|i acc| |acc|i acc|acc|acc|i|i| |i|] eqn:Ea;
      try (destruct c; cbv zeta; repeat match goal with |- context [if ?b then _ else _] => destruct b end; cbn; rewrite ?fset_eq, ?Ea; done).
    - destruct c; try (rewrite Ea; done). cbn. rewrite !fset_eq. split_and!; [done|done|]. intros k Hk. lia.
    - destruct c; try (rewrite Ea; done). cbn -[Nat.ltb]. rewrite !fset_eq. destruct Hs as (H1 & H2 & H3).
      destruct (N.eqb_spec (vote (trm s) i) 3) as [Hv|Hv]; [|done].
      assert (HPi : P i = false). { destruct (P i) eqn:E; [|done]. destruct (r_pend _ _ _ R i H1 E) as [H _]. congruence. }
      assert (Hall : forall k, k < S i -> P k = false). { intros k Hk. destruct (decide (k = i)) as [->|]; [done|]. apply H3. lia. }
      destruct (Nat.ltb_spec (S i) n) as [Hlt|Hge]; [done|]. split; [done|]. intros k Hk. apply Hall. lia.
    }
  assert (Hst : step swap n (lift (trm s) f) (t, c) = lift x f').
  { unfold step. cbn [fst snd]. by rewrite (proj2 (Nat.ltb_lt t n) Ht). }
  constructor.
  - cbn [set_ph set_trm trm s']. rewrite <- Hst. apply good_step, (r_good _ _ _ R).
  - intros j. cbn. destruct (decide (j = t)) as [->|Hj]; [by rewrite HP|]. rewrite E3, E4 by done. apply (r_f _ _ _ R).
  - intros j Hj HPj. assert (Hjt : j <> t) by congruence. destruct (r_pend _ _ _ R j Hj HPj) as (H1 & H2 & H3). cbn.
    unfold x. rewrite go_vote by done. rewrite !fset_ne by congruence. split_and!; [done|done|].
    intros ->. rewrite fset_ne by done. by apply H3.
  - intros j Hj HPj. destruct (decide (j = t)) as [->|Hjt].
    + cbn. rewrite fset_eq. destruct Hph as [-> | E]; [done|]. rewrite E. pose proof (r_ph _ _ _ R t Ht HP) as Hr. rewrite E in Hr.
      destruct (Hc E) as [->|Ex]; [|rewrite Ex; destruct (at_ (trm s) t); cbn; done].
      pose proof (first_go (trm s) t Hr) as Hf. fold x in Hf. destruct (back (at_ x t)) eqn:Eb; [done|]. cbv zeta in Hf. rewrite Eb in Hf. by destruct Hf.
    + pose proof (r_ph _ _ _ R j Hj HPj) as Hr. cbn. rewrite fset_ne by done. unfold x. rewrite go_vote by done. fold x. by rewrite E4.
  - intros j Hj HPj. destruct (decide (j = t)) as [->|Hjt]; [done|]. pose proof (r_seen _ _ _ R j Hj HPj) as Hr. cbn. unfold x. rewrite go_vote by done. fold x. by rewrite E4.
  - cbn. rewrite <- (num_ext (fun j => negb (j =? 0) && asleep (ph s j) && negb (P j))).
    + rewrite <- (r_dn _ _ _ R). f_equal. destruct (decide (t = 0)) as [->|Ht0]; [rewrite fset_eq|by rewrite fset_ne]. destruct Hph as [-> | ->]; [done|]. by destruct (back _).
    + intros j Hj. destruct (decide (j = t)) as [->|Hjt]; [rewrite fset_eq|by rewrite fset_ne]. destruct Hph as [-> | ->]; [done|]. by destruct (back _).
  - cbn. rewrite <- (r_rs _ _ _ R). f_equal. destruct (decide (t = 0)) as [->|Ht0]; [rewrite fset_eq|by rewrite fset_ne]. destruct Hph as [-> | ->]; [done|]. by destruct (back _).
Qed.

(** Coming to the barrier. *)
Lemma running_sleep s P f t : running s P f -> t < n -> ph s t = Loop -> at_ (trm s) t = Done -> t <> 0 ->
  running (set_ph (Sst (trm s) (ph s) (S (dn s)) (rs s)) t Asleep) P f.
Proof.
  intros R Ht Hp Ha H0.
  assert (HP : P t = false). { destruct (P t) eqn:E; [|done]. destruct (r_pend _ _ _ R t Ht E) as (_ & H & _). rewrite H in Hp by done. done. }
  constructor; cbn.
  - apply R.
  - apply R.
  - intros j Hj HPj. assert (j <> t) by congruence. rewrite !fset_ne by congruence. by apply (r_pend _ _ _ R).
  - intros j Hj HPj. destruct (decide (j = t)) as [->|Hjt]; [by rewrite fset_eq|]. rewrite fset_ne by done. by apply (r_ph _ _ _ R).
  - apply R.
  - rewrite fset_ne by done. rewrite (num_one (fun j => negb (j =? 0) && asleep (ph s j) && negb (P j)) _ n t Ht).
    + rewrite <- (r_dn _ _ _ R). done.
    + rewrite Hp. cbn. by rewrite andb_false_r.
    + rewrite fset_eq, HP. destruct (Nat.eqb_spec t 0); done.
    + intros j Hj Hjt. by rewrite fset_ne.
  - rewrite fset_ne by done. apply R.
Qed.
(** Thread 0 and the barrier. *)
Lemma running_zero s P f p d : running s P f -> P 0 = false -> at_ (trm s) 0 = Done ->
  (match p with Collect i => 1 <= i <= n | _ => False end) -> asleep (ph s 0) = false -> (forall i, ph s 0 <> Free i) ->
  d + taken p = dn s + taken (ph s 0) -> running (set_ph (Sst (trm s) (ph s) d (rs s)) 0 p) P f.
Proof.
  intros R HP Ha Hp Hs Hf Hd. constructor; cbn.
  - apply R.
  - apply R.
  - intros j Hj HPj. assert (j <> 0) by congruence. rewrite fset_ne by done. destruct (r_pend _ _ _ R j Hj HPj) as (H1 & H2 & H3). by split_and!.
  - intros j Hj HPj. destruct (decide (j = 0)) as [->|Hj0]; [rewrite ?fset_eq; by destruct p|]. rewrite fset_ne by done. by apply (r_ph _ _ _ R).
  - apply R.
  - rewrite ?fset_eq, Hd, (r_dn _ _ _ R). apply num_ext. intros j Hj. destruct (decide (j = 0)) as [->|Hj0]; [done|]. by rewrite fset_ne.
  - rewrite ?fset_eq. rewrite <- (r_rs _ _ _ R). f_equal. destruct p; try done. cbn. destruct (ph s 0) eqn:E; try done. by destruct (Hf i0).
Qed.

(** All have come: nothing is left. *)
Lemma running_all s P f : running s P f -> P 0 = false -> ph s 0 = Collect n -> stepping (set_ph s 0 (Super 0)) 0.
Proof.
  intros R HP Hp. pose proof (r_ph _ _ _ R 0 Hn HP) as H0. rewrite Hp in H0. destruct H0 as (_ & _ & H0).
  pose proof (r_seen _ _ _ R 0 Hn HP) as Hs. rewrite H0 in Hs. destruct Hs as [_ Hall].
  pose proof (r_dn _ _ _ R) as Hd. rewrite Hp in Hd. cbn in Hd.
  assert (Hs : forall j, 0 < j < n -> ph s j = Asleep).
  { intros j Hj. pose proof (num_most (fun j => negb (j =? 0) && asleep (ph s j) && negb (P j)) n eq_refl ltac:(lia) j Hj) as H. cbn in H.
    apply andb_true_iff in H as [H _]. apply andb_true_iff in H as [_ H]. by destruct (ph s j). }
  assert (Ha : forall t, t < n -> at_ (trm s) t = Done).
  { intros t Ht. destruct (decide (t = 0)) as [->|]; [done|]. pose proof (r_ph _ _ _ R t Ht (Hall t Ht)) as H. rewrite (Hs t) in H by lia. apply H. }
  destruct (good_quiet swap n _ (r_good _ _ _ R)) as (Q & V & Dt).
  { intros t Ht. cbn. by rewrite (r_f _ _ _ R), Hall, Ha. }
  cbn in V, Dt. constructor; cbn.
  - constructor; cbn.
    + intros t Ht. rewrite fset_ne by lia. by apply Hs.
    + done.
    + intros t Ht. by destruct (Q t Ht) as (_ & _ & H).
    + pose proof (num_lt (fun j => negb (j =? 0) && asleep (ph s j) && negb (P j)) n eq_refl Hn). lia.
    + pose proof (r_rs _ _ _ R) as Hr. rewrite num_zero in Hr; [lia|]. intros j Hj. by rewrite Hall, andb_false_r.
  - by rewrite ?fset_eq.
  - intros t Ht. pose proof (r_seen _ _ _ R t Ht (Hall t Ht)) as H. rewrite Ha in H by done. apply H.
  - done.
  - done.
  - rewrite (sumf_ext _ (fun _ => 0%N)); [clear; induction n as [|m IH]; simpl; lia|]. intros k Hk. by destruct (Q k Hk) as (_ & H & _).
Qed.

Lemma sumf_set g t x m : t < m -> sumf (fset g t (g t + x)%N) m = (sumf g m + x)%N.
Proof.
  induction m as [|m IH]; intros H; [lia|]. simpl. destruct (decide (t = m)) as [->|Hne].
  - rewrite ?fset_eq, (sumf_ext _ g m); [lia|]. intros k Hk. by rewrite fset_ne by lia.
  - rewrite fset_ne by lia. rewrite IH by lia. lia.
Qed.
Lemma sumf_pos g t m : t < m -> (0 < g t)%N -> (0 < sumf g m)%N.
Proof. induction m as [|m IH]; intros H E; [lia|]. simpl. destruct (decide (t = m)) as [->|]; [lia|]. pose proof (IH ltac:(lia) E). lia. Qed.
Lemma sumf_none g m : sumf g m = 0%N -> forall k, k < m -> g k = 0%N.
Proof. induction m as [|m IH]; intros H k Hk; [lia|]. simpl in H. destruct (decide (k = m)) as [->|]; [lia|]. apply IH; lia. Qed.
Lemma sumf_z m : sumf (fun _ => 0%N) m = 0%N.
Proof. induction m as [|m IH]; simpl; lia. Qed.

(** The reset is complete: everything starts over. *)
Lemma wiped s i j : wiping s i j -> n <= i -> running (set_ph s 0 (Free 1)) (fun _ => true) (fun _ => K0).
Proof.
  intros W Hi. pose proof (w_alone _ _ _ W) as A.
  assert (Hd : forall t, t < n -> data (trm s) t = 0%N) by (intros; apply (w_data _ _ _ W); lia).
  assert (Hv : forall t, t < n -> view (trm s) t = 0%N) by (intros; apply (w_view _ _ _ W); [|left]; lia).
  assert (Hz : sumf (data (trm s)) n = 0%N) by (rewrite (sumf_ext _ (fun _ => 0%N)); [apply sumf_z|done]).
  constructor; cbn; try done.
  - split.
    + constructor; cbn; unfold total; cbn; try done.
      * intros t Ht. rewrite Hd by done. lia.
      * intros t Ht. rewrite Hv by done. lia.
      * intros t Ht. by apply (a_open _ A).
      * exists 0. split_and!; try done. left. by rewrite Hz, Hv.
    + intros D HW t Ht HvD _. exfalso. cbn in HvD. rewrite Hv in HvD by done.
      assert (Hle : (sumf (cnt (trm s)) n <= sumf D n)%N).
      { apply sumf_mono. intros k Hk. pose proof (HW k Hk) as H. unfold low in H. cbn in H. lia. }
      pose proof (w_cnt _ _ _ W). lia.
  - intros t Ht _. split_and!.
    + apply (w_vote _ _ _ W); [|left]; lia.
    + intros Ht0. rewrite fset_ne by done. apply (a_ph _ A). lia.
    + intros ->. exists 1. rewrite ?fset_eq. split; [lia|done].
  - rewrite ?fset_eq, (a_dn _ A). cbn. rewrite num_zero; [done|]. intros j' _. by rewrite andb_false_r.
  - rewrite ?fset_eq, (a_rs _ A). cbn. pose proof (num_all (fun j => negb (j =? 0) && true) n eq_refl) as H.
    rewrite <- H at 1; [lia| |done]. intros j' Hj'. destruct (Nat.eqb_spec j' 0); [lia|done].
Qed.

(** A freed thread. *)
Lemma running_free s P f t s' : running s P f -> t < n -> P t = true -> trm s' = at_pc (trm s) t K0 ->
  dn s' = dn s -> rs s' + (if t =? 0 then 0 else 1) = rs s -> ph s' = fset (ph s) t Last -> (t = 0 -> ph s 0 = Free n) ->
  exists P', running s' P' f.
Proof.
  intros R Ht HP Et Ed Er Ep H0. exists (fset P t false). destruct s' as [x q d r]. cbn in *. subst.
  destruct (r_pend _ _ _ R t Ht HP) as (V & Hs & Hz).
  assert (Hnot : forall j, j < n -> P j = false -> at_ (trm s) j <> Done). { intros j Hj HPj E. pose proof (r_seen _ _ _ R j Hj HPj) as H. rewrite E in H. destruct H as [_ H]. by rewrite (H t Ht) in HP. }
  constructor; cbn.
  - apply R.
  - intros j. rewrite (r_f _ _ _ R). destruct (decide (j = t)) as [->|Hj]; [by rewrite !fset_eq, HP|by rewrite !fset_ne].
  - intros j Hj HPj. destruct (decide (j = t)) as [->|Hjt]; [by rewrite fset_eq in HPj|]. rewrite fset_ne in HPj by done.
    rewrite fset_ne by done. destruct (r_pend _ _ _ R j Hj HPj) as (H1 & H2 & H3). split_and!; [done|done|]. intros ->. rewrite fset_ne by done. by apply H3.
  - intros j Hj HPj. destruct (decide (j = t)) as [->|Hjt]; [by rewrite !fset_eq|]. rewrite fset_ne in HPj by done.
    rewrite !fset_ne by done. by apply (r_ph _ _ _ R).
  - intros j Hj HPj. destruct (decide (j = t)) as [->|Hjt]; [by rewrite !fset_eq|]. rewrite fset_ne in HPj by done.
    rewrite !fset_ne by done. pose proof (r_seen _ _ _ R j Hj HPj) as H. pose proof (Hnot j Hj HPj) as Hnd. destruct (at_ (trm s) j); try done.
    destruct H as (H1 & H2 & H3). split_and!; [done|done|]. intros k Hk. unfold fset. destruct (k =? t); [done|]. by apply H3.
  - rewrite <- (num_ext (fun j => negb (j =? 0) && asleep (ph s j) && negb (P j))).
    + rewrite <- (r_dn _ _ _ R). f_equal. destruct (decide (t = 0)) as [->|Ht0]; [|by rewrite fset_ne]. rewrite ?fset_eq. by rewrite H0.
    + intros j Hj. destruct (decide (j = t)) as [->|Hjt]; [|by rewrite !fset_ne]. rewrite !fset_eq, HP. cbn. by rewrite !andb_false_r.
  - destruct (decide (t = 0)) as [->|Ht0].
    + rewrite ?fset_eq. pose proof (r_rs _ _ _ R) as Hr. rewrite H0 in Hr by done. cbn in Hr. cbn. rewrite (num_ext _ (fun j => negb (j =? 0) && P j)); [cbn in Er; lia|].
      intros j Hj. destruct (decide (j = 0)) as [->|]; [done|by rewrite fset_ne].
    + rewrite fset_ne by done. destruct (Nat.eqb_spec t 0) as [|_]; [done|].
      pose proof (num_one (fun j => negb (j =? 0) && fset P t false j) (fun j => negb (j =? 0) && P j) n t Ht) as H.
      rewrite <- (r_rs _ _ _ R) in H. enough (rs s + unfreed (ph s 0) = S (num (fun j => negb (j =? 0) && fset P t false j) n)) by lia. apply H.
      * by rewrite fset_eq, andb_false_r.
      * rewrite HP. by destruct (Nat.eqb_spec t 0).
      * intros j Hj Hjt. by rewrite fset_ne.
Qed.
(** Thread 0 frees one more. *)
Lemma running_freeing s P f i : running s P f -> ph s 0 = Free i -> P 0 = true -> i < n ->
  running (set_ph (Sst (trm s) (ph s) (dn s) (S (rs s))) 0 (Free (S i))) P f.
Proof.
  intros R Hp HP Hi. destruct (r_pend _ _ _ R 0 Hn HP) as (_ & _ & H). destruct (H eq_refl) as (i' & Hi' & E). rewrite Hp in E. injection E as <-.
  constructor; cbn.
  - apply R.
  - apply R.
  - intros j Hj HPj. destruct (r_pend _ _ _ R j Hj HPj) as (H1 & H2 & H3). split_and!; [done| |].
    + intros Hj0. rewrite fset_ne by done. by apply H2.
    + intros _. exists (S i). split; [lia|done].
  - intros j Hj HPj. rewrite fset_ne by congruence. by apply (r_ph _ _ _ R).
  - apply R.
  - pose proof (r_dn _ _ _ R) as Hd. rewrite Hp in Hd. cbn in Hd. rewrite Hd. apply num_ext. intros j Hj. destruct (decide (j = 0)) as [->|]; [done|by rewrite fset_ne].
  - pose proof (r_rs _ _ _ R) as Hr. rewrite Hp in Hr. cbn in Hr. lia.
Qed.

Lemma running_step s P f t c : running s P f -> t < n -> sinv (sgo swap n s t c).
Proof.
  intros R Ht. assert (Hself : sinv s) by (left; eauto).
  assert (Hstep : forall c, step swap n (trm s) (t, c) = go swap n (trm s) t c).
  { intros c'. unfold step. cbn [fst snd]. by rewrite (proj2 (Nat.ltb_lt t n) Ht). }
  destruct (P t) eqn:HP.
  - destruct (r_pend _ _ _ R t Ht HP) as (V & Hs & Hz). unfold sgo. destruct (decide (t = 0)) as [->|Ht0].
    + destruct (Hz eq_refl) as (i & Hi & E). rewrite E. destruct c; try done. destruct (Nat.ltb_spec i n) as [Hlt|Hge].
      * left. exists P, f. by apply running_freeing.
      * left. destruct (running_free s P f 0 (set_ph (set_trm s (at_pc (trm s) 0 K0)) 0 Last) R Ht HP) as [P' R']; try (cbn; lia); try done.
        -- intros _. rewrite E. f_equal. lia.
        -- eauto.
    + rewrite (Hs Ht0). destruct c; try done. destruct (rs s) as [|r] eqn:Er; [done|].
      left. destruct (running_free s P f t (set_ph (Sst (at_pc (trm s) t K0) (ph s) (dn s) r) t Last) R Ht HP) as [P' R']; try done.
      * cbn. rewrite Er. destruct (Nat.eqb_spec t 0); [done|lia].
      * eauto.
  - pose proof (r_ph _ _ _ R t Ht HP) as Hr. unfold sgo. destruct (ph s t) eqn:Ep; try done.
    + destruct c as [c| |u]; [| |done].
      * rewrite Hstep. destruct (running_go s P f t c R Ht HP (or_introl Ep) ltac:(intros E; congruence)) as [f' R']. rewrite Ep in R'. left. exists P, f'.
        destruct R' as [R1 R2 R3 R4 R5 R6 R7]. cbn in *.
        assert (Hext : forall j, fset (ph s) t Loop j = ph s j). { intros j. unfold fset. destruct (Nat.eqb_spec j t) as [->|]; done. }
        constructor; cbn; try done.
        -- intros j Hj HPj. destruct (R3 j Hj HPj) as (H1 & H2 & H3). rewrite !Hext in *. done.
        -- intros j Hj HPj. pose proof (R4 j Hj HPj) as H. by rewrite Hext in H.
        -- rewrite Hext in R6. rewrite R6. apply num_ext. intros j Hj. by rewrite Hext.
        -- by rewrite Hext in R7.
      * destruct (at_ (trm s) t) eqn:Ea; try done. destruct (Nat.eqb_spec t 0) as [->|Ht0].
        -- left. exists P, f. destruct s as [x q d r]. cbn in *. apply (running_zero (Sst x q d r) P f (Collect 1) d); cbn; try done; rewrite ?Ep; try done; lia.
        -- left. exists P, f. by apply running_sleep.
    + destruct c; try done. destruct (rs s) as [|r] eqn:Er; [done|]. exfalso. destruct Hr as [Ht0 Ha].
      pose proof (r_seen _ _ _ R t Ht HP) as H. rewrite Ha in H. destruct H as [_ H].
      pose proof (r_rs _ _ _ R) as Hrs. rewrite num_zero in Hrs; [lia|]. intros j Hj. by rewrite H, andb_false_r.
    + destruct Hr as (-> & Hi & Ha). destruct c; try done. destruct (Nat.ltb_spec i n) as [Hlt|Hge].
      * destruct (dn s) as [|d] eqn:Ed; [done|]. left. exists P, f. apply running_zero; try done; rewrite ?Ep; try done; cbn; lia.
      * right. left. exists 0%N. eapply running_all; eauto. rewrite Ep. f_equal. lia.
    + destruct c as [c| |u]; [| |done].
      * cbv zeta. rewrite Hstep. assert (Hc : c = Go \/ go swap n (trm s) t c = trm s).
        { destruct c; try (by left); right; unfold go; destruct (at_ (trm s) t); cbn in Hr; done. }
        destruct (running_go s P f t c R Ht HP (or_intror Ep) ltac:(done)) as [f' R']. rewrite Ep in R'. left. eauto.
      * destruct (at_ (trm s) t) eqn:Ea; try done. 
Qed.

Lemma stepping_step s k t c : stepping s k -> t < n -> sinv (sgo swap n s t c).
Proof.
  intros W Ht. assert (Hself : sinv s) by (right; left; eauto). pose proof (s_alone _ _ W) as A. unfold sgo.
  destruct (decide (t = 0)) as [->|Ht0].
  2: { rewrite (a_ph _ A) by lia. destruct c; try done. by rewrite (a_rs _ A). }
  rewrite (s_ph _ _ W). destruct c as [c| |u]; [done| |].
  - destruct (N.eqb_spec k 0) as [->|Hk].
    + right. right. right. constructor; cbn; try apply W.
      * intros t' Ht'. apply (sumf_none _ n); [apply W|done].
      * intros t' Ht'. destruct (decide (t' = 0)) as [->|Hne]; [cbn; lia|]. rewrite fset_ne by done. rewrite (a_ph _ A) by lia. done.
      * intros t' Ht'. by rewrite (a_at _ A).
      * rewrite (a_rs _ A). cbn. pose proof (num_all (fun j => negb (j =? 0) && asleep (fset (ph s) 0 (Free 1) j)) n eq_refl) as H.
        rewrite <- H at 1; [lia| |done]. intros j' Hj'. rewrite fset_ne by lia. rewrite (a_ph _ A) by lia. destruct (Nat.eqb_spec j' 0); [lia|done].
    + right. right. left. exists 0, 0. constructor; cbn; try lia.
      * constructor; cbn; try apply A. intros t' Ht'. rewrite fset_ne by lia. by apply (a_ph _ A).
      * done.
      * apply (sumf_pos _ 0); [done|]. rewrite fset_eq. lia.
  - destruct (Nat.ltb_spec u n) as [Hu|]; [|done]. right. left. exists (k + 1)%N. constructor; cbn; try apply W.
    + constructor; cbn; try apply A. intros t' Ht'. rewrite fset_ne by lia. by apply (a_ph _ A).
    + done.
    + rewrite sumf_set by done. by rewrite (s_queue _ _ W).
Qed.

Lemma stepping_ends s : stepping s 0 -> ending (sgo swap n s 0 Act).
Proof.
  intros W. pose proof (s_alone _ _ W) as A. unfold sgo. rewrite (s_ph _ _ W). cbn [N.eqb].
  constructor; cbn; try apply W.
  - intros t' Ht'. apply (sumf_none _ n); [apply W|done].
  - intros t' Ht'. destruct (decide (t' = 0)) as [->|Hne]; [cbn; lia|]. rewrite fset_ne by done. rewrite (a_ph _ A) by lia. done.
  - intros t' Ht'. by rewrite (a_at _ A).
  - rewrite (a_rs _ A). cbn. pose proof (num_all (fun j => negb (j =? 0) && asleep (fset (ph s) 0 (Free 1) j)) n eq_refl) as H.
    rewrite <- H at 1; [lia| |done]. intros j' Hj'. rewrite fset_ne by lia. rewrite (a_ph _ A) by lia. destruct (Nat.eqb_spec j' 0); [lia|done].
Qed.
Lemma wiping_step s i j t c : wiping s i j -> t < n -> sinv (sgo swap n s t c).
Proof.
  intros W Ht. assert (Hself : sinv s) by (right; right; left; eauto). pose proof (w_alone _ _ _ W) as A. unfold sgo.
  destruct (decide (t = 0)) as [->|Ht0].
  2: { rewrite (a_ph _ A) by lia. destruct c; try done. by rewrite (a_rs _ A). }
  rewrite (w_ph _ _ _ W). destruct c as [c| |u]; [done| |done]. destruct (Nat.ltb_spec i n) as [Hi|Hi].
  2: { left. exists (fun _ => true), (fun _ => K0). by eapply wiped. }
  pose proof (w_j _ _ _ W) as Hj. right. right. left. destruct W as [_ W1 W2 W3 W4 W5 W6 W7].
  destruct j as [|[|j]]; cbn [Nat.ltb Nat.leb].
  - exists i, 1. constructor; cbn; try done; try lia.
    + constructor; cbn; try apply A. intros t' Ht'. rewrite fset_ne by lia. by apply (a_ph _ A).
    + intros t' Ht' H. destruct (decide (t' = i)) as [->|Hne]; [by rewrite fset_eq|]. rewrite fset_ne by done. apply W5; [done|left; lia].
    + intros t' Ht' H. apply W6; [done|left; lia].
  - exists i, 2. constructor; cbn; try done; try lia.
    + constructor; cbn; try apply A. intros t' Ht'. rewrite fset_ne by lia. by apply (a_ph _ A).
    + intros t' Ht' H. apply W5; [done|lia].
    + intros t' Ht' H. destruct (decide (t' = i)) as [->|Hne]; [by rewrite fset_eq|]. rewrite fset_ne by done. apply W6; [done|left; lia].
  - assert (j = 0) as -> by lia. exists (S i), 0. constructor; cbn; try done; try lia.
    + constructor; cbn; try apply A. intros t' Ht'. rewrite fset_ne by lia. by apply (a_ph _ A).
    + intros t' Ht' H. apply W5; [done|lia].
    + intros t' Ht' H. apply W6; [done|lia].
    + intros t' Ht' H. destruct (decide (t' = i)) as [->|Hne]; [by rewrite fset_eq|]. rewrite fset_ne by done. apply W7; [done|lia].
Qed.

(** The last check, step by step. *)
Definition pcw (p : pc) : nat :=
  match p with
  | K0 => 5 * n + 10
  | KSum i _ => 4 * n + 8 + (n - i)
  | KViews i _ => 3 * n + 7 + (n - i)
  | KVote _ => 3 * n + 6
  | KSeen i _ => 2 * n + 5 + (n - i)
  | KReady _ => 2 * n + 4
  | KReadys i => n + 3 + (n - i)
  | KFinal => n + 2
  | KFinals i => 1 + (n - i)
  | _ => 0
  end.
Definition weight (p : phase) (a : pc) : nat :=
  match p with Asleep => 5 * n + 12 | Free i => 5 * n + 12 + (n - i) | Last => S (pcw a) | _ => 0 end.

Definition same (x s : st) (t : nat) : Prop :=
  (forall j, vote x j = vote s j) /\ (forall j, data x j = data s j) /\ (forall j, view x j = view s j) /\
  (forall j, queue x j = queue s j) /\ (forall j, open_ x j = open_ s j) /\ cnt x = cnt s /\ (forall j, j <> t -> at_ x j = at_ s j).
Lemma same_pc s t p : same (at_pc s t p) s t.
Proof. unfold same. cbn. split_and!; try done. intros. by apply fset_ne. Qed.

Lemma ending_go s t : ending s -> t < n -> ph s t = Last -> at_ (trm s) t <> Done ->
  let x := go swap n (trm s) t Go in same x (trm s) t /\ ending_at (trm s) (at_ x t) /\ pcw (at_ x t) < pcw (at_ (trm s) t).
Proof.
  intros E Ht Hp Hnd x. pose proof (e_ph _ E t Ht) as H. rewrite Hp in H.
  pose proof (e_vote _ E) as Hv. pose proof (e_data _ E) as Hd. pose proof (e_view _ E) as Hw.
  assert (Hpc : forall p, x = at_pc (trm s) t p -> ending_at (trm s) p -> pcw p < pcw (at_ (trm s) t) ->
    same x (trm s) t /\ ending_at (trm s) (at_ x t) /\ pcw (at_ x t) < pcw (at_ (trm s) t)).
  { intros p -> H1 H2. split; [apply same_pc|]. cbn. by rewrite fset_eq. }
  unfold x, go in *. clear x.
  destruct (at_ (trm s) t) as [got|got|got sent own| |i acc|acc|i acc| |acc|i acc|acc|acc|i|i| |i|] eqn:Ea; cbn in H; try done; cbv zeta in *.
  - unfold same. cbn. rewrite fset_eq. split_and!; try done; try (cbn; lia).
    + intros j. unfold fset. destruct (Nat.eqb_spec j t) as [->|]; [by rewrite Hd|done].
    + intros j Hj. by rewrite fset_ne.
  - destruct H as [Hi ->]. rewrite Hd in * by done.
    assert (Hs : (sumf (cnt (trm s)) i + cnt (trm s) i)%N = sumf (cnt (trm s)) (S i)) by done. rewrite Hs in *.
    destruct (Nat.ltb_spec (S i) n) as [Hlt|Hge].
    + apply (Hpc _ eq_refl); cbn; [done|lia].
    + assert (S i = n) as E1 by lia. rewrite E1 in *. rewrite Hw in * by done. rewrite N.eqb_refl in *. apply (Hpc _ eq_refl); cbn; [done|lia].
  - destruct H as [Hi ->]. rewrite Hw in * by done. rewrite N.eqb_refl in *. destruct (Nat.ltb_spec (S i) n) as [Hlt|Hge]; apply (Hpc _ eq_refl); cbn; try done; lia.
  - rewrite Hv in * by done. cbn [N.eqb Pos.eqb] in *. apply (Hpc _ eq_refl); cbn; try done; lia.
  - destruct H as [Hi ->]. rewrite Hv in * by done. cbn [N.eqb Pos.eqb] in *. destruct (Nat.ltb_spec (S i) n) as [Hlt|Hge]; apply (Hpc _ eq_refl); cbn; try done; lia.
  - rewrite Hv in * by done. cbn [N.eqb Pos.eqb] in *. apply (Hpc _ eq_refl); cbn; try done; lia.
  - rewrite Hv in * by done. cbn [N.ltb N.compare Pos.compare Pos.compare_cont] in *. destruct (Nat.ltb_spec (S i) n) as [Hlt|Hge]; apply (Hpc _ eq_refl); cbn; try done; lia.
  - unfold same. cbn. rewrite fset_eq. split_and!; try done; try (cbn; lia).
    + intros j. unfold fset. destruct (Nat.eqb_spec j t) as [->|]; [by rewrite Hv|done].
    + intros j Hj. by rewrite fset_ne.
  - rewrite Hv in * by done. cbn [N.eqb Pos.eqb] in *. destruct (Nat.ltb_spec (S i) n) as [Hlt|Hge]; apply (Hpc _ eq_refl); cbn; try done; lia.
Qed.

Definition still (s' s : sst) : Prop := (forall j, ph s' j = ph s j) /\ (forall j, at_ (trm s') j = at_ (trm s) j) /\ rs s' = rs s /\ same (trm s') (trm s) 0.
Definition lower (s' s : sst) (t : nat) : Prop := weight (ph s' t) (at_ (trm s') t) < weight (ph s t) (at_ (trm s) t) /\
  forall j, j <> t -> ph s' j = ph s j /\ at_ (trm s') j = at_ (trm s) j.
Lemma still_refl s : still s s.
Proof. unfold still, same. by split_and!. Qed.

(** Something a thread can do. *)
Definition can (s : sst) (t : nat) (c : schoice) : Prop :=
  match ph s t, c with
  | Free _, Act => True
  | Asleep, Act => 0 < rs s
  | Last, Act => at_ (trm s) t = Done
  | Last, Ctl Go => at_ (trm s) t <> Done
  | _, _ => False
  end.

Lemma ending_same s s' t : ending s -> same (trm s') (trm s) t -> t < n -> idle (at_ (trm s') t) = true ->
  (match ph s' t with
    | Asleep => t <> 0
    | Free i => t = 0 /\ 1 <= i <= n
    | Last => ending_at (trm s) (at_ (trm s') t)
    | Out => True
    | _ => False
    end) -> (forall j, j <> t -> ph s' j = ph s j) ->
  rs s' + unfreed (ph s' 0) = num (fun j => negb (j =? 0) && asleep (ph s' j)) n -> ending s'.
Proof.
  intros E (H1 & H2 & H3 & H4 & H5 & H6 & H7) Ht Hi Hp Ho Hr. constructor.
  - intros j Hj. rewrite H1. by apply E.
  - intros j Hj. rewrite H2, H6. by apply E.
  - intros j Hj. rewrite H3, H6. by apply E.
  - intros j Hj. rewrite H4. by apply E.
  - intros j Hj. rewrite H5. by apply E.
  - intros j Hj. unfold ending_at in *. rewrite H6. destruct (decide (j = t)) as [->|Hne]; [done|]. rewrite Ho by done. rewrite H7 by done. by apply (e_ph _ E).
  - intros j Hj. destruct (decide (j = t)) as [->|Hne]; [done|]. rewrite H7 by done. by apply E.
  - done.
Qed.

Lemma ending_step s t c : ending s -> t < n ->
  ending (sgo swap n s t c) /\ ((still (sgo swap n s t c) s /\ ~ can s t c) \/ lower (sgo swap n s t c) s t).
Proof.
  intros E Ht. pose proof (e_ph _ E t Ht) as Hp. pose proof (e_rs _ E) as Hr.
  assert (Hself : ~ can s t c -> ending s /\ ((still s s /\ ~ can s t c) \/ lower s s t)). { intros H. split; [done|]. left. split; [apply still_refl|done]. }
  assert (Hst : forall c, step swap n (trm s) (t, c) = go swap n (trm s) t c).
  { intros c'. unfold step. cbn [fst snd]. by rewrite (proj2 (Nat.ltb_lt t n) Ht). }
  unfold sgo. unfold can in *. destruct (ph s t) eqn:Ep; try done.
  - destruct c as [c| |u]; [by apply Hself; intros []| |by apply Hself; intros []]. destruct (rs s) as [|r] eqn:Er; [apply Hself; lia|].
    set (s' := set_ph _ _ _). split; [|right; split].
    + apply (ending_same s s' t); try done; cbn.
      * apply same_pc.
      * by rewrite fset_eq.
      * by rewrite !fset_eq.
      * intros j Hj. by rewrite fset_ne.
      * rewrite fset_ne by done.
        pose proof (num_one (fun j => negb (j =? 0) && asleep (fset (ph s) t Last j)) (fun j => negb (j =? 0) && asleep (ph s j)) n t Ht) as H.
        rewrite <- Hr in H. enough (S r + unfreed (ph s 0) = S (num (fun j => negb (j =? 0) && asleep (fset (ph s) t Last j)) n)) by lia. apply H.
        -- by rewrite fset_eq, andb_false_r.
        -- rewrite Ep. by destruct (Nat.eqb_spec t 0).
        -- intros j Hj Hjt. by rewrite fset_ne.
    + cbn -[weight]. rewrite !fset_eq, Ep. cbn. lia.
    + intros j Hj. cbn. by rewrite !fset_ne.
  - destruct c as [c| |u]; [by apply Hself; intros []| |by apply Hself; intros []]. destruct Hp as [-> Hi]. rewrite Ep in Hr.
    assert (Hnum : forall p, asleep p = false -> num (fun j => negb (j =? 0) && asleep (fset (ph s) 0 p j)) n = num (fun j => negb (j =? 0) && asleep (ph s j)) n).
    { intros p Hpp. apply num_ext. intros j Hj. destruct (decide (j = 0)) as [->|]; [done|by rewrite fset_ne]. }
    cbn [unfreed] in Hr. destruct (Nat.ltb_spec i n) as [Hlt|Hge]; (set (s' := set_ph _ _ _); split; [|right; split]).
    + apply (ending_same s s' 0); try done.
      * by apply E.
      * cbn. lia.
      * intros j Hj. cbn. by rewrite fset_ne.
      * cbn. rewrite Hnum by done. lia.
    + cbn -[weight]. rewrite Ep. cbn. lia.
    + intros j Hj. cbn. by rewrite fset_ne.
    + apply (ending_same s s' 0); try done.
      * apply same_pc.
      * intros j Hj. cbn. by rewrite fset_ne.
      * cbn. rewrite Hnum by done. lia.
    + cbn -[weight]. rewrite Ep. cbn. lia.
    + intros j Hj. cbn. by rewrite !fset_ne.
  - destruct c as [c| |u]; [| |by apply Hself; intros []].
    + cbv zeta. rewrite Hst.
      assert (Hnum : num (fun j => negb (j =? 0) && asleep (fset (ph s) t Last j)) n = num (fun j => negb (j =? 0) && asleep (ph s j)) n).
      { apply num_ext. intros j Hj. unfold fset. destruct (Nat.eqb_spec j t) as [->|]; [by rewrite Ep|done]. }
      assert (Hu : unfreed (fset (ph s) t Last 0) = unfreed (ph s 0)). { unfold fset. destruct (Nat.eqb_spec 0 t) as [<-|]; [by rewrite Ep|done]. }
      assert (Hdec : (c = Go /\ at_ (trm s) t <> Done) \/ ~ (c = Go /\ at_ (trm s) t <> Done)).
      { destruct c; try (right; by intros []). destruct (at_ (trm s) t); try (by left); right; by intros []. }
      destruct Hdec as [[-> Hd]|Hc].
      * destruct (ending_go s t E Ht Ep Hd) as (S1 & S2 & S3). set (x := go swap n (trm s) t Go) in *.
        assert (Hb : back (at_ x t) = false) by (by destruct (at_ x t)). rewrite Hb. split; [|right; split].
        -- apply (ending_same s _ t); try done.
           ++ cbn. by destruct (at_ x t).
           ++ cbn. by rewrite fset_eq.
           ++ intros j Hj. cbn. by rewrite fset_ne.
           ++ cbn. by rewrite Hu, Hnum.
        -- cbn -[weight]. rewrite fset_eq, Ep. cbn. lia.
        -- intros j Hj. cbn. rewrite fset_ne by done. split; [done|]. by apply S1.
      * assert (Hx : go swap n (trm s) t c = trm s).
        { destruct (at_ (trm s) t) eqn:Ea; cbn in Hp; try done; unfold go; rewrite Ea; destruct c; try done; exfalso; apply Hc; done. }
        rewrite Hx. assert (Hb : back (at_ (trm s) t) = false) by (by destruct (at_ (trm s) t)). rewrite Hb.
        assert (Hext : forall j, fset (ph s) t Last j = ph s j). { intros j. unfold fset. destruct (Nat.eqb_spec j t) as [->|]; done. }
        split.
        -- apply (ending_same s _ t); try done.
           ++ by apply E.
           ++ cbn. by rewrite fset_eq.
           ++ intros j _. apply Hext.
           ++ cbn. by rewrite Hu, Hnum.
        -- left. split; [by unfold still, same; split_and!|]. destruct c; try (by intros []). intros H. by apply Hc.
    + destruct (at_ (trm s) t) eqn:Ea; try (apply Hself; done).
      split; [|right; split].
      * apply (ending_same s _ t); try done.
        -- cbn. by rewrite Ea.
        -- cbn. by rewrite fset_eq.
        -- intros j Hj. cbn. by rewrite fset_ne.
        -- cbn. rewrite (num_ext _ (fun j => negb (j =? 0) && asleep (ph s j))).
           ++ rewrite <- Hr. f_equal. unfold fset. destruct (Nat.eqb_spec 0 t) as [<-|]; [by rewrite Ep|done].
           ++ intros j Hj. unfold fset. destruct (Nat.eqb_spec j t) as [->|]; [by rewrite Ep|done].
      * cbn -[weight]. rewrite fset_eq, Ep. cbn. lia.
      * intros j Hj. cbn. by rewrite fset_ne.
  - destruct c; by apply Hself; intros [].
Qed.

Lemma sinv_step s x : sinv s -> sinv (sstep s x).
Proof.
  intros H. destruct x as [t c]. unfold SStep_Model.sstep. cbn [fst snd]. destruct (Nat.ltb_spec t n) as [Ht|]; [|done].
  destruct H as [(P & f & R)|[(k & W)|[(i & j & W)|E]]].
  - by eapply running_step.
  - by eapply stepping_step.
  - by eapply wiping_step.
  - right. right. right. by apply ending_step.
Qed.
Lemma sinv_run sched : forall s, sinv s -> sinv (srun s sched).
Proof. induction sched as [|x sched IH]; intros s H; [done|]. cbn. apply IH. by apply sinv_step. Qed.
Lemma ending_run sched : forall s, ending s -> ending (srun s sched).
Proof.
  induction sched as [|[t c] sched IH]; intros s H; [done|]. cbn. apply IH. unfold SStep_Model.sstep. cbn [fst snd].
  destruct (Nat.ltb_spec t n) as [Ht|]; [|done]. by apply ending_step.
Qed.

(** All leave. *)
Lemma sstep_in s t c : t < n -> sstep s (t, c) = sgo swap n s t c.
Proof. intros H. unfold SStep_Model.sstep. cbn [fst snd]. by rewrite (proj2 (Nat.ltb_lt t n) H). Qed.
Lemma sstep_out s t c : n <= t -> sstep s (t, c) = s.
Proof. intros H. unfold SStep_Model.sstep. cbn [fst snd]. by rewrite (proj2 (Nat.ltb_ge t n) H). Qed.

Fixpoint wsum (s : sst) (k : nat) : nat := match k with O => 0 | S k => wsum s k + weight (ph s k) (at_ (trm s) k) end.
Lemma wsum_ext s s' k : (forall j, j < k -> ph s' j = ph s j /\ at_ (trm s') j = at_ (trm s) j) -> wsum s' k = wsum s k.
Proof. induction k as [|k IH]; intros H; [done|]. cbn. rewrite IH by (intros; apply H; lia). destruct (H k ltac:(lia)) as [-> ->]. done. Qed.
Lemma wsum_lower s s' t k : lower s' s t -> t < k -> wsum s' k < wsum s k.
Proof.
  intros [H1 H2]. induction k as [|k IH]; intros Ht; [lia|]. cbn. destruct (decide (t = k)) as [->|Hne].
  - rewrite (wsum_ext s s' k) by (intros; apply H2; lia). lia.
  - destruct (H2 k ltac:(lia)) as [-> ->]. pose proof (IH ltac:(lia)). lia.
Qed.
Lemma ending_still s s' t c : still s' s -> can s t c -> can s' t c.
Proof. intros (H1 & H2 & H3 & _). unfold can. by rewrite H1, H2, H3. Qed.
Lemma ending_can s : ending s -> (exists t, t < n /\ ph s t <> Out) -> exists t c, t < n /\ can s t c /\ (c = Act \/ c = Ctl Go).
Proof.
  intros E (t & Ht & Hp). pose proof (e_ph _ E t Ht) as H. destruct (ph s t) eqn:Ep; try done.
  - destruct (rs s) as [|r] eqn:Er.
    + pose proof (e_rs _ E) as Hr. rewrite Er in Hr. cbn in Hr.
      assert (Hpos : 0 < num (fun j => negb (j =? 0) && asleep (ph s j)) n).
      { apply (num_pos _ n t Ht). rewrite Ep. by destruct (Nat.eqb_spec t 0). }
      exists 0, Act. unfold can. destruct (ph s 0); cbn in Hr; try lia. split_and!; [done|done|by left].
    + exists t, Act. unfold can. rewrite Ep. split_and!; [done|lia|by left].
  - exists t, Act. unfold can. rewrite Ep. split_and!; [done|done|by left].
  - destruct (at_ (trm s) t) eqn:Ea; (exists t; unfold can; rewrite Ep; eexists; split_and!; [done| |]); 
      [..|instantiate (1 := Act); done|by left]; try (instantiate (1 := Ctl Go); cbn; by rewrite Ea); try (by right).
Qed.
Lemma ending_round round : forall s t c, ending s -> t < n -> can s t c -> (t, c) ∈ round ->
  ending (srun s round) /\ wsum (srun s round) n < wsum s n.
Proof.
  assert (Hmono : forall r s, ending s -> ending (srun s r) /\ wsum (srun s r) n <= wsum s n).
  { induction r as [|[u d] r IH]; intros s E; [done|]. cbn [SStep_Model.srun fold_left]. fold (srun (sstep s (u, d)) r). destruct (le_lt_dec n u) as [Hu|Hu]; [rewrite sstep_out by done; by apply IH|rewrite sstep_in by done].
    destruct (ending_step s u d E Hu) as [E' [[S _]|L]]; destruct (IH _ E') as [E2 H2]; (split; [done|]).
    - etransitivity; [exact H2|]. rewrite (wsum_ext s (sgo swap n s u d)); [done|]. intros j _. destruct S as (S1 & S2 & _). by split.
    - pose proof (wsum_lower _ _ u n L Hu). lia. }
  induction round as [|[u d] r IH]; intros s t c E Ht Hc Hin; [by apply elem_of_nil in Hin|]. cbn [SStep_Model.srun fold_left]. fold (srun (sstep s (u, d)) r).
  destruct (lt_dec u n) as [Hu|Hu]; [rewrite sstep_in by done|rewrite sstep_out by lia].
  2: { apply (IH s t c); try done. apply elem_of_cons in Hin as [[= -> ->]|]; [lia|done]. }
  destruct (ending_step s u d E Hu) as [E' [[S Hnc]|L]].
  - apply elem_of_cons in Hin as [[= -> ->]|Hin]; [done|].
    destruct (IH _ t c E' Ht (ending_still _ _ _ _ S Hc) Hin) as [H1 H2]. split; [done|].
    rewrite (wsum_ext s (sgo swap n s u d)) in H2; [done|]. intros j _. destruct S as (S1 & S2 & _). by split.
  - destruct (Hmono r _ E') as [H1 H2]. split; [done|]. pose proof (wsum_lower _ _ u n L Hu). lia.
Qed.
Lemma srun_app s l1 l2 : srun s (l1 ++ l2) = srun (srun s l1) l2.
Proof. apply fold_left_app. Qed.
Definition round_of (r : list (nat * schoice)) : Prop := forall t, t < n -> (t, Act) ∈ r /\ (t, Ctl Go) ∈ r.
Lemma out_dec s : (exists t, t < n /\ ph s t <> Out) \/ forall t, t < n -> ph s t = Out.
Proof.
  clear Hn. induction n as [|m IH]; [right; lia|]. destruct IH as [(t & Ht & H)|H]; [left; exists t; split; [lia|done]|].
  assert (Hd : ph s m = Out \/ ph s m <> Out) by (destruct (ph s m); (by left) || (by right)).
  destruct Hd as [Hd|Hd]; [|left; exists m; split; [lia|done]]. right. intros t Ht. destruct (decide (t = m)) as [->|]; [done|]. apply H. lia.
Qed.
Lemma ending_all rounds : forall s, ending s -> Forall round_of rounds -> wsum s n <= length rounds ->
  forall t, t < n -> ph (srun s (concat rounds)) t = Out.
Proof.
  induction rounds as [|r rounds IH]; intros s E HF Hl.
  - cbn. destruct (out_dec s) as [Hex|]; [|done]. exfalso. destruct (ending_can s E Hex) as (t & c & Ht & Hc & Hcc).
    cbn in Hl. destruct (ending_step s t c E Ht) as [_ [[_ H]|L]]; [done|]. pose proof (wsum_lower _ _ t n L Ht). lia.
  - cbn [concat]. rewrite srun_app. inversion HF; subst. destruct (out_dec s) as [Hex|Hout].
    + destruct (ending_can s E Hex) as (t & c & Ht & Hc & Hcc).
      destruct (ending_round r s t c E Ht Hc) as [E' Hw]. { destruct (H1 t Ht). by destruct Hcc as [-> | ->]. }
      apply IH; [done|done|]. cbn in Hl. lia.
    + rewrite <- srun_app. intros t Ht.
      assert (Hstay : forall l s, (forall t, t < n -> ph s t = Out) -> forall t, t < n -> ph (srun s l) t = Out).
      { clear. induction l as [|[u d] l IHl]; intros s H t Ht; [by apply H|]. cbn. apply IHl; [|done]. intros j Hj.
        unfold SStep_Model.sstep. cbn [fst snd]. destruct (Nat.ltb_spec u n) as [Hu|]; [|by apply H]. unfold sgo. rewrite (H u Hu). destruct d; by apply H. }
      by apply Hstay.
Qed.

(** Nobody waits for ever: someone can go on. *)
Lemma phase_eq (p q : phase) : {p = q} + {p <> q}.
Proof. decide equality; try apply Nat.eq_dec. apply N.eq_dec. Qed.
Lemma pc_done p : p = Done \/ p <> Done.
Proof. destruct p; (by left) || (by right). Qed.
Definition moves (t : nat) (s s' : sst) : Prop := ph s' t <> ph s t \/ at_ (trm s') t <> at_ (trm s) t.
Lemma go_moves s t : at_ s t <> Done -> exists c, at_ (go swap n s t c) t <> at_ s t.
Proof.
  intros H. destruct (at_ s t) as [got|got|got sent own| |i acc|acc|i acc| |acc|i acc|acc|acc|i|i| |i|] eqn:Ea; try done;
    [exists Go|exists Go|exists Finish|exists Go..]; unfold go, received; rewrite Ea; cbv zeta;
    repeat match goal with |- context [if ?b then _ else _] => destruct b end; cbn; rewrite ?fset_eq; try done; intros E; injection E; lia.
Qed.
Lemma no_deadlock s : sinv s -> (exists t, t < n /\ ph s t <> Out) -> exists t c, t < n /\ moves t s (sgo swap n s t c).
Proof.
  intros H Hex.
  assert (Hst : forall t c, t < n -> step swap n (trm s) (t, c) = go swap n (trm s) t c).
  { intros t c' Ht. unfold step. cbn [fst snd]. by rewrite (proj2 (Nat.ltb_lt t n) Ht). }
  destruct H as [(P & f & R)|[(k & W)|[(i & j & W)|E]]].
  - assert (Hmv : forall t, t < n -> P t = false -> ph s t = Loop \/ ph s t = Last -> exists t c, t < n /\ moves t s (sgo swap n s t c)).
    { intros t Ht HP Hp. exists t. pose proof (r_ph _ _ _ R t Ht HP) as Hr. destruct (pc_done (at_ (trm s) t)) as [Ed|Ed].
      - exists Act. split; [done|]. left. unfold sgo. destruct Hp as [Hp|Hp]; rewrite Hp in *; [|by rewrite Ed in Hr].
        rewrite Ed. destruct (t =? 0); cbn; by rewrite fset_eq.
      - destruct (go_moves (trm s) t Ed) as [c Hc]. exists (Ctl c). split; [done|]. right. unfold sgo.
        destruct Hp as [-> | ->]; cbv zeta; cbn; by rewrite Hst. }
    destruct (P 0) eqn:HP.
    + destruct (r_pend _ _ _ R 0 Hn HP) as (_ & _ & H). destruct (H eq_refl) as (i & Hi & Ei). exists 0, Act. split; [done|]. left. unfold sgo. rewrite Ei. destruct (i <? n); [|done]. cbn. intros E; injection E; lia.
    + pose proof (r_ph _ _ _ R 0 Hn HP) as Hr. destruct (ph s 0) eqn:Ep; try done.
      * apply (Hmv 0); auto.
      * by destruct Hr.
      * destruct Hr as (_ & Hi & Ha). pose proof (r_seen _ _ _ R 0 Hn HP) as Hs. rewrite Ha in Hs. destruct Hs as [_ Hall].
        destruct (Nat.ltb_spec i n) as [Hlt|Hge].
        2: { exists 0, Act. split; [done|]. left. unfold sgo. rewrite Ep. rewrite (proj2 (Nat.ltb_ge i n) Hge). done. }
        destruct (dn s) as [|d] eqn:Ed.
        2: { exists 0, Act. split; [done|]. left. unfold sgo. rewrite Ep, Ed. rewrite (proj2 (Nat.ltb_lt i n) Hlt). cbn. intros E; injection E; lia. }
        pose proof (r_dn _ _ _ R) as Hd. rewrite Ep, Ed in Hd. cbn in Hd.
        destruct (num_find (fun j => negb (j =? 0) && asleep (ph s j) && negb (P j)) n) as [(t & Ht & Hb)|Hb].
        -- assert (Ht' : t < n) by lia. pose proof (r_ph _ _ _ R t Ht' (Hall t Ht')) as Hr. apply (Hmv t); [done|by apply Hall|].
           cbn in Hb. rewrite (Hall t Ht') in Hb. destruct (Nat.eqb_spec t 0) as [|_]; [lia|]. destruct (ph s t); try done; auto. lia.
        -- pose proof (num_all _ n eq_refl Hb Hn). lia.
      * apply (Hmv 0); auto.
  - exists 0. destruct (N.eqb_spec k 0) as [->|Hk]; exists Act; (split; [done|]); left; unfold sgo; rewrite (s_ph _ _ W).
    + done.
    + rewrite (proj2 (N.eqb_neq k 0) Hk). done.
  - exists 0, Act. split; [done|]. left. unfold sgo. rewrite (w_ph _ _ _ W). destruct (i <? n); [|done]. cbn.
    destruct (j <=? 1); intros E; injection E; lia.
  - destruct (ending_can s E Hex) as (t & c & Ht & Hc & _). exists t, c. split; [done|]. destruct (ending_step s t c E Ht) as [_ [[_ H]|[H _]]]; [done|].
    destruct (phase_eq (ph (sgo swap n s t c) t) (ph s t)) as [E1|]; [|by left]. right. intros E2. rewrite E1, E2 in H. lia.
Qed.
End sstep.

(** The barrier alone: a count of who is in it. *)
Definition inside_ (p : bph) : bool := match p with In _ => true | _ => false end.
Definition owed (n : nat) (p : bph) : nat :=
  match p with At _ | In _ => 0 | Coll _ i => i - 1 | Alone _ => n - 1 | Freeing _ i => n - i end.
Record barrier (n : nat) (s : bst) : Prop := Barrier {
  ba_n : num (fun j => negb (j =? 0) && inside_ (bp s j)) n = bd s + br s + owed n (bp s 0);
  ba_0 : inside_ (bp s 0) = false;
  ba_i : match bp s 0 with Coll _ i | Freeing _ i => 1 <= i <= n | _ => True end;
  ba_o : forall t, 0 < t < n -> match bp s t with At _ | In _ => True | _ => False end }.
Lemma barrier_start n : barrier n bstart.
Proof. constructor; try done. cbn. apply num_zero. intros j _. by rewrite andb_false_r. Qed.
Lemma barrier_step n s t : 0 < n -> barrier n s -> t < n -> barrier n (bgo n s t).
Proof.
  intros Hn [B1 B2 B3 B4] Ht. destruct (decide (t = 0)) as [->|Ht0].
  - assert (Hnum : forall p, num (fun j => negb (j =? 0) && inside_ (fset (bp s) 0 p j)) n = num (fun j => negb (j =? 0) && inside_ (bp s j)) n).
    { intros p. apply num_ext. intros j Hj. destruct (decide (j = 0)) as [->|]; [done|by rewrite fset_ne]. }
    assert (Hk : forall p d r, inside_ p = false -> match p with Coll _ i | Freeing _ i => 1 <= i <= n | _ => True end ->
      d + r + owed n p = bd s + br s + owed n (bp s 0) -> barrier n (Bst (fset (bp s) 0 p) d r)).
    { intros p d r H1 H2 H3. constructor; cbn -[owed].
      - rewrite Hnum, B1. by rewrite H3.
      - done.
      - done.
      - intros j Hj. rewrite fset_ne by lia. by apply B4. }
    unfold bgo. destruct (bp s 0) as [r|r|r i|r|r i] eqn:Ep; cbn [Nat.eqb]; try done; cbn in B1.
    + apply Hk; cbn; lia || done.
    + destruct (Nat.ltb_spec i n) as [Hlt|Hge].
      * destruct (bd s) as [|d] eqn:Ed; [constructor; rewrite ?Ep, ?Ed; done|]. apply Hk; cbn; lia || done.
      * apply Hk; cbn; lia || done.
    + apply Hk; cbn; lia || done.
    + destruct (Nat.ltb_spec i n) as [Hlt|Hge]; apply Hk; cbn; lia || done.
  - pose proof (B4 t ltac:(lia)) as Hp.
    assert (Hk : forall p d r, match p with At _ | In _ => True | _ => False end ->
      num (fun j => negb (j =? 0) && inside_ (fset (bp s) t p j)) n = d + r + owed n (bp s 0) -> barrier n (Bst (fset (bp s) t p) d r)).
    { intros p d r H1 H2. constructor; cbn -[owed].
      - rewrite H2. by rewrite (fset_ne _ t 0) by done.
      - by rewrite fset_ne.
      - by rewrite fset_ne.
      - intros j Hj. destruct (decide (j = t)) as [->|]; [by rewrite fset_eq|]. rewrite fset_ne by done. by apply B4. }
    unfold bgo. destruct (bp s t) as [r|r|r i|r|r i] eqn:Ep; try done.
    + destruct (Nat.eqb_spec t 0) as [|_]; [done|]. apply Hk; [done|].
      rewrite (num_one (fun j => negb (j =? 0) && inside_ (bp s j)) _ n t Ht); [lia|by rewrite Ep, andb_false_r|rewrite fset_eq; by destruct (Nat.eqb_spec t 0)|].
      intros j Hj Hjt. by rewrite fset_ne.
    + destruct (br s) as [|k] eqn:Er; [constructor; rewrite ?Er; done|]. apply Hk; [done|].
      enough (num (fun j => negb (j =? 0) && inside_ (bp s j)) n = S (num (fun j => negb (j =? 0) && inside_ (fset (bp s) t (At (S r)) j)) n)) by lia.
      apply (num_one _ _ n t Ht); [by rewrite fset_eq, andb_false_r|rewrite Ep; by destruct (Nat.eqb_spec t 0)|].
      intros j Hj Hjt. by rewrite fset_ne.
Qed.
Lemma barrier_run n (Hn : 0 < n) sched : forall s, barrier n s -> barrier n (brun n s sched).
Proof.
  induction sched as [|t sched IH]; intros s B; [done|]. cbn -[Nat.ltb]. apply IH. destruct (Nat.ltb_spec t n); [by apply barrier_step|done].
Qed.
