(** The colouring comes to rest on graphs without self-loops: only vertices that go first notify. *)
From Verif Require Import Base Engine_Spec Engine_Model Engine_Proofs Engine_Shape Engine_Props Rest_Spec Rest_Proofs Rest_Prio.
From Verif Require Import Colour_Spec Colour_Model Colour_Best Colour_Proofs Colour_Run Colour_Props Wait_Model.
Open Scope nat_scope.

Lemma prio_trans u v w : prio u v = true -> prio v w = true -> prio u w = true.
Proof.
  unfold prio, compare_priority. generalize (hash u), (hash v), (hash w). intros x y z.
  rewrite !orb_true_iff, !andb_true_iff, !N.ltb_lt, !N.eqb_eq, !Nat.ltb_lt. lia.
Qed.
Lemma prio_irrefl u : prio u u = false.
Proof. unfold prio, compare_priority. by rewrite N.ltb_irrefl, Nat.ltb_irrefl, andb_false_r. Qed.

Lemma filter_le {A} (p : A -> bool) (l : list A) : length (List.filter p l) <= length l.
Proof. induction l as [|x l IH]; [done|]. cbn [List.filter]. destruct (p x); cbn [length]; lia. Qed.
(** How many of the first [N] vertices go after [v]. *)
Definition below (N v : nat) : nat := length (List.filter (prio v) (seq 0 N)).
Lemma filter_lt {A} (p q : A -> bool) (l : list A) x : (forall y, p y = true -> q y = true) -> x ∈ l -> p x = false -> q x = true ->
  length (List.filter p l) < length (List.filter q l).
Proof.
  intros Hpq Hin Hp Hq. assert (Hle : forall l, length (List.filter p l) <= length (List.filter q l)).
  { clear l Hin. intros l. induction l as [|y l IH]; [done|]. cbn [List.filter]. pose proof (Hpq y). destruct (p y), (q y); cbn [length]; try lia; specialize (H eq_refl); done. }
  apply elem_of_list_split in Hin as (l1 & l2 & ->). rewrite !List.filter_app, !app_length. cbn [List.filter]. rewrite Hp, Hq. cbn [length].
  pose proof (Hle l1). pose proof (Hle l2). lia.
Qed.
Lemma below_lt N s d : d < N -> prio s d = true -> below N d < below N s.
Proof.
  intros Hd Hp. apply (filter_lt _ _ _ d); [|apply elem_of_list_In, in_seq; lia|apply prio_irrefl|done].
  intros y Hy. by apply (prio_trans _ d).
Qed.

(** No self-loops, and everything below [N]. *)
Definition loopless (N : nat) (es : nat -> list (nat * nat)) : Prop := forall u v p, (v, p) ∈ es u -> v <> u /\ v < N.

Section col.
Context (owner : nat -> nat) (n : nat) (Hown : forall v, owner v < n) (K top : nat).
Definition okc (s d : nat) (m : N * nat) : Prop := s <> d /\ d < top /\ snd m < K.
Lemma col_reacts B v (k : kind nat) (es : list (nat * nat)) : Forall (fun '(d, p) => okc v d (0%N, p)) es -> (forall gone, k = KDel gone -> Forall (fun '(d, p) => okc v d (0%N, p)) gone /\ length gone <= B - 2 * length es) ->
  2 * length es <= B -> reacts colouring okc B v k es.
Proof.
  intros He Hk HB p cs. cbn [react colouring]. unfold col_react.
  assert (Hu : forall p', Forall (fun '(d, m) => okc v d m) (snd (on_update p' es)) /\ length (snd (on_update p' es)) <= length es).
  { intros p'. unfold on_update. destruct (_ =? _)%N; cbn [snd]; [split; [constructor|simpl; lia]|]. rewrite map_length. split; [|done].
    apply Forall_fmap. eapply List.Forall_impl; [|exact He]. by intros [d x]. }
  destruct (on_update (mail_retrieve cs p) es) as [q ms] eqn:E. specialize (Hu (mail_retrieve cs p)). rewrite E in Hu. cbn [snd] in Hu. destruct Hu as [H1 H2].
  destruct k as [|start|gone].
  - split_and!; [done|constructor|simpl; lia].
  - split_and!; [done| |].
    + apply Forall_fmap, list.Forall_forall. intros [d x] Hin. apply elem_of_list_In, filter_In in Hin as [Hin _]. apply elem_of_list_In in Hin. rewrite list.Forall_forall in He.
      assert (Hin' : (d, x) ∈ es). { rewrite <- (take_drop start es). apply elem_of_app. by right. } by apply (He _ Hin').
    + rewrite map_length. pose proof (filter_le (fun '(d, _) => prio v d) (skipn start es)) as Hf. rewrite skipn_length in Hf. cbn in *. lia.
  - destruct (Hk gone eq_refl) as [G1 G2]. split_and!; [|constructor|].
    + apply Forall_app. split; [done|]. apply Forall_fmap. eapply List.Forall_impl; [|exact G1]. by intros [d x].
    + rewrite app_length, map_length. cbn [length]. lia.
Qed.

Lemma colouring_pinv past s : (N.of_nat K < 2 ^ 31 - 1)%N -> cinv owner n K past s -> loopless top past -> (forall u v p, (v, p) ∈ past u -> p < K) ->
  (forall u, top <= u -> past u = []) -> exists B, pinv colouring n okc (fun _ _ => True) K B s.
Proof.
  intros HK Hs HL HP Hlow.
  (** Bounds for the edges of a vertex and for the deletions in progress. *)
  assert (Hb : forall (f : nat -> nat) m, exists M, forall u, u < m -> f u <= M).
  { intros f m. induction m as [|m (M & HM)]; [by exists 0; lia|]. exists (M + f m). intros u Hu. destruct (decide (u = m)) as [->|]; [lia|]. pose proof (HM u ltac:(lia)). lia. }
  destruct (Hb (fun u => length (edges s u)) top) as (M & HM).
  destruct (Hb (fun t => list_sum (map (fun o : op colouring => match o with Begin _ (KDel gone) | Scan _ (KDel gone) _ _ => length gone | _ => 0 end) (todo s t))) n) as (G & HG).
  assert (HM' : forall u, length (edges s u) <= M).
  { intros u. destruct (decide (u < top)) as [Hu|Hu]; [exact (HM u Hu)|]. pose proof (c_past _ _ _ _ _ Hs u) as Hp. rewrite (Hlow u) in Hp by lia. apply sublist_length in Hp. cbn in Hp |- *. lia. }
  assert (HT : threads colouring n s) by (apply (shaped_threads owner); [done|apply Hs|apply (w_queue _ _ _ _ (c_wake _ _ _ _ _ Hs))]).
  assert (HE : forall u, Forall (fun '(d, p) => okc u d (0%N, p)) (edges s u)).
  { intros u. apply list.Forall_forall. intros [d p] Hin. assert (Hi : (d, p) ∈ past u) by (eapply elem_of_submseteq; [exact Hin|]; apply sublist_submseteq, Hs). destruct (HL u d p Hi) as [L1 L2]. split_and!; [done..|]. by apply (HP u d). }
  exists (2 * M + G).
  assert (HR : forall t v k, ((exists gone, k = KDel gone /\ deleting (todo s t) v gone) \/ forall gone, k <> KDel gone) -> reacts colouring okc (2 * M + G) v k (edges s v)).
  { intros t v k Hk. pose proof (HM' v). apply col_reacts; [done| |change (edge_t colouring) with nat in *; lia].
    intros gone ->. destruct Hk as [(gone' & [= <-] & Hd)|Hk]; [|by specialize (Hk gone)]. split.
    - apply list.Forall_forall. intros [d p] Hin. pose proof (proj1 (proj2 (c_del _ _ _ _ _ Hs t v gone Hd) _ Hin)) as Hi. destruct (HL v d p Hi) as [L1 L2]. split_and!; [done..|]. by apply (HP v d).
    - assert (Hl : length gone <= G); [|change (edge_t colouring) with nat in *; lia].
      assert (Ht : t < n). { destruct (decide (t < n)) as [|Ht]; [done|]. destruct (HT t ltac:(lia)) as [E _]. destruct Hd as [Hd|(i & got & Hd)]; rewrite E in Hd; by apply elem_of_nil in Hd. }
      etrans; [|exact (HG t Ht)].
      assert (Hsum : forall l (o : op colouring) (f : op colouring -> nat), o ∈ l -> f o <= list_sum (map f l)).
      { intros l o f Hin. apply elem_of_list_split in Hin as (l1 & l2 & ->). rewrite map_app, list_sum_app. cbn [map]. change (list_sum (?x :: ?y)) with (x + list_sum y). lia. }
      destruct Hd as [Hd|(i & got & Hd)]; exact (Hsum _ _ _ Hd). }
  split.
  - done.
  - apply (c_len _ _ _ _ _ Hs).
  - intros t. apply list.Forall_forall. intros o Ho. destruct o as [v d m|d|d|v|v k|v k i got|l|v m]; cbn [pop]; try done.
    + destruct m as [c p]. destruct (c_msg _ _ _ _ _ Hs t v d c p ltac:(by left)) as (_ & Hi & _). destruct (HL v d p Hi) as [L1 L2]. split_and!; [done..|]. by apply (HP v d).
    + apply (HR t). destruct k as [|st|gone]; [by right|by right|]. left. exists gone. split; [done|]. by left.
    + apply (HR t). destruct k as [|st|gone]; [by right|by right|]. left. exists gone. split; [done|]. right. by exists i, got.
    + apply list.Forall_forall. intros [[v d] [c p]] Hin. destruct (c_msg _ _ _ _ _ Hs t v d c p ltac:(right; by exists l)) as (_ & Hi & _). destruct (HL v d p Hi) as [L1 L2]. split_and!; [done..|]. by apply (HP v d).
  - intros v. apply (HR 0). by right.
Qed.

Lemma colouring_rests past s : (N.of_nat K < 2 ^ 31 - 1)%N -> cinv owner n K past s -> loopless top past -> (forall u v p, (v, p) ∈ past u -> p < K) ->
  (forall u, top <= u -> past u = []) -> finite colouring owner s /\ settles (erun colouring owner) (acts colouring) n idle s.
Proof.
  intros HK Hs HL HP Hlow. destruct (colouring_pinv past s HK Hs HL HP Hlow) as (B & Hp).
  apply (prio_settles colouring owner n Hown (below top) okc (fun _ _ => True) K B (fun s d => negb (prio d s))); [| | | |exact Hp].
  - intros [c p] u d b (H1 & H2 & H3). cbn [merge colouring]. unfold mail_merge. destruct (Nat.eqb_spec u d); [done|].
    repeat case_match; cbn; congruence.
  - intros m u d (H1 & H2 & H3) Ht. apply below_lt; [done|]. by rewrite prio_total.
  - intros m u d b (H1 & H2 & H3) Hb. cbn [merge colouring]. destruct (mail_merge m u d b) as [l x] eqn:E. apply merge_len in E as [_ E]. cbn in *. lia.
  - intros m v b _ Hb. cbn [merge colouring]. destruct (mail_merge m v v b) as [l x] eqn:E. apply merge_self in E as [-> _]. done.
Qed.
End col.
