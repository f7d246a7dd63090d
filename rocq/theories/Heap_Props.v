(** C04 and C05: priority queue and binary search. *)
From Verif Require Import Base Heap_Spec Heap_Model Heap_Proofs.

(** C04.  [Init] on any slice, then any history of Push / Pop / Peek / Fix at any
    index: the results are those of a bag of elements with minimum extraction. *)
Theorem C04_pq_is_a_min_bag :
  forall (A : Type) (less : A -> A -> bool), weak_order less ->
  forall (start : list A) (os : list pq_op) (h : list A) (rs : list pq_res),
    pq_run less (pq_init less start) os = (h, rs) ->
    exists bag, Permutation bag start /\ pq_steps less bag os rs h.
Proof.
  intros A less W start os h rs Hr. exists (pq_init less start).
  split; [exact (proj2 (pq_init_ok less W start))|].
  exact (proj2 (pq_run_ok less W os _ _ _ (proj1 (pq_init_ok less W start)) Hr)).
Qed.
Print Assumptions C04_pq_is_a_min_bag.

(** C04.  Popping until the heap is empty sorts. *)
Theorem C04_pop_all_sorts :
  forall (A : Type) (less : A -> A -> bool), weak_order less ->
  forall (start : list A) (n : nat), length start <= n ->
    Permutation (pop_all less n (pq_init less start)) start /\
    StronglySorted (fun a b => less b a = false) (pop_all less n (pq_init less start)).
Proof.
  intros A less W start n Hn. destruct (pq_init_ok less W start) as [H1 H2].
  destruct (pop_all_sorted less W n _ H1) as [H3 H4].
  - rewrite H2. exact Hn.
  - split; [rewrite H3; exact H2|exact H4].
Qed.
Print Assumptions C04_pop_all_sorts.

Lemma nat_ltb_weak_order : weak_order Nat.ltb.
Proof. split; intros *; rewrite ?Nat.ltb_lt, ?Nat.ltb_ge; lia. Qed.

Example C04_case :
  snd (pq_run Nat.ltb (pq_init Nat.ltb [5; 3; 8; 1; 9; 1])
        [PqPop; PqPush 2; PqPeek; PqFix 0 7; PqPop; PqPop; PqPop; PqPop; PqPop; PqPop; PqPop])
  = [PqElem 1; PqUnit; PqElem 1; PqElem 1; PqElem 2; PqElem 3; PqElem 5; PqElem 7; PqElem 8;
     PqElem 9; PqPanic].
Proof. vm_compute. reflexivity. Qed.

(** C05.  [cmp h] is the comparison of element h with the target; it must be
    monotone over the slice (negative before non-negative). *)
Theorem C05_binary_search_boundary :
  forall (n : nat) (cmp : nat -> Z) (r : nat) (found : bool),
    (forall a b, a <= b -> b < n -> (cmp b < 0)%Z -> (cmp a < 0)%Z) ->
    bsearch n cmp = (r, found) ->
    r <= n /\ (forall k, k < r -> (cmp k < 0)%Z) /\
    (forall k, r <= k -> k < n -> (0 <= cmp k)%Z) /\
    (found = true <-> r < n /\ cmp r = 0%Z).
Proof. exact bsearch_ok. Qed.
Print Assumptions C05_binary_search_boundary.

(** C05 for a sorted slice of integers: found exactly when the target occurs. *)
Theorem C05_binary_search_sorted :
  forall (l : list Z) (t : Z) (r : nat) (found : bool),
    Sorted Z.le l ->
    bsearch (length l) (fun i => nth i l 0 - t)%Z = (r, found) ->
    r <= length l /\
    (forall x, In x (firstn r l) -> (x < t)%Z) /\ (forall x, In x (skipn r l) -> (t <= x)%Z) /\
    (found = true <-> In t l).
Proof.
  intros l t r found Hs Hb.
  assert (Hmono : forall a b, a <= b -> b < length l -> (nth a l 0 <= nth b l 0)%Z).
  { apply Sorted_StronglySorted in Hs; [|intros ? ? ?; lia].
    clear -Hs. induction Hs as [|x l Hs IH Hf]; intros a b Hab Hb; simpl in *; [lia|].
    destruct a as [|a], b as [|b]; [lia| |lia|apply IH; lia].
    rewrite List.Forall_forall in Hf. apply Hf. apply nth_In. lia. }
  destruct (bsearch_ok (length l) (fun i => nth i l 0 - t)%Z r found) as (B1 & B2 & B3 & B4).
  { intros a b Hab Hbl Hlt. specialize (Hmono a b Hab Hbl). lia. }
  { exact Hb. }
  assert (Hfirst : forall x, In x (firstn r l) -> (x < t)%Z).
  { intros x Hx. destruct (In_nth _ _ 0%Z Hx) as (k & Hk & Hkx).
    rewrite firstn_length in Hk. specialize (B2 k ltac:(lia)).
    rewrite <- (firstn_skipn r l) in B2. rewrite app_nth1 in B2 by (rewrite firstn_length; lia). lia. }
  assert (Hrest : forall x, In x (skipn r l) -> (t <= x)%Z).
  { intros x Hx. destruct (In_nth _ _ 0%Z Hx) as (k & Hk & Hkx).
    rewrite skipn_length in Hk. specialize (B3 (r + k) ltac:(lia) ltac:(lia)).
    rewrite <- (firstn_skipn r l) in B3.
    rewrite app_nth2 in B3 by (rewrite firstn_length; lia).
    rewrite firstn_length in B3. replace (r + k - Nat.min r (length l)) with k in B3 by lia. lia. }
  split; [exact B1|]. split; [exact Hfirst|]. split; [exact Hrest|]. rewrite B4. split.
  - intros [H1 H2]. replace t with (nth r l 0%Z) by lia. by apply nth_In.
  - intros Hin. rewrite <- (firstn_skipn r l) in Hin. apply in_app_iff in Hin as [Hin|Hin].
    + specialize (Hfirst _ Hin). lia.
    + destruct (In_nth _ _ 0%Z Hin) as (k & Hk & Hkx). rewrite skipn_length in Hk.
      split; [lia|].
      assert (nth (r + k) l 0 = t)%Z.
      { rewrite <- (firstn_skipn r l). rewrite app_nth2 by (rewrite firstn_length; lia).
        rewrite firstn_length. by replace (r + k - Nat.min r (length l)) with k by lia. }
      specialize (Hmono r (r + k) ltac:(lia) ltac:(lia)).
      specialize (B3 r ltac:(lia) ltac:(lia)). lia.
Qed.
Print Assumptions C05_binary_search_sorted.

Example C05_case :
  map (fun t => bsearch 5 (fun i => nth i [10; 20; 20; 30; 50] 0 - t)%Z) [5; 20; 25; 60]%Z
  = [(0, false); (1, true); (3, false); (5, false)].
Proof. vm_compute. reflexivity. Qed.
