(** C39: with wait counts, every schedule yields the same greedy colouring. *)
From Verif Require Import Base Bitmap_Spec Bitmap_Model Bitmap_Proofs Vertex_Model Engine_Spec Engine_Model Engine_Proofs Engine_Shape Engine_Told Engine_Props
  Colour_Spec Colour_Model Colour_Best Colour_Proofs Colour_Run Wait_Spec Wait_Model Wait_Proofs Wait_Steps Wait_Run.
Open Scope nat_scope.

(** A run: [b v] slots at [v], counts as the mailboxes are created. *)
Definition wait_run owner (b : nat -> nat) es sched : est waiting :=
  erun waiting owner (estart waiting (fun v => wait_box es (b v) v) (fun _ => new_prop) es) sched.

(** Induction along the priority. *)
Lemma prio_ind (P : nat -> Prop) : (forall v, (forall u, prio u v = true -> P u) -> P v) -> forall v, P v.
Proof.
  intros H. assert (HH : forall h i v, hash v = h -> v = i -> P v); [|by intros v; eapply HH].
  intros h. induction (N.lt_wf_0 h) as [h _ IHh]. intros i. induction (lt_wf i) as [i _ IHi].
  intros v Eh Ei. apply H. intros u Hu. unfold prio, compare_priority in Hu. apply orb_true_iff in Hu.
  rewrite andb_true_iff, N.ltb_lt, N.eqb_eq, Nat.ltb_lt in Hu. destruct Hu as [Hu|[Hu1 Hu2]].
  - eapply (IHh (hash u)); [by rewrite <- Eh|done|done].
  - eapply (IHi u); [by rewrite <- Ei|by rewrite Hu1|done].
Qed.

(** The greedy colouring is unique. *)
Lemma smallest_unique (S S' : N -> Prop) c c' : (forall x, S x <-> S' x) -> smallest_unused S c -> smallest_unused S' c' -> c = c'.
Proof.
  intros HS [H1 H2] [H3 H4]. destruct (N.lt_trichotomy c c') as [H|[H|H]]; [|done|].
  - by apply H4, HS in H.
  - apply H2, HS in H. done.
Qed.
Lemma greedy_unique es col col' : greedy prio es col (fun v => es v <> []) -> greedy prio es col' (fun v => es v <> []) ->
  forall v, es v <> [] -> col v = col' v.
Proof.
  intros H H'. apply (prio_ind (fun v => es v <> [] -> col v = col' v)). intros v IH Hv.
  eapply smallest_unique; [|by apply H|by apply H'].
  assert (Hu : forall u p, (v, p) ∈ es u -> es u <> []) by (intros u p Hin E; rewrite E in Hin; by apply elem_of_nil in Hin).
  intros x. split; intros (u & p & H1 & H2 & ->); exists u, p; (split_and!; [done..|]); [|symmetry]; apply IH; eauto.
Qed.

(** Whatever the undirected multigraph, the number of threads and the schedule: once everything is
    quiet, every vertex with edges has the smallest colour that no neighbour of higher priority
    has.  Only the vertices that no neighbour precedes need to have reacted to the initial mail. *)
Theorem C39_greedy owner n b es sched : (forall v, owner v < n) -> slots_unique es -> balanced es ->
  (forall u v p, (v, p) ∈ es u -> p < b v) -> (forall v, (N.of_nat (b v) < 2 ^ 31 - 1)%N) ->
  (forall t c, (t, c) ∈ sched -> static_choice c) ->
  let s := wait_run owner b es sched in
  idle s -> (forall v, es v <> [] -> (forall u p, (v, p) ∈ es u -> prio u v = false) -> Told v ∈ elog s) ->
  greedy prio es (fun v => fst (prop s v)) (fun v => es v <> []).
Proof.
  intros Hown HU HB Hpos Hsize Hst s Hidle Hroot.
  pose proof (winv_run owner n Hown es b HU HB Hpos Hsize sched Hst) as Hs. fold (wait_run owner b es sched) in Hs. fold s in Hs.
  pose proof (C31_no_lost_wakeup waiting owner n (fun v => wait_box es (b v) v) (fun _ => new_prop) es sched Hown Hidle) as Hans.
  fold (wait_run owner b es sched) in Hans. fold s in Hans.
  assert (Hp : forall u v p, pend owner s u v p = []). { intros u v p. unfold pend. by rewrite (proj1 (Hidle _)). }
  assert (Htold : forall v, Told v ∈ elog s -> fst (prop s v) <> EMPTY_VAL).
  { intros v H. apply elem_of_list_split in H. destruct H as (l1 & l2 & E). pose proof (Hans _ _ _ E) as Hb.
    destruct (v_upd _ _ _ _ _ Hs v) as [(k & i & got & H)|H]; [| |done].
    - rewrite E. apply elem_of_app. right. by apply elem_of_list_further.
    - rewrite (proj1 (Hidle _)) in H. by apply elem_of_nil in H. }
  assert (Hcol : forall v, es v <> [] -> fst (prop s v) <> EMPTY_VAL).
  { apply (prio_ind (fun v => es v <> [] -> fst (prop s v) <> EMPTY_VAL)). intros v IH Hv. apply Htold.
    destruct (higher es v) as [|x l] eqn:Eh.
    - apply Hroot; [done|]. intros u p Hin. destruct (prio u v) eqn:E; [|done].
      assert (H : (u, p) ∈ higher es v) by (by apply in_higher). rewrite Eh in H. by apply elem_of_nil in H.
    - assert (Hc : cnt owner es s v = 0).
      { apply (cnt_zero owner n Hown es b s v). intros u p H. rewrite Hp. split; [|cbn; lia].
        apply in_higher in H; [|done]. destruct H as [H1 H2]. apply IH; [done|]. intros E. rewrite E in H1. by apply elem_of_nil in H1. }
      destruct (v_zero _ _ _ _ _ Hs v Hc) as [H|(u & p & c & H1 & H2)]; [by rewrite Eh|done|]. exfalso.
      destruct (v_slot _ _ _ _ _ Hs u v p H1) as (c' & r & H3 & _ & H4 & _). assert (E : Some (c, RZero) = Some (c', r)) by (rewrite <- H3; symmetry; exact H2).
      injection E as <- <-. destruct (H4 eq_refl) as [H5 _]. by rewrite Hp in H5. }
  intros v Hv. by apply (v_prop _ _ _ _ _ Hs v), Hcol.
Qed.
Print Assumptions C39_greedy.

(** So two quiet runs on the same graph agree, whatever their threads and schedules. *)
Theorem C39_same owner n b es sched owner' n' b' sched' : slots_unique es -> balanced es ->
  (forall v, owner v < n) -> (forall u v p, (v, p) ∈ es u -> p < b v) -> (forall v, (N.of_nat (b v) < 2 ^ 31 - 1)%N) -> (forall t c, (t, c) ∈ sched -> static_choice c) ->
  (forall v, owner' v < n') -> (forall u v p, (v, p) ∈ es u -> p < b' v) -> (forall v, (N.of_nat (b' v) < 2 ^ 31 - 1)%N) -> (forall t c, (t, c) ∈ sched' -> static_choice c) ->
  let s := wait_run owner b es sched in let s' := wait_run owner' b' es sched' in
  idle s -> (forall v, es v <> [] -> (forall u p, (v, p) ∈ es u -> prio u v = false) -> Told v ∈ elog s) ->
  idle s' -> (forall v, es v <> [] -> (forall u p, (v, p) ∈ es u -> prio u v = false) -> Told v ∈ elog s') ->
  forall v, es v <> [] -> fst (prop s v) = fst (prop s' v).
Proof.
  intros HU HB A1 A2 A3 A4 B1 B2 B3 B4 s s' I R I' R'.
  apply (greedy_unique es (fun v => fst (prop s v)) (fun v => fst (prop s' v))); by eapply C39_greedy.
Qed.
Print Assumptions C39_same.

(** Two threads, a triangle with a doubled edge and a tail: 0 = 1, 1 - 2, 2 - 0, 2 - 3.  In the
    first schedule a thread stops between the store and the count of a message. *)
Definition wait_es (v : nat) : list (nat * nat) :=
  match v with 0 => [(1, 0); (1, 1); (2, 0)] | 1 => [(0, 0); (0, 1); (2, 1)] | 2 => [(1, 2); (0, 2); (3, 0)] | 3 => [(2, 2)] | _ => [] end.
Definition wait_b (v : nat) : nat := match v with 0 | 1 | 2 => 3 | 3 => 1 | _ => 0 end.
Definition wait_s1 : list (nat * choice waiting) :=
  let run t k : list (nat * choice waiting) := repeat (t, Run) k in
  let init v : choice waiting := SendInit (a := waiting) v (Ld 0) in
  [(1, init 1); (0, init 0)] ++ concat (repeat [(0, Run); (1, Run)] 9) ++ run 0 60 ++ run 1 10 ++ [(1, init 3)] ++ run 1 20 ++ [(0, init 2)] ++ run 0 40 ++
  concat (repeat ((1, Pop) :: run 1 30 ++ (0, Pop) :: run 0 30) 6).
Definition wait_s2 : list (nat * choice waiting) :=
  let run t k : list (nat * choice waiting) := repeat (t, Run) k in
  let init v : choice waiting := SendInit (a := waiting) v (Ld 0) in
  concat (map (fun v => (0, init v) :: run 0 40) [3; 2; 1; 0]) ++ concat (repeat ((0, Pop) :: run 0 60) 12).
Example C39_case :
  let s := wait_run toy_owner wait_b wait_es wait_s1 in let s' := wait_run (fun _ => 0) wait_b wait_es wait_s2 in
  map (fun v => fst (prop s v)) [0; 1; 2; 3] = [0; 1; 2; 0]%N /\ map (fun t => length (todo s t)) [0; 1] = [0; 0] /\ map (queue s) [0; 1] = [[]; []] /\
  map (fun v => fst (prop s' v)) [0; 1; 2; 3] = [0; 1; 2; 0]%N /\ length (todo s' 0) = 0 /\ queue s' 0 = [] /\
  map (fun v => length (List.filter (fun e => match e with Told w => w =? v | _ => false end) (elog s))) [0; 1; 2; 3] = [1; 1; 1; 1].
Proof. vm_compute. repeat split; reflexivity. Qed.
