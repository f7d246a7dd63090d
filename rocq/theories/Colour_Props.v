(** C38: the colouring is proper. *)
From Verif Require Import Base Engine_Spec Engine_Model Engine_Proofs Engine_Shape Engine_Props
  Colour_Spec Colour_Model Colour_Best Colour_Proofs Colour_Run.
Open Scope nat_scope.

(** A run of the colouring: boxes of given length, all cells empty. *)
Definition col_run owner (b : nat -> nat) es sched : est colouring :=
  erun colouring owner (estart colouring (fun v => replicate (b v) EMPTY_VAL) (fun _ => new_prop) es) sched.
(** Positions are below [f] of the destination. *)
Definition positions_below (ever : nat -> list (nat * nat)) (f : nat -> nat) : Prop := forall u v p, (v, p) ∈ ever u -> p < f v.

Lemma col_inv owner n b es sched f K : (forall v, owner v < n) -> (N.of_nat K < 2 ^ 31 - 1)%N ->
  slots_unique (ever es sched) -> positions_below (ever es sched) f -> (forall v, b v <= f v <= K) ->
  cinv owner n K (ever es sched) (col_run owner b es sched) /\ fits f (col_run owner b es sched).
Proof.
  intros Hown HK HU HP Hf.
  assert (HP' : forall u v p, (v, p) ∈ ever es sched u -> p < K). { intros u v p H. pose proof (HP u v p H). pose proof (Hf v). lia. }
  assert (Hb : forall v c, c ∈ replicate (b v) EMPTY_VAL -> c = EMPTY_VAL). { intros v c H. by apply elem_of_replicate in H as [-> _]. }
  assert (Hl : forall v, length (replicate (b v) EMPTY_VAL) <= K). { intros v. rewrite replicate_length. pose proof (Hf v). lia. }
  split; [by apply cinv_run|]. eapply (fits_run owner n Hown K HK f); try done.
  intros v. rewrite replicate_length. apply Hf.
Qed.

(** Whatever the graph and its changes, the number of threads and the schedule: once everything is
    quiet, if the edges present are undirected, no two distinct adjacent vertices share a colour,
    and every colour is at most the number of positions used for edges into the vertex.  Vertices
    that had edges from the start were sent the initial mail. *)
Theorem C38_proper owner n b es sched f K : (forall v, owner v < n) -> (N.of_nat K < 2 ^ 31 - 1)%N ->
  slots_unique (ever es sched) -> positions_below (ever es sched) f -> (forall v, b v <= f v <= K) ->
  let s := col_run owner b es sched in
  idle s -> (forall u, es u <> [] -> Told u ∈ elog s) -> undirected (edges s) ->
  proper (edges s) (fun v => fst (prop s v)) /\
  forall u, edges s u <> [] -> (fst (prop s u) <= N.of_nat (f u))%N.
Proof.
  intros Hown HK HU HP Hf s Hidle Htold Hund.
  destruct (col_inv owner n b es sched f K Hown HK HU HP Hf) as [Hs Hfit]. fold s in Hs, Hfit.
  pose proof (C31_no_lost_wakeup colouring owner n (fun v => replicate (b v) EMPTY_VAL) (fun _ => new_prop) es sched Hown Hidle) as Hans.
  fold (col_run owner b es sched) in Hans. fold s in Hans.
  assert (Hb : forall u, edges s u <> [] -> Began u ∈ elog s).
  { intros u Hu. destruct (touched_run colouring owner es (fun v => replicate (b v) EMPTY_VAL) (fun _ => new_prop) sched u Hu) as [H|[H|(k & H)]].
    - apply Htold in H. apply elem_of_list_split in H. destruct H as (l1 & l2 & E). pose proof (Hans _ _ _ E).
      rewrite E. apply elem_of_app. right. by apply elem_of_list_further.
    - done.
    - fold (col_run owner b es sched) in H. fold s in H. rewrite (proj1 (Hidle _)) in H. by apply elem_of_nil in H. }
  assert (Hnsc : forall v, ~ scanning owner s v). { intros v (k & i & got & H). by rewrite (proj1 (Hidle _)) in H. }
  assert (Hnu : forall v, ~ unanswered (elog s) v). { intros v (l1 & l2 & E & H). by apply H, (Hans l1). }
  assert (Hcol : forall u, edges s u <> [] -> fst (prop s u) <> EMPTY_VAL).
  { intros u Hu E. destruct (c_fresh _ _ _ _ _ Hs u E) as [H|H]; [by apply H, Hb|by apply Hnsc in H]. }
  assert (Hhalf : forall u v p, (v, p) ∈ edges s u -> u <> v -> prio u v = true -> fst (prop s u) <> fst (prop s v)).
  { intros u v p Hin Hne Hpr E.
    destruct (c_tell _ _ _ _ _ Hs u v p Hin Hne Hpr) as [H|[H|H]].
    - apply (Hcol u); [|done]. intros E'. rewrite E' in Hin. by apply elem_of_nil in Hin.
    - destruct (c_seen _ _ _ _ _ Hs v p _ H) as [H'|H'].
      + apply has_msb_lor.
      + rewrite colour_of_msb; [done|]. by apply (colr_lt owner n Hown K HK (ever es sched)).
      + by apply Hnu in H'.
      + by apply Hnsc in H'.
    - rewrite (proj1 (Hidle _)) in H. by apply no_tell in H. }
  split.
  - intros u v p Hin Hne. destruct (prio u v) eqn:Epr; [by eapply Hhalf|].
    destruct (Hund u v p Hin) as (q & Hq). intros E. symmetry in E. revert E. eapply Hhalf; [exact Hq|congruence|].
    rewrite (prio_total u v) in Epr by done. by apply negb_false_iff in Epr.
  - intros u Hu. destruct (c_small _ _ _ _ _ Hs u) as [H|H]; [by apply Hcol in H|].
    pose proof (Hfit u). etrans; [exact H|]. lia.
Qed.
Print Assumptions C38_proper.

(** Two threads.  The path 0 - 1 - 2 is there from the start; 2 - 0 is added while colours travel,
    which closes a triangle; then 3 - 2 arrives and 0 - 1 goes. *)
Definition col_es (v : nat) : list (nat * nat) :=
  match v with 0 => [(1, 0)] | 1 => [(0, 0); (2, 0)] | 2 => [(1, 1)] | _ => [] end.
Definition col_sched : list (nat * choice colouring) :=
  let run t k : list (nat * choice colouring) := repeat (t, Run) k in
  let init v : choice colouring := SendInit (a := colouring) v (0%N, 0) in
  [(0, init 0); (1, init 1)] ++ concat (repeat [(0, Run); (1, Run)] 30) ++ [(0, init 2)] ++ run 0 30 ++
  [(0, AddEdges (a := colouring) 2 [(0, 1)])] ++ run 0 4 ++ [(1, Pop)] ++ run 1 30 ++ run 0 30 ++
  [(0, AddEdges (a := colouring) 0 [(2, 1)])] ++ run 0 30 ++
  concat (repeat ((0, Pop) :: run 0 30 ++ (1, Pop) :: run 1 30) 8).
Definition col_later : list (nat * choice colouring) :=
  let run t k : list (nat * choice colouring) := repeat (t, Run) k in
  [(1, AddEdges (a := colouring) 3 [(2, 2)])] ++ run 1 30 ++ [(0, AddEdges (a := colouring) 2 [(3, 0)])] ++ run 0 30 ++
  [(0, DelEdges (a := colouring) 0 [true; false])] ++ run 0 30 ++ [(1, DelEdges (a := colouring) 1 [true; false])] ++ run 1 30 ++
  concat (repeat ((0, Pop) :: run 0 30 ++ (1, Pop) :: run 1 30) 8).
Definition col_sizes (v : nat) : nat := match v with 0 | 2 => 1 | 1 => 2 | _ => 0 end.
Example C38_case :
  let s := col_run toy_owner col_sizes col_es col_sched in let s' := col_run toy_owner col_sizes col_es (col_sched ++ col_later) in
  map (fun v => fst (prop s v)) [0; 1; 2] = [0; 2; 1]%N /\ map (fun t => length (todo s t)) [0; 1] = [0; 0] /\ map (queue s) [0; 1] = [[]; []] /\
  map (edges s) [0; 1; 2] = [[(1, 0); (2, 1)]; [(0, 0); (2, 0)]; [(1, 1); (0, 1)]] /\
  map (fun v => fst (prop s' v)) [0; 1; 2; 3] = [0; 0; 1; 0]%N /\ map (fun t => length (todo s' t)) [0; 1] = [0; 0] /\ map (queue s') [0; 1] = [[]; []] /\
  map (edges s') [0; 1; 2; 3] = [[(2, 1)]; [(2, 0)]; [(1, 1); (0, 1); (3, 0)]; [(2, 2)]].
Proof. vm_compute. repeat split; reflexivity. Qed.
