(** C58: connected components and shortest paths come to rest, under every fair schedule. *)
From Verif Require Import Base QcUtil Engine_Spec Engine_Model Engine_Proofs Engine_Shape Engine_Props Min_Spec Min_Model Min_Proofs Min_Props Rest_Spec Rest_Proofs Rest_Work Rest_Min.
From Coq Require Import QArith Qcanon Qround.
Open Scope nat_scope.

(** Everything happens among the vertices below [N]; edges satisfy [okay], initial mails [good]. *)
Definition among {E} (N : nat) (okay : E -> Prop) (es : nat -> list (nat * E)) : Prop :=
  forall u, (N <= u -> es u = []) /\ forall d e, (d, e) ∈ es u -> d < N /\ okay e.
Definition change_among {a : alg} (N : nat) (okay : edge_t a -> Prop) (good : msg_t a -> Prop) (c : choice a) : Prop :=
  match c with
  | Run | Pop => True
  | AddEdges v l => v < N /\ forall d e, (d, e) ∈ l -> d < N /\ okay e
  | DelEdges _ _ => False
  | SendInit v m => v < N /\ good m
  end.

Lemma max_exists (f : nat -> nat) (N : nat) : exists M, forall u, u < N -> f u <= M.
Proof. induction N as [|N (M & HM)]; [by exists 0; lia|]. exists (M + f N). intros u Hu. destruct (decide (u = N)) as [->|]; [lia|]. pose proof (HM u ltac:(lia)). lia. Qed.

Section min.
Context {V E : Type} (leb : V -> V -> bool) (top : V) (ext : E -> V -> V) (below : bool).
Context (owner : nat -> nat) (n : nat) (Hown : forall v, owner v < n) (N : nat).
Context (good : V -> Prop) (okay : E -> Prop) (rank : V -> nat).
Context (Htop : good top) (Hext : forall e x, okay e -> good x -> good (ext e x))
  (Hrank : forall x y, good x -> good y -> leb x y = false -> rank y < rank x).
Notation A := (min_alg V E leb top ext below).
Lemma minv_reached es sched : among N okay es -> (forall t c, (t, c) ∈ sched -> change_among (a := A) N okay good c) ->
  minv leb top ext below n N good okay (erun A owner (estart A (fun _ => [top]) (fun _ => top) es) sched).
Proof.
  intros Hes Hs. assert (H0 : minv leb top ext below n N good okay (estart A (fun _ => [top]) (fun _ => top) es)).
  { split; try done.
    - intros v. exists top. done.
    - intros t. constructor.
    - intros u. apply list.Forall_forall. intros [d e] H. by apply (Hes u).
    - intros u Hu. by apply (Hes u). }
  revert H0. generalize (estart A (fun _ => [top]) (fun _ => top) es) as s. induction sched as [|[t c] l IH]; intros s H0; [done|].
  unfold erun. cbn [fold_left]. apply IH; [intros t' c' Hin; apply (Hs t' c'); by apply elem_of_list_further|].
  apply (minv_estep leb top ext below owner n Hown N good okay rank); try done. pose proof (Hs t c ltac:(apply elem_of_list_here)) as H. destruct c; try done. cbn in *. destruct H as [H1 H2]. split; [done|].
  apply list.Forall_forall. intros [d e] Hin. by apply H2.
Qed.
Lemma min_settles es sched : among N okay es -> (forall t c, (t, c) ∈ sched -> change_among (a := A) N okay good c) ->
  let s := erun A owner (estart A (fun _ => [top]) (fun _ => top) es) sched in finite A owner s /\ settles (erun A owner) (acts A) n idle s.
Proof.
  intros Hes Hs s. pose proof (minv_reached es sched Hes Hs) as Hi. fold s in Hi.
  destruct (max_exists (fun u => length (edges s u)) N) as (M & HM).
  eapply (min_settles_M leb top ext below owner n Hown N good okay rank); try done. 
  intros u. destruct (decide (u < N)) as [Hu|Hu]; [exact (HM u Hu)|]. rewrite (m_low _ _ _ _ _ _ _ _ _ Hi u) by lia. simpl. lia.
Qed.
End min.

(** Rounds bring no initial mail. *)
Lemma acts_given {a} owner (s : est a) l : (forall t c, (t, c) ∈ l -> c ∈ acts a) -> given owner s l = [].
Proof.
  revert s. induction l as [|[t c] l IH]; intros s Hl; [done|]. cbn [given]. rewrite IH by (intros; by apply (Hl t0 c0), elem_of_list_further). rewrite app_nil_r.
  unfold given_at. destruct (todo s t); [|done]. pose proof (Hl t c ltac:(apply elem_of_list_here)) as Hc. unfold acts in Hc. rewrite !elem_of_cons, elem_of_nil in Hc. by destruct Hc as [->|[->|[]]].
Qed.
Lemma given_app {a} owner (s : est a) l l' : given owner s (l ++ l') = given owner s l ++ given owner (erun a owner s l) l'.
Proof. revert s. induction l as [|[t c] l IH]; intros s; [done|]. cbn [given app]. rewrite IH, app_assoc. done. Qed.

(** Connected components: whatever has happened so far, after a number of rounds all is quiet. *)
Lemma components_finite owner n N es sched : (forall v, owner v < n) -> among N (fun _ => True) es ->
  (forall t c, (t, c) ∈ sched -> change_among N (fun _ => True) (fun _ => True) c) ->
  let s := erun cc owner (cc_start es) sched in finite cc owner s /\ settles (erun cc owner) (acts cc) n idle s.
Proof.
  intros Hown Hes Hs.
  apply (min_settles N.leb cc_empty (fun (_ : unit) x => x) false owner n Hown N (fun _ => True) (fun _ => True) N.to_nat); try done.
  intros x y _ _ H. apply N.leb_gt in H. lia.
Qed.
Theorem C58_components_rest owner n N es sched : (forall v, owner v < n) -> among N (fun _ => True) es ->
  (forall t c, (t, c) ∈ sched -> change_among N (fun _ => True) (fun _ => True) c) ->
  settles (erun cc owner) (acts cc) n idle (erun cc owner (cc_start es) sched).
Proof. intros Hown Hes Hs. by destruct (components_finite owner n N es sched Hown Hes Hs). Qed.

(** With C35: then every label is right. *)
Theorem C58_components owner n N es sched raw : (forall v, owner v < n) -> among N (fun _ => True) es ->
  (forall t c, (t, c) ∈ sched -> change_among N (fun _ => True) (fun _ => True) c) ->
  let s := erun cc owner (cc_start es) sched in let init := given owner (cc_start es) sched in
  (forall v x, (v, x) ∈ init -> x = raw v /\ (raw v < 2 ^ 32)%N) ->
  (forall u v e, (v, e) ∈ edges s u -> (u, raw u) ∈ init /\ exists e', (u, e') ∈ edges s v) ->
  settles (erun cc owner) (acts cc) n (fun s' => forall v, (v, raw v) ∈ init ->
    (exists u, joined (edges s) u v /\ prop s' v = raw u) /\ forall u, joined (edges s) u v -> (prop s' v <= raw u)%N) s.
Proof.
  intros Hown Hes Hs s init Hraw Hsym. destruct (C58_components_rest owner n N es sched Hown Hes Hs) as (bound & Hb).
  exists bound. intros rounds HF Hlen. specialize (Hb rounds HF Hlen). fold s in Hb.
  assert (Hacts : forall t c, (t, c) ∈ concat rounds -> c ∈ acts cc) by (intros t c; by apply rounds_acts with n).
  assert (Erun : erun cc owner s (concat rounds) = erun cc owner (cc_start es) (sched ++ concat rounds)) by (unfold s, erun; by rewrite fold_left_app).
  assert (Eg : given owner (cc_start es) (sched ++ concat rounds) = init) by (rewrite given_app, (acts_given owner _ (concat rounds)) by done; by rewrite app_nil_r).
  assert (Ee : edges (erun cc owner s (concat rounds)) = edges s) by (by apply acts_run_edges).
  pose proof (C35_components owner n es (sched ++ concat rounds) raw Hown) as HC. cbv zeta in HC. rewrite Eg, <- Erun, Ee in HC.
  apply HC; try done. intros t v gone Hin. apply elem_of_app in Hin as [Hin|Hin]; [by apply (Hs _ _ Hin)|].
  apply Hacts in Hin. unfold acts in Hin. rewrite !elem_of_cons, elem_of_nil in Hin. by destruct Hin as [?|[?|[]]].
Qed.

(** Shortest paths: [good] values are closed under extension by the edges that occur, and the order
    on them has no infinite descent. *)
Lemma shortest_finite rnd top owner n N (good okay : Qc -> Prop) (rank : Qc -> nat) es sched : (forall v, owner v < n) ->
  good top -> (forall w x, okay w -> good x -> good (rnd (x + w)%Qc)) -> (forall x y, good x -> good y -> y < x -> (rank y < rank x)%nat)%Qc ->
  among N okay es -> (forall t c, (t, c) ∈ sched -> change_among (a := sssp rnd top) N okay good c) ->
  let s := erun (sssp rnd top) owner (sssp_start rnd top es) sched in finite (sssp rnd top) owner s /\ settles (erun (sssp rnd top) owner) (acts (sssp rnd top)) n idle s.
Proof.
  intros Hown Ht Hx Hr Hes Hs.
  apply (min_settles qle top (fun w x => rnd (x + w)%Qc) true owner n Hown N good okay rank); try done.
  intros x y Gx Gy H. apply Hr; try done. apply Qcnot_le_lt. intros Hle. apply qle_iff in Hle. congruence.
Qed.
Theorem C58_shortest_rest rnd top owner n N (good okay : Qc -> Prop) (rank : Qc -> nat) es sched : (forall v, owner v < n) ->
  good top -> (forall w x, okay w -> good x -> good (rnd (x + w)%Qc)) -> (forall x y, good x -> good y -> y < x -> (rank y < rank x)%nat)%Qc ->
  among N okay es -> (forall t c, (t, c) ∈ sched -> change_among (a := sssp rnd top) N okay good c) ->
  settles (erun (sssp rnd top) owner) (acts (sssp rnd top)) n idle (erun (sssp rnd top) owner (sssp_start rnd top es) sched).
Proof. intros Hown Ht Hx Hr Hes Hs. by destruct (shortest_finite rnd top owner n N good okay rank es sched Hown Ht Hx Hr Hes Hs). Qed.

(** As the code has it, there are only finitely many values. *)
Definition lower (vals : list Qc) (x : Qc) : nat := length (List.filter (fun y => negb (qle x y)) vals).
Lemma lower_lt vals x y : y ∈ vals -> (y < x)%Qc -> lower vals y < lower vals x.
Proof.
  unfold lower. intros Hin Hlt.
  assert (Hle : forall l, length (List.filter (fun z => negb (qle y z)) l) <= length (List.filter (fun z => negb (qle x z)) l)).
  { intros l. induction l as [|z l IH]; [done|]. cbn [List.filter]. destruct (qle y z) eqn:E1, (qle x z) eqn:E2; cbn [negb length]; try lia.
    apply qle_iff in E2. assert (qle y z = true); [|congruence]. apply qle_iff. eapply Qcle_trans; [by apply Qclt_le_weak|done]. }
  apply elem_of_list_split in Hin as (l1 & l2 & ->). rewrite !List.filter_app, !app_length. cbn [List.filter].
  assert (qle y y = true) as -> by (apply qle_iff, Qcle_refl).
  assert (qle x y = false) as ->. { destruct (qle x y) eqn:E; [|done]. apply qle_iff in E. by apply Qcle_not_lt in E. }
  cbn [negb length]. pose proof (Hle l1). pose proof (Hle l2). lia.
Qed.
Theorem C58_shortest_rounded rnd top owner n N (vals : list Qc) es sched : (forall v, owner v < n) ->
  top ∈ vals -> (forall x, rnd x ∈ vals) ->
  among N (fun _ => True) es -> (forall t c, (t, c) ∈ sched -> change_among (a := sssp rnd top) N (fun _ => True) (fun x : Qc => x ∈ vals) c) ->
  settles (erun (sssp rnd top) owner) (acts (sssp rnd top)) n idle (erun (sssp rnd top) owner (sssp_start rnd top es) sched).
Proof.
  intros Hown Ht Hx Hes Hs. apply (C58_shortest_rest rnd top owner n N (fun x : Qc => x ∈ vals) (fun _ => True) (lower vals)); try done.
  intros x y _ Gy. by apply lower_lt.
Qed.

(** With exact sums: all weights and initial values are multiples of some [1/q] and not negative.
    (Floats are multiples of a common fraction.)  Then C36 holds at the end. *)
Definition on_grid (q : positive) (x : Qc) : Prop := exists k : nat, x = Q2Qc (Z.of_nat k # q).
Definition grid_rank (q : positive) (x : Qc) : nat := Z.to_nat (Qfloor (x * inject_Z (Zpos q))).
Lemma grid_plus q x y : on_grid q x -> on_grid q y -> on_grid q (x + y)%Qc.
Proof.
  intros (k & ->) (l & ->). exists (k + l). apply Qc_is_canon. cbn. rewrite !Qred_correct. unfold Qeq, Qplus. cbn. rewrite Pos2Z.inj_mul. lia.
Qed.
Lemma grid_rank_at q k : grid_rank q (Q2Qc (Z.of_nat k # q)) = k.
Proof.
  unfold grid_rank. assert (Qfloor (Q2Qc (Z.of_nat k # q) * inject_Z (Zpos q)) = Z.of_nat k) as ->; [|lia].
  rewrite <- (Qfloor_Z (Z.of_nat k)). apply Qfloor_comp. cbn [Q2Qc this]. rewrite Qred_correct. unfold Qeq, Qmult, inject_Z. cbn. lia.
Qed.
Lemma grid_lt q x y : on_grid q x -> on_grid q y -> (y < x)%Qc -> grid_rank q y < grid_rank q x.
Proof.
  intros (k & ->) (l & ->) H. rewrite !grid_rank_at. unfold Qclt in H. cbn [Q2Qc this] in H. rewrite !Qred_correct in H. unfold Qlt in H. cbn in H. nia.
Qed.
Theorem C58_shortest_paths top q owner n N es sched : (forall v, owner v < n) -> on_grid q top ->
  among N (on_grid q) es ->
  let A := sssp (fun x => x) top in
  (forall t c, (t, c) ∈ sched -> change_among (a := A) N (on_grid q) (on_grid q) c) ->
  let s := erun A owner (sssp_start (fun x => x) top es) sched in let init := given owner (sssp_start (fun x => x) top es) sched in
  settles (erun A owner) (acts A) n (fun s' => forall v,
    (forall u x d, (u, x) ∈ init -> path (edges s) u v d -> prop s' v <= x + d)%Qc /\
    ((exists u x d, (u, x) ∈ init /\ path (edges s) u v d /\ prop s' v = (x + d)%Qc) \/ prop s' v = top)) s.
Proof.
  intros Hown Ht Hes A Hs s init. subst A.
  set (s0 := sssp_start (fun x => x) top es) in *.
  destruct (C58_shortest_rest (fun x => x) top owner n N (on_grid q) (on_grid q) (grid_rank q) es sched Hown Ht) as (bound & Hb); try done.
  { intros w x Hw Hx. by apply grid_plus. }
  { intros x y. apply grid_lt. }
  exists bound. intros rounds HF Hlen. specialize (Hb rounds HF Hlen). fold s0 s in Hb.
  assert (Hacts : forall t c, (t, c) ∈ concat rounds -> c ∈ acts (sssp (fun x => x) top)) by (intros t c; by apply rounds_acts with n).
  assert (Erun : erun (sssp (fun x => x) top) owner s (concat rounds) = erun (sssp (fun x => x) top) owner s0 (sched ++ concat rounds)) by (unfold s, erun; by rewrite fold_left_app).
  assert (Eg : given owner s0 (sched ++ concat rounds) = init) by (rewrite given_app, (acts_given owner _ (concat rounds)) by done; by rewrite app_nil_r).
  assert (Ee : edges (erun (sssp (fun x => x) top) owner s (concat rounds)) = edges s) by (by apply acts_run_edges).
  assert (Hin : forall t c, (t, c) ∈ sched ++ concat rounds -> change_among (a := sssp (fun x => x) top) N (on_grid q) (on_grid q) c).
  { intros t c Hin. apply elem_of_app in Hin as [Hin|Hin]; [by apply (Hs _ _ Hin)|].
    apply Hacts in Hin. unfold acts in Hin. rewrite !elem_of_cons, elem_of_nil in Hin. by destruct Hin as [->|[->|[]]]. }
  assert (Hpos : forall w, on_grid q w -> (0 <= w)%Qc).
  { intros w (k & ->). unfold Qcle. cbn [Q2Qc this]. rewrite !Qred_correct. unfold Qle. cbn. lia. }
  pose proof (C36_shortest_paths top owner n es (sched ++ concat rounds) Hown) as HC. cbv zeta in HC. fold s0 in HC. rewrite Eg, <- Erun, Ee in HC.
  apply HC; try done.
  - intros t v gone H. by apply Hin in H.
  - split.
    + intros u v w H. apply Hpos. by apply (Hes u) in H as [_ ?].
    + intros t u l v w H Hl. apply Hpos. apply Hin in H as [_ H]. by apply (H v w).
Qed.

(** The schedule of C35 cut short: not quiet and one label wrong; sixty rounds later all is well. *)
Example C58_case :
  let s := erun cc toy_owner (cc_start (fun _ => [])) (firstn 190 cc_sched) in
  let rr : list (nat * choice cc) := [(0, Run); (1, Pop); (1, Run); (0, Pop)] in
  let s' := erun cc toy_owner s (concat (repeat rr 60)) in
  map (prop s) [0; 1; 2; 3; 4] = [5; 5; 5; 2; 1]%N /\ map (fun t => (length (todo s t), length (queue s t))) [0; 1] = [(0, 1); (0, 1)]
  /\ map (prop s') [0; 1; 2; 3; 4] = [5; 5; 5; 1; 1]%N /\ map (todo s') [0; 1] = [[]; []] /\ map (queue s') [0; 1] = [[]; []].
Proof. vm_compute. done. Qed.
Print Assumptions C58_components_rest.
Print Assumptions C58_components.
Print Assumptions C58_shortest_rest.
Print Assumptions C58_shortest_rounded.
Print Assumptions C58_shortest_paths.
