(** C35: connected components, C36: shortest paths. *)
From Verif Require Import Base QcUtil Engine_Spec Engine_Model Engine_Proofs Engine_Shape Engine_Props Min_Spec Min_Model Min_Proofs.
From Coq Require Import QArith Qcanon.
Open Scope nat_scope.

(** What the two algorithms have in common with [min_alg] is all of it. *)
Lemma cc_is_min : cc = min_alg N unit N.leb cc_empty (fun _ x => x) false.
Proof. reflexivity. Qed.
Lemma sssp_is_min rnd top : sssp rnd top = min_alg Qc Qc qle top (fun w x => rnd (x + w)%Qc) true.
Proof. reflexivity. Qed.

Definition no_deletion {a} (sched : list (nat * choice a)) : Prop := forall t v gone, (t, DelEdges v gone) ∉ sched.

Definition cc_start es : est cc := estart cc (fun _ => [cc_empty]) (fun _ => cc_empty) es.

(** When everything is quiet, every vertex that was given its raw id as initial label carries the
    smallest raw id of its component; for all graphs, growing in any way, all numbers of threads and
    all schedules.  Edges are present in both directions. *)
Theorem C35_components owner n es sched raw : (forall v, owner v < n) -> no_deletion sched ->
  let s := erun cc owner (cc_start es) sched in let init := given owner (cc_start es) sched in
  idle s ->
  (forall v x, (v, x) ∈ init -> x = raw v /\ (raw v < 2 ^ 32)%N) ->
  (forall u v e, (v, e) ∈ edges s u -> (u, raw u) ∈ init /\ exists e', (u, e') ∈ edges s v) ->
  forall v, (v, raw v) ∈ init ->
  (exists u, joined (edges s) u v /\ prop s v = raw u) /\ forall u, joined (edges s) u v -> (prop s v <= raw u)%N.
Proof.
  intros Hown Hdel s init Hidle Hraw Hsym v Hv.
  assert (Hbest : best (le N.leb) cc_empty (walk (fun _ x => x) init (edges s) v) (prop s v)).
  { unfold s, init, cc_start, no_deletion in *. rewrite cc_is_min in *. unfold idle in Hidle.
    eapply (min_result N.leb cc_empty (fun _ x => x) false owner n) with (good := fun _ => True); try done.
    - intros x y. unfold le. rewrite !N.leb_le. lia.
    - intros x y z. unfold le. rewrite !N.leb_le. lia. }
  destruct Hbest as (Hr & Ht & Hmin).
  assert (Hw1 : forall w x, walk (fun _ x => x) init (edges s) w x -> exists u, joined (edges s) u w /\ x = raw u).
  { intros w x. induction 1 as [w x Hg|u w e x H IH He].
    - exists w. split; [constructor|]. by apply Hraw.
    - destruct IH as (u' & Hj & ->). exists u'. split; [|done]. by eapply joined_step. }
  assert (Hw2 : forall u, joined (edges s) u v -> walk (fun _ x => x) init (edges s) v (raw u)).
  { intros u Hj. clear Hr Ht Hmin. induction Hj as [v|u v w e Hj IH He]; [by apply walk_given|].
    apply (walk_edge (fun _ x => x) init (edges s) v w e); [|done]. apply IH. by apply (Hsym v w e). }
  unfold le in *. split.
  - destruct Hr as [Hr|Hr].
    + destruct (Hw1 _ _ Hr) as (u & Hj & Hx). by exists u.
    + exists v. split; [constructor|]. pose proof (Hmin (raw v) ltac:(by apply walk_given)) as Hle. apply N.leb_le in Hle, Hr.
      destruct (Hraw v (raw v) Hv) as [_ Hlt]. unfold cc_empty in *. apply N.le_antisymm; [exact Hle|]. lia.
  - intros u Hj. by apply N.leb_le, Hmin, Hw2.
Qed.

(** Hence, when raw ids differ, two vertices have the same label exactly when they are joined. *)
Theorem C35_same_label owner n es sched raw : (forall v, owner v < n) -> no_deletion sched ->
  let s := erun cc owner (cc_start es) sched in let init := given owner (cc_start es) sched in
  idle s ->
  (forall v x, (v, x) ∈ init -> x = raw v /\ (raw v < 2 ^ 32)%N) ->
  (forall u v e, (v, e) ∈ edges s u -> (u, raw u) ∈ init /\ exists e', (u, e') ∈ edges s v) ->
  (forall u v, (u, raw u) ∈ init -> (v, raw v) ∈ init -> raw u = raw v -> u = v) ->
  forall u v, (u, raw u) ∈ init -> (v, raw v) ∈ init -> (prop s u = prop s v <-> joined (edges s) u v).
Proof.
  intros Hown Hdel s init Hidle Hraw Hsym Hinj u v Hu Hv.
  pose proof (C35_components owner n es sched raw Hown Hdel Hidle Hraw Hsym) as HC. fold s init in HC.
  assert (Htr : forall x y z, joined (edges s) x y -> joined (edges s) y z -> joined (edges s) x z).
  { intros x y z H1 H2. induction H2 as [|a b c e H2 IH He]; [done|]. eapply joined_step; [by apply IH|done]. }
  assert (Hrev : forall x y, joined (edges s) x y -> joined (edges s) y x).
  { intros x y H. induction H as [|a b c e H IH He]; [constructor|]. destruct (Hsym b c e He) as (_ & e' & He').
    eapply Htr; [|exact IH]. eapply joined_step; [constructor|exact He']. }
  assert (Hgiven : forall x y, joined (edges s) x y -> (y, raw y) ∈ init -> (x, raw x) ∈ init).
  { intros x y H. induction H as [|a b c e H IH He]; [done|]. intros _. apply IH. by apply (Hsym b c e). }
  destruct (HC u Hu) as [(a & Ha & Pa) Mu]. destruct (HC v Hv) as [(b & Hb & Pb) Mv]. split.
  - intros E. assert (a = b) as ->. { apply Hinj; [by apply (Hgiven a u)|by apply (Hgiven b v)|]. congruence. }
    eapply Htr; [by apply Hrev|done].
  - intros Hj. apply N.le_antisymm.
    + rewrite Pb. apply Mu. eapply Htr; [exact Hb|]. by apply Hrev.
    + rewrite Pa. apply Mv. by eapply Htr.
Qed.

(** Two threads; the edges 1-0, 2-1 and 4-3 arrive while labels already travel. *)
Definition cc_sched : list (nat * choice cc) :=
  let run t k : list (nat * choice cc) := repeat (t, Run) k in
  [(0, SendInit (a := cc) 0 7%N)] ++ run 0 5 ++ [(1, SendInit (a := cc) 1 5%N)] ++ run 1 5 ++
  [(0, AddEdges (a := cc) 0 [(1, tt)])] ++ run 0 19 ++ [(1, AddEdges (a := cc) 1 [(0, tt); (2, tt)])] ++ run 1 19 ++
  [(0, SendInit (a := cc) 2 9%N)] ++ run 0 19 ++ [(0, AddEdges (a := cc) 2 [(1, tt)])] ++ run 0 19 ++
  [(1, SendInit (a := cc) 3 2%N)] ++ run 1 19 ++ [(0, SendInit (a := cc) 4 1%N)] ++ run 0 19 ++
  [(1, AddEdges (a := cc) 3 [(4, tt)])] ++ run 1 19 ++ [(0, AddEdges (a := cc) 4 [(3, tt)])] ++ run 0 19 ++
  concat (repeat ((0, Pop) :: run 0 19 ++ (1, Pop) :: run 1 19) 6).
Example C35_case :
  let s := erun cc toy_owner (cc_start (fun _ => [])) cc_sched in
  map (prop s) [0; 1; 2; 3; 4] = [5; 5; 5; 1; 1]%N /\ map (todo s) [0; 1] = [[]; []] /\ map (queue s) [0; 1] = [[]; []]
  /\ given toy_owner (cc_start (fun _ => [])) cc_sched = [(0, 7%N); (1, 5%N); (2, 9%N); (3, 2%N); (4, 1%N)].
Proof. vm_compute. done. Qed.

Definition sssp_start rnd top es : est (sssp rnd top) := estart (sssp rnd top) (fun _ => [top]) (fun _ => top) es.
Definition weights_ok {rnd top} (es : nat -> list (nat * Qc)) (sched : list (nat * choice (sssp rnd top))) : Prop :=
  (forall u v w, (v, w) ∈ es u -> 0 <= w)%Qc /\
  forall t u (l : list (nat * Qc)) v w, (t, AddEdges (a := sssp rnd top) u l) ∈ sched -> (v, w) ∈ l -> (0 <= w)%Qc.

Lemma qle_iff x y : qle x y = true <-> (x <= y)%Qc.
Proof. unfold qle. rewrite Qle_bool_iff. done. Qed.

(** When everything is quiet, the value of a vertex is the least over all walks from the sources of
    the sums as the code computes them, edge by edge and rounded; or [top] when no walk gives less.
    Rounding is any monotone function that does not take [top] below itself. *)
Theorem C36_rounded rnd top owner n es sched : (forall v, owner v < n) -> no_deletion sched -> weights_ok es sched ->
  (forall x y, x <= y -> rnd x <= rnd y)%Qc -> (top <= rnd top)%Qc ->
  let s := erun (sssp rnd top) owner (sssp_start rnd top es) sched in
  idle s -> forall v, best Qcle top (walk (fun w x => rnd (x + w)%Qc) (given owner (sssp_start rnd top es) sched) (edges s) v) (prop s v).
Proof.
  intros Hown Hdel [Hw1 Hw2] Hmono Htop s Hidle v.
  assert (Hbest : best (le qle) top (walk (fun w x => rnd (x + w)%Qc) (given owner (sssp_start rnd top es) sched) (edges s) v) (prop s v)).
  { unfold s, sssp_start, no_deletion in *. rewrite sssp_is_min in *. unfold idle in Hidle.
    eapply (min_result qle top (fun w x => rnd (x + w)%Qc) true owner n) with (good := fun w => (0 <= w)%Qc); try done.
    - intros x y. unfold le. rewrite !qle_iff. destruct (Qclt_le_dec x y) as [H|H]; [left; by apply Qclt_le_weak|by right].
    - intros x y z. unfold le. rewrite !qle_iff. apply Qcle_trans.
    - intros e x y. unfold le. rewrite !qle_iff. intros H. apply Hmono. qclra.
    - intros e x He. unfold le. rewrite !qle_iff. intros H. eapply Qcle_trans; [exact Htop|]. apply Hmono. qclra. }
  destruct Hbest as (Hr & Ht & Hm). unfold le in *. split_and!.
  - destruct Hr as [?|Hr]; [by left|right]. by apply qle_iff.
  - by apply qle_iff.
  - intros y Hy. by apply qle_iff, Hm.
Qed.

(** With exact sums: the value is the length of a shortest path from the sources. *)
Theorem C36_shortest_paths top owner n es sched : (forall v, owner v < n) -> no_deletion sched -> weights_ok es sched ->
  let A := sssp (fun x => x) top in let s := erun A owner (sssp_start (fun x => x) top es) sched in let init := given owner (sssp_start (fun x => x) top es) sched in
  idle s -> forall v,
  (forall u x d, (u, x) ∈ init -> path (edges s) u v d -> prop s v <= x + d)%Qc /\
  ((exists u x d, (u, x) ∈ init /\ path (edges s) u v d /\ prop s v = (x + d)%Qc) \/ prop s v = top).
Proof.
  intros Hown Hdel Hw A s init Hidle v.
  destruct (C36_rounded (fun x => x) top owner n es sched Hown Hdel Hw ltac:(done) ltac:(apply Qcle_refl) Hidle v) as (Hr & Ht & Hm).
  fold A s init in Hr, Ht, Hm. split.
  - intros u x d Hi Hp. apply Hm. clear Hr Ht Hm. induction Hp as [v|u v w e y Hp IH He].
    + rewrite Qcplus_0_r. by apply walk_given.
    + rewrite Qcplus_assoc. apply (walk_edge (fun (w : Qc) x => (x + w)%Qc) init (edges s) v w e (x + y)%Qc); [by apply IH|done].
  - destruct Hr as [Hr|Hr]; [left|right; by apply Qcle_antisym].
    clear Ht Hm. revert Hr. generalize (prop s v). intros p Hp. induction Hp as [v x Hg|u v e x Hp IH He].
    + exists v, x, 0%Qc. split_and!; [done|constructor|]. by rewrite Qcplus_0_r.
    + destruct IH as (u' & x' & d & Hi & Hp' & ->). exists u', x', (d + e)%Qc. split_and!; [done|by eapply path_snoc|]. by rewrite Qcplus_assoc.
Qed.

(** Sources 0 and 3, two threads; the last edge improves a value that was already passed on. *)
Definition Z1 (z : Z) : Qc := Q2Qc (inject_Z z).
Definition sssp_sched : list (nat * choice (sssp (fun x => x) (Z1 1000))) :=
  let A := sssp (fun x => x) (Z1 1000) in
  let run t k : list (nat * choice A) := repeat (t, Run) k in
  [(0, SendInit (a := A) 0 (Z1 0))] ++ run 0 9 ++ [(1, SendInit (a := A) 3 (Z1 1))] ++ run 1 9 ++
  [(0, AddEdges (a := A) 0 [(1, Z1 9); (2, Z1 7)])] ++ run 0 19 ++ [(1, AddEdges (a := A) 1 [(2, Z1 1)])] ++ run 1 19 ++
  concat (repeat ((0, Pop) :: run 0 19 ++ (1, Pop) :: run 1 19) 3) ++
  [(1, AddEdges (a := A) 3 [(1, Z1 2)])] ++ run 1 19 ++
  concat (repeat ((0, Pop) :: run 0 19 ++ (1, Pop) :: run 1 19) 3).
Example C36_case :
  let A := sssp (fun x => x) (Z1 1000) in
  let s0 := sssp_start (fun x => x) (Z1 1000) (fun _ => []) in
  let s := erun A toy_owner s0 sssp_sched in
  map (prop s) [0; 1; 2; 3; 4] = map Z1 [0; 3; 4; 1; 1000]%Z /\ map (todo s) [0; 1] = [[]; []] /\ map (queue s) [0; 1] = [[]; []]
  /\ map (prop (erun A toy_owner s0 (firstn 130 sssp_sched))) [0; 1; 2] = map Z1 [0; 9; 7]%Z
  /\ given toy_owner s0 sssp_sched = [(0, Z1 0); (3, Z1 1)].
Proof. vm_compute. done. Qed.
Print Assumptions C35_components.
Print Assumptions C35_same_label.
Print Assumptions C36_rounded.
Print Assumptions C36_shortest_paths.
