(** C37: message-passing shortest paths. *)
From Verif Require Import Base QcUtil Engine_Spec Engine_Model Engine_Props Min_Spec Min_Model Min_Props Active_Spec Active_Model Active_Proofs MsgMin_Model MsgMin_Proofs.
From Coq Require Import QArith Qcanon.
Open Scope nat_scope.

Lemma ssspm_is_msg rnd top : ssspm rnd top = msg_alg Qc Qc qle (fun x => Qc_eq_bool x top) (fun w x => rnd (x + w)%Qc).
Proof. reflexivity. Qed.

Definition ssspm_start rnd top es : ast (ssspm rnd top) := astart (ssspm rnd top) (fun _ => (top, false)) es.
Definition aidle {a} (s : ast a) : Prop := (forall t, atodo s t = []) /\ forall t, aqueue s t = [].
Definition aweights_ok {rnd top} (es : nat -> list (nat * Qc)) (sched : list (nat * achoice (ssspm rnd top))) : Prop :=
  (forall u v w, (v, w) ∈ es u -> 0 <= w)%Qc /\
  forall t u (l : list (nat * Qc)) v w, (t, AAdd (a := ssspm rnd top) u l) ∈ sched -> (v, w) ∈ l -> (0 <= w)%Qc.
Definition dist {rnd top} (s : ast (ssspm rnd top)) (v : nat) : Qc := fst (aprop s v : Qc * bool).

(** When everything is quiet, the value of a vertex is the least over all walks from the sources of
    the rounded sums, or [top]; for all growing graphs, numbers of threads and schedules. *)
Theorem C37_rounded rnd top owner n es sched : (forall v, owner v < n) -> notes_by_threads (ssspm rnd top) n sched -> aweights_ok es sched ->
  (forall x y, x <= y -> rnd x <= rnd y)%Qc -> (top <= rnd top)%Qc ->
  let s := arun (ssspm rnd top) owner (ssspm_start rnd top es) sched in
  aidle s -> forall v, best Qcle top (walk (fun w x => rnd (x + w)%Qc) (noted owner (ssspm_start rnd top es) sched) (aedges s) v) (dist s v).
Proof.
  intros Hown Hn [Hw1 Hw2] Hmono Htop s [Hi1 Hi2] v.
  assert (Hbest : best (le qle) top (walk (fun w x => rnd (x + w)%Qc) (noted owner (ssspm_start rnd top es) sched) (aedges s) v) (dist s v)).
  { unfold s, dist, ssspm_start in *. rewrite ssspm_is_msg in *.
    eapply (msg_result qle top (fun x => Qc_eq_bool x top) (fun w x => rnd (x + w)%Qc) owner n) with (good := fun w => (0 <= w)%Qc); try done.
    - intros x y. unfold le. rewrite !qle_iff. destruct (Qclt_le_dec x y) as [H|H]; [left; by apply Qclt_le_weak|by right].
    - intros x y z. unfold le. rewrite !qle_iff. apply Qcle_trans.
    - intros x Hx. unfold le. rewrite qle_iff. apply Qc_eq_bool_correct in Hx. subst. apply Qcle_refl.
    - intros e x y. unfold le. rewrite !qle_iff. intros H. apply Hmono. qclra.
    - intros e x He. unfold le. rewrite !qle_iff. intros H. eapply Qcle_trans; [exact Htop|]. apply Hmono. qclra. }
  destruct Hbest as (Hr & Ht & Hm). unfold le in *. split_and!.
  - destruct Hr as [?|Hr]; [by left|right]. by apply qle_iff.
  - by apply qle_iff.
  - intros y Hy. by apply qle_iff, Hm.
Qed.

Lemma best_unique top (r1 r2 : Qc -> Prop) x y : (forall z, r1 z <-> r2 z) -> best Qcle top r1 x -> best Qcle top r2 y -> x = y.
Proof.
  intros Hr (H1 & H2 & H3) (H4 & H5 & H6). apply Qcle_antisym.
  - destruct H4 as [H4|H4]; [by apply H3, Hr|by eapply Qcle_trans].
  - destruct H1 as [H1|H1]; [by apply H6, Hr|by eapply Qcle_trans].
Qed.

(** Both variants compute the same values, whatever threads, batches and schedules each had, when
    they ended with the same edges and had the same sources. *)
Theorem C37_same_as_mailbox rnd top owner n es sched owner' n' es' sched' :
  (forall x y, x <= y -> rnd x <= rnd y)%Qc -> (top <= rnd top)%Qc ->
  (forall v, owner v < n) -> notes_by_threads (ssspm rnd top) n sched -> aweights_ok es sched ->
  (forall v, owner' v < n') -> no_deletion sched' -> weights_ok es' sched' ->
  let s := arun (ssspm rnd top) owner (ssspm_start rnd top es) sched in
  let s' := erun (sssp rnd top) owner' (sssp_start rnd top es') sched' in
  aidle s -> idle s' ->
  (forall u d w, (d, w) ∈ aedges s u <-> (d, w) ∈ edges s' u) ->
  (forall v x, (v, x) ∈ noted owner (ssspm_start rnd top es) sched <-> (v, x) ∈ given owner' (sssp_start rnd top es') sched') ->
  forall v, dist s v = prop s' v.
Proof.
  intros Hmono Htop Hown Hn Hw Hown' Hn' Hw' s s' Hi Hi' He Hg v.
  pose proof (C37_rounded rnd top owner n es sched Hown Hn Hw Hmono Htop Hi v) as H1.
  pose proof (C36_rounded rnd top owner' n' es' sched' Hown' Hn' Hw' Hmono Htop Hi' v) as H2.
  eapply best_unique; [|exact H1|exact H2]. intros z. split.
  - apply walk_weaken; [intros [w x] ?; by apply Hg|intros u [d w] ?; by apply He].
  - apply walk_weaken; [intros [w x] ?; by apply Hg|intros u [d w] ?; by apply He].
Qed.

(** With exact sums: shortest path lengths. *)
Theorem C37_shortest_paths top owner n es sched : (forall v, owner v < n) -> notes_by_threads (ssspm (fun x => x) top) n sched -> aweights_ok es sched ->
  let s := arun (ssspm (fun x => x) top) owner (ssspm_start (fun x => x) top es) sched in let init := noted owner (ssspm_start (fun x => x) top es) sched in
  aidle s -> forall v,
  (forall u x d, (u, x) ∈ init -> path (aedges s) u v d -> dist s v <= x + d)%Qc /\
  ((exists u x d, (u, x) ∈ init /\ path (aedges s) u v d /\ dist s v = (x + d)%Qc) \/ dist s v = top).
Proof.
  intros Hown Hn Hw s init Hidle v.
  destruct (C37_rounded (fun x => x) top owner n es sched Hown Hn Hw ltac:(done) ltac:(apply Qcle_refl) Hidle v) as (Hr & Ht & Hm).
  fold s init in Hr, Ht, Hm. split.
  - intros u x d Hi Hp. apply Hm. clear Hr Ht Hm. induction Hp as [v|u v w e y Hp IH He].
    + rewrite Qcplus_0_r. by apply walk_given.
    + rewrite Qcplus_assoc. apply (walk_edge (fun (w : Qc) x => (x + w)%Qc) init (aedges s) v w e (x + y)%Qc); [by apply IH|done].
  - destruct Hr as [Hr|Hr]; [left|right; by apply Qcle_antisym].
    clear Ht Hm. revert Hr. generalize (dist s v). intros p Hp. induction Hp as [v x Hg|u v e x Hp IH He].
    + exists v, x, 0%Qc. split_and!; [done|constructor|]. by rewrite Qcplus_0_r.
    + destruct IH as (u' & x' & d & Hi & Hp' & ->). exists u', x', (d + e)%Qc. split_and!; [done|by eapply path_snoc|]. by rewrite Qcplus_assoc.
Qed.

(** The run of [C36_case]; two notifications wait for vertex 2 at once. *)
Definition ssspm_sched : list (nat * achoice (ssspm (fun x => x) (Z1 1000))) :=
  let A := ssspm (fun x => x) (Z1 1000) in
  let run t k : list (nat * achoice A) := repeat (t, ARun) k in
  [(0, ANote (a := A) 0 (Z1 0))] ++ run 0 2 ++ [(1, ANote (a := A) 3 (Z1 1))] ++ run 1 2 ++ [(0, APop)] ++ run 0 9 ++
  [(0, AAdd (a := A) 0 [(1, Z1 9); (2, Z1 7)])] ++ run 0 4 ++ [(1, AAdd (a := A) 1 [(2, Z1 1)])] ++ run 1 4 ++
  [(1, APop)] ++ run 1 9 ++ [(1, APop)] ++ run 1 9 ++
  concat (repeat ((0, APop) :: run 0 9 ++ (1, APop) :: run 1 9) 3) ++
  [(1, AAdd (a := A) 3 [(1, Z1 2)])] ++ run 1 9 ++
  concat (repeat ((0, APop) :: run 0 9 ++ (1, APop) :: run 1 9) 3).
Example C37_case :
  let A := ssspm (fun x => x) (Z1 1000) in
  let s0 := ssspm_start (fun x => x) (Z1 1000) (fun _ => []) in
  let s := arun A toy_owner s0 ssspm_sched in
  map (dist s) [0; 1; 2; 3; 4] = map Z1 [0; 3; 4; 1; 1000]%Z /\ map (atodo s) [0; 1] = [[]; []] /\ map (aqueue s) [0; 1] = [[]; []]
  /\ noted toy_owner s0 ssspm_sched = [(0, Z1 0); (3, Z1 1)] /\ In (Handled 2 1) (alog s).
Proof. vm_compute. split_and!; try done. tauto. Qed.
Print Assumptions C37_rounded.
Print Assumptions C37_same_as_mailbox.
Print Assumptions C37_shortest_paths.
