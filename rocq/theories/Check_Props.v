(** C63: the programs' own checks: they accept every result that is right, and what they do and do
    not tell. *)
From Verif Require Import Base QcUtil Engine_Spec Engine_Model Engine_Proofs Engine_Shape Engine_Props Min_Spec Min_Model Min_Proofs Min_Props.
From Verif Require Import Active_Spec Active_Model Active_Proofs Active_Props MsgMin_Model MsgMin_Proofs MsgMin_Props Check_Model.
From Verif Require Colour_Spec Colour_Model Colour_Proofs Colour_Props TC_Spec TC_Model TC_Count TC_Static TC_Proofs TC_Props Helpers_Model Helpers_Proofs.
From Coq Require Import QArith Qcanon.
Open Scope nat_scope.

Lemma all_iff M p : all M p = true <-> forall v, v < M -> p v = true.
Proof. unfold all. rewrite forallb_forall. split; intros H v Hv; apply H; apply in_seq in Hv || apply in_seq; lia. Qed.
Lemma qeqb_iff x y : qeqb x y = true <-> x = y.
Proof. unfold qeqb. rewrite Qeq_bool_iff. split; [apply Qc_is_canon|by intros ->]. Qed.
Lemma qltb_iff x y : qltb x y = false <-> (y <= x)%Qc.
Proof. unfold qltb. rewrite negb_false_iff, Qle_bool_iff. done. Qed.
Lemma in_list {A} (x : A) l : In x l <-> x ∈ l.
Proof. symmetry. apply elem_of_list_In. Qed.

(** ** Connected components *)
(** Exactly what is checked. *)
Lemma cc_check_iff M es val : cc_check M es val = true <->
  forall v, v < M -> val v <> (2 ^ 32 - 1)%N /\ forall d e, (d, e) ∈ es v -> val d = val v.
Proof.
  unfold cc_check. rewrite all_iff. apply forall_proper. intros v. apply forall_proper. intros Hv.
  rewrite andb_true_iff, negb_true_iff, N.eqb_neq, forallb_forall. apply and_iff_compat_l. split.
  - intros H d e Hd. apply N.eqb_eq, (H (d, e)). by apply in_list.
  - intros H [d e] Hd. apply N.eqb_eq, (H d e). by apply in_list.
Qed.
(** The result of any run that has come to rest is accepted; the raw id 2^32 - 1 is excluded. *)
Theorem C63_components_accepted owner n es sched raw M : (forall v, owner v < n) -> no_deletion sched ->
  let s := erun cc owner (cc_start es) sched in let init := given owner (cc_start es) sched in
  idle s -> (forall v x, (v, x) ∈ init -> x = raw v /\ (raw v < 2 ^ 32 - 1)%N) ->
  (forall u v e, (v, e) ∈ edges s u -> (u, raw u) ∈ init /\ exists e', (u, e') ∈ edges s v) ->
  (forall v, v < M -> (v, raw v) ∈ init) -> cc_check M (edges s) (prop s) = true.
Proof.
  intros Hown Hd s init Hi Hraw Hsym Hall. apply cc_check_iff. intros v Hv.
  assert (Hraw' : forall v x, (v, x) ∈ init -> x = raw v /\ (raw v < 2 ^ 32)%N) by (intros w x Hw; destruct (Hraw w x Hw); split; [done|lia]).
  pose proof (C35_components owner n es sched raw Hown Hd Hi Hraw' Hsym) as HC. fold s init in HC. split.
  - destruct (HC v (Hall v Hv)) as [_ H]. specialize (H v (joined_refl _ _)). pose proof (proj2 (Hraw v _ (Hall v Hv))) as Hr. intros E.
    change (prop_t cc) with N in *. rewrite E in H. lia.
  - intros d e Hde. destruct (Hsym v d e Hde) as [Hiv (e' & He')]. destruct (Hsym d v e' He') as [Hid _].
    assert (Hvd : joined (edges s) v d) by (eapply joined_step; [apply joined_refl|exact Hde]).
    assert (Hdv : joined (edges s) d v) by (eapply joined_step; [apply joined_refl|exact He']).
    assert (Htr : forall a b c, joined (edges s) a b -> joined (edges s) b c -> joined (edges s) a c).
    { intros a b c Hab Hbc. induction Hbc; [done|]. eapply joined_step; [by apply IHHbc|done]. }
    destruct (HC v Hiv) as [(a & Ha & Ea) Hva]. destruct (HC d Hid) as [(b & Hb & Eb) Hdb].
    assert ((prop s v <= prop s d)%N) by (rewrite Eb; apply Hva; by apply (Htr b d v)).
    assert ((prop s d <= prop s v)%N) by (rewrite Ea; apply Hdb; by apply (Htr a v d)). change (prop_t cc) with N in *. lia.
Qed.
(** With that id it is rejected: one vertex, one edge to itself. *)
Theorem C63_components_refuted :
  let s := erun cc (fun _ => 0) (cc_start (fun v => if v =? 0 then [(0, tt)] else [])) ([(0, SendInit (a := cc) 0 (2 ^ 32 - 1)%N)] ++ repeat (0, Run) 20 ++ [(0, Pop)] ++ repeat (0, Run) 20) in
  todo s 0 = [] /\ queue s 0 = [] /\ prop s 0 = (2 ^ 32 - 1)%N /\ cc_check 1 (edges s) (prop s) = false.
Proof. by vm_compute. Qed.
(** Accepted labels are the same throughout every component ... *)
Theorem C63_components_mean M es val : cc_check M es val = true -> (forall u d e, (d, e) ∈ es u -> u < M) ->
  forall u v, joined es u v -> val u = val v.
Proof. rewrite cc_check_iff. intros H Hb u v Hj. induction Hj as [|u v w e _ IH Hw]; [done|]. rewrite IH. symmetry. apply (proj2 (H v ltac:(by eapply Hb)) w e Hw). Qed.
(** ... but two components may share one, and it need not be the id of a member. *)
Theorem C63_components_weak : cc_check 4 (fun v => nth v [[(1, tt)]; [(0, tt)]; [(3, tt)]; [(2, tt)]] []) (fun _ => 77%N) = true.
Proof. by vm_compute. Qed.

(** ** Shortest paths *)
Lemma sssp_check_iff rnd top M es init val : sssp_check rnd top M es init val = true <->
  forall v, v < M -> (forall x, init v = Some x -> val v = x) /\ (val v = top \/ forall d w, (d, w) ∈ es v -> (val d <= rnd (val v + w))%Qc).
Proof.
  unfold sssp_check. rewrite all_iff. apply forall_proper. intros v. apply forall_proper. intros Hv. rewrite andb_true_iff, orb_true_iff, qeqb_iff, forallb_forall. f_equiv.
  - destruct (init v) as [x|]; [|split; [done|by intros]]. rewrite qeqb_iff. split; [by intros -> ? [= <-]|intros H; by apply H].
  - f_equiv. split.
    + intros H d w Hd. by apply qltb_iff, negb_true_iff, (H (d, w)), in_list.
    + intros H [d w] Hd. apply negb_true_iff, qltb_iff, H. by apply in_list.
Qed.
Definition only (src : nat) (x : Qc) (v : nat) : option Qc := if v =? src then Some x else None.
Lemma walk_least {rnd : Qc -> Qc} {es src x0 v x} init : (forall x y, x <= y -> rnd x <= rnd y)%Qc -> rnd x0 = x0 -> (forall u d w, (d, w) ∈ es u -> 0 <= w)%Qc ->
  (forall u y, (u, y) ∈ init -> u = src /\ y = x0) -> walk (fun w x => rnd (x + w)%Qc) init es v x -> (x0 <= x)%Qc.
Proof.
  intros Hm Hr Hw Hi Hx. induction Hx as [v x Hg|u v w x _ IH He].
  - destruct (Hi v x Hg) as [_ ->]. apply Qcle_refl.
  - rewrite <- Hr at 1. apply Hm. specialize (Hw _ _ _ He). qclra.
Qed.
Lemma best_accepted rnd top M es src x0 init (val : nat -> Qc) : (forall x y, x <= y -> rnd x <= rnd y)%Qc -> (top <= rnd top)%Qc ->
  rnd x0 = x0 -> (x0 <= top)%Qc -> (forall u d w, (d, w) ∈ es u -> 0 <= w)%Qc ->
  (forall u y, (u, y) ∈ init -> u = src /\ y = x0) -> (src, x0) ∈ init ->
  (forall v, best Qcle top (walk (fun w x => rnd (x + w)%Qc) init es v) (val v)) -> sssp_check rnd top M es (only src x0) val = true.
Proof.
  intros Hm Ht Hr Hx0 Hw Hi Hs HB. apply sssp_check_iff. intros v Hv. split.
  - intros x. unfold only. destruct (Nat.eqb_spec v src) as [->|]; [intros [= <-]|done]. destruct (HB src) as (H1 & H2 & H3).
    assert (val src <= x0)%Qc by (apply H3; by constructor). destruct H1 as [H1|H1].
    + apply (walk_least init Hm Hr Hw Hi) in H1. by apply Qcle_antisym.
    + apply Qcle_antisym; [done|]. eapply Qcle_trans; [exact Hx0|done].
  - destruct (HB v) as ([H1|H1] & H2 & H3); [right|left; by apply Qcle_antisym]. intros d w Hd. destruct (HB d) as (_ & _ & H3'). apply H3'.
    by apply (walk_edge (fun (w : Qc) x => rnd (x + w)%Qc) init es v d w (val v)).
Qed.
(** The result for one source is accepted, roundings included. *)
Theorem C63_shortest_accepted rnd top owner n es sched src x0 M : (forall v, owner v < n) -> no_deletion sched -> weights_ok es sched ->
  (forall x y, x <= y -> rnd x <= rnd y)%Qc -> (top <= rnd top)%Qc -> rnd x0 = x0 -> (x0 <= top)%Qc ->
  let s := erun (sssp rnd top) owner (sssp_start rnd top es) sched in let init := given owner (sssp_start rnd top es) sched in
  idle s -> (forall u d w, (d, w) ∈ edges s u -> 0 <= w)%Qc -> (forall u y, (u, y) ∈ init -> u = src /\ y = x0) -> (src, x0) ∈ init ->
  sssp_check rnd top M (edges s) (only src x0) (prop s) = true.
Proof.
  intros Hown Hd Hw Hm Ht Hr Hx s init Hi He Hinit Hs. eapply (best_accepted rnd top M (edges s) src x0 init); try done.
  intros v. by apply (C36_rounded rnd top owner n es sched).
Qed.
Theorem C63_messages_accepted rnd top owner n es sched src M : (forall v, owner v < n) -> notes_by_threads (ssspm rnd top) n sched -> aweights_ok es sched ->
  (forall x y, x <= y -> rnd x <= rnd y)%Qc -> (top <= rnd top)%Qc -> rnd 0%Qc = 0%Qc -> (0 <= top)%Qc ->
  let s := arun (ssspm rnd top) owner (ssspm_start rnd top es) sched in let init := noted owner (ssspm_start rnd top es) sched in
  aidle s -> (forall u d w, (d, w) ∈ aedges s u -> 0 <= w)%Qc -> (forall u y, (u, y) ∈ init -> u = src /\ y = 0%Qc) -> (src, 0%Qc) ∈ init ->
  ssspm_check rnd top M (aedges s) (only src 0%Qc) (dist s) = true.
Proof.
  intros Hown Hd Hw Hm Ht Hr Hx s init Hi He Hinit Hs. unfold ssspm_check.
  assert (E : sssp_check rnd top M (aedges s) (only src 0%Qc) (dist s) = true).
  { eapply (best_accepted rnd top M (aedges s) src 0%Qc init); try done. intros v. by apply (C37_rounded rnd top owner n es sched). }
  rewrite sssp_check_iff in *. intros v Hv. destruct (E v Hv) as [E1 E2]. split; [|done]. intros x. unfold only in *. destruct (v =? src); [apply E1|done].
Qed.
(** With two sources a right result may be rejected: 0 -> 1 of length 1, the sources 0 at 0 and 1 at 10. *)
Theorem C63_two_sources_refuted :
  let q z := Q2Qc (z # 1) in let A := sssp (fun x => x) (q 1000%Z) in let es v := if v =? 0 then [(1, q 1%Z)] else [] in
  let s := erun A (fun _ => 0) (sssp_start (fun x => x) (q 1000%Z) es)
    ([(0, SendInit (a := A) 0 (q 0%Z))] ++ repeat (0, Run) 5 ++ [(0, SendInit (a := A) 1 (q 10%Z))] ++ concat (repeat ((0, Pop) :: repeat (0, Run) 20) 4)) in
  todo s 0 = [] /\ queue s 0 = [] /\ map (fun v => this (prop s v)) [0; 1] = [0%Q; 1%Q] /\
  sssp_check (fun x => x) (q 1000%Z) 2 (edges s) (fun v => if v =? 0 then Some (q 0%Z) else Some (q 10%Z)) (prop s) = false.
Proof. by vm_compute. Qed.
(** Accepted distances are at most those of every path ... *)
Theorem C63_shortest_mean top M es src x0 val : sssp_check (fun x => x) top M es (only src x0) val = true ->
  (forall u d w, (d, w) ∈ es u -> u < M /\ (0 <= w)%Qc) -> src < M -> (forall v, val v <= top)%Qc ->
  forall v d, path es src v d -> (val v <= x0 + d)%Qc.
Proof.
  rewrite sssp_check_iff. intros H He Hs Ht v d Hp. remember src as a eqn:Ea in Hp. induction Hp as [v|u v w e x Hp IH Hw]; subst.
  - rewrite (proj1 (H src Hs) x0) by (unfold only; by rewrite Nat.eqb_refl). rewrite Qcplus_0_r. apply Qcle_refl.
  - specialize (IH eq_refl). destruct (He _ _ _ Hw) as (Hv & Hpos). destruct (proj2 (H v Hv)) as [E|E].
    + specialize (Ht w). rewrite E in IH. rewrite Qcplus_assoc. set (y := (x0 + x)%Qc) in *. clearbody y. qclra.
    + specialize (E _ _ Hw). rewrite Qcplus_assoc. set (y := (x0 + x)%Qc) in *. clearbody y. qclra.
Qed.
(** ... but may be too small: zero everywhere is accepted. *)
Theorem C63_shortest_weak :
  let q z := Q2Qc (z # 1) in sssp_check (fun x => x) (q 1000%Z) 3 (fun v => nth v [[(1, q 5%Z)]; [(2, q 5%Z)]; []] []) (only 0 (q 0%Z)) (fun _ => q 0%Z) = true.
Proof. by vm_compute. Qed.

(** ** Colouring *)
(** The result is accepted, of whatever changes of the graph, if each vertex has an edge. *)
Theorem C63_colouring_accepted owner n b es sched f K M : (forall v, owner v < n) -> (N.of_nat K < 2 ^ 31 - 1)%N ->
  Colour_Spec.slots_unique (Colour_Model.ever es sched) -> Colour_Props.positions_below (Colour_Model.ever es sched) f -> (forall v, b v <= f v <= K) ->
  let s := Colour_Props.col_run owner b es sched in
  idle s -> (forall u, es u <> [] -> Told u ∈ elog s) -> Colour_Spec.undirected (edges s) -> (forall u, u < M -> edges s u <> []) ->
  colour_check M (edges s) f (fun v => fst (prop s v)) = true.
Proof.
  intros Hown HK HU HP Hf s Hi Ht Hu Hall. destruct (Colour_Props.C38_proper owner n b es sched f K Hown HK HU HP Hf Hi Ht Hu) as [H1 H2].
  apply all_iff. intros u Hlt. specialize (H2 u (Hall u Hlt)). specialize (Hf u). fold s in H1, H2.
  assert (Hc : (fst (prop s u) <= N.of_nat K)%N) by (etrans; [exact H2|lia]). rewrite !andb_true_iff. split_and!.
  - apply negb_true_iff, N.eqb_neq. intros E. rewrite E in Hc. change ((2 ^ 32 - 1) / 2)%N with (2 ^ 31 - 1)%N in Hc. lia.
  - apply negb_true_iff, andb_false_iff. right. apply N.ltb_ge. exact H2.
  - apply forallb_forall. intros [d p] Hd. apply in_list in Hd. cbn [fst]. apply negb_true_iff. destruct (Nat.eqb_spec d u) as [->|Hne]; [cbn; by rewrite andb_false_r|].
    destruct (N.eqb_spec (fst (prop s u)) (fst (prop s d))) as [E|]; [|done]. by destruct (H1 u d p Hd (not_eq_sym Hne)).
Qed.
(** What is accepted on an undirected graph is proper. *)
Theorem C63_colouring_means M es f col : colour_check M es f col = true -> (forall u v p, (v, p) ∈ es u -> u < M) -> Colour_Spec.undirected es ->
  Colour_Spec.proper es col /\ forall u, u < M -> (col u <= N.of_nat (Nat.max (length (es u)) (f u)))%N.
Proof.
  unfold colour_check. rewrite all_iff. intros H Hb Hu. split.
  - intros u v p Hv Hne E. specialize (H u (Hb u v p Hv)). rewrite !andb_true_iff in H. destruct H as [_ H]. rewrite forallb_forall in H. specialize (H (v, p) ltac:(by apply in_list)). cbn [fst] in H.
    destruct (N.eqb_spec (col u) (col v)); [|done]. destruct (Nat.eqb_spec v u); [congruence|]. cbn in H. apply negb_true_iff in H. rewrite <- not_true_iff_false in H. apply H, existsb_exists.
    destruct (Hu u v p Hv) as (q & Hq). exists (u, q). split; [by apply in_list|]. apply Nat.eqb_refl.
  - intros u Hlt. specialize (H u Hlt). rewrite !andb_true_iff in H. destruct H as [[_ H] _]. apply negb_true_iff, andb_false_iff in H. rewrite !N.ltb_ge in H. lia.
Qed.
(** Without the edge back, two ends of one colour are accepted. *)
Theorem C63_colouring_weak : colour_check 2 (fun v => if v =? 0 then [(1, 0)] else []) (fun v => if v =? 1 then 1 else 0) (fun _ => 0%N) = true.
Proof. by vm_compute. Qed.

(** ** Triangles *)
Theorem C63_triangles_accepted raw owner E M nt sched :
  (forall v, owner v < nt) -> (forall u v, u < M -> v < M -> raw u = raw v -> u = v) -> (forall v, v < M -> (raw v < 2147483647)%N) ->
  (forall a b, (a, b) ∈ E -> a < M /\ b < M) -> (forall t c, (t, c) ∈ sched -> t < nt) ->
  let s := TC_Model.trun raw owner E TC_Model.tnew sched in
  TC_Props.at_rest nt s -> (forall u, u < M -> TC_Model.added s u = length (TC_Model.outs E u)) ->
  tc_check M (fun v => length (aedges (TC_Model.base s) v)) (fun v => TC_Model.UpdateAt (aprop (TC_Model.base s) v)) = true.
Proof.
  intros Hown Hraw Hsmall Hends Ht s Hrest Hadd. apply all_iff. intros v Hv. apply Nat.eqb_eq.
  apply (TC_Proofs.tinv_rest raw owner E M nt false Hown Hraw Hsmall Hends s); try done. apply TC_Proofs.tinv_trun; try done. by apply TC_Proofs.tinv_new.
Qed.

(** ** Comparison with an oracle *)
(** Equal values give no difference, if there are two vertices or more. *)
Lemma sorted_zeros l : (forall x, In x l -> x = 0%Z) -> forall k, nth k (Helpers_Model.sorted_copy l) 0%Z = 0%Z.
Proof.
  intros H k. destruct (Nat.lt_ge_cases k (length (Helpers_Model.sorted_copy l))) as [Hk|Hk]; [|by apply nth_overflow].
  apply H. eapply Permutation_in; [apply Helpers_Proofs.sorted_copy_perm|]. by apply nth_In.
Qed.
Theorem C63_no_difference width M f g : M <> 1 -> (forall v, v < M -> f v = g v) -> oracle_compare width M f g = Some (0, 0, 0)%Z.
Proof.
  intros HM H. unfold oracle_compare. replace (map g (seq 0 M)) with (map f (seq 0 M)) by (apply map_ext_in; intros v Hv; apply in_seq in Hv; apply H; lia).
  clear H g. set (l := map f (seq 0 M)). assert (Hl : length l = M) by (unfold l; by rewrite map_length, seq_length).
  set (z := zip_with (Helpers_Model.l1_delta width) l l).
  assert (Hz : forall x, In x z -> x = 0%Z).
  { unfold z. clearbody l. clear. induction l as [|y l IH]; [done|]. cbn. intros x [<-|Hx]; [|by apply IH]. unfold Helpers_Model.l1_delta. rewrite Z.sub_diag. by rewrite Zmod_0_l. }
  assert (Hs : fold_left Z.add z 0%Z = 0%Z).
  { clearbody z. clear -Hz. induction z as [|y z IH]; [done|]. cbn. rewrite (Hz y) by (by left). apply IH. intros x Hx. apply Hz. by right. }
  assert (Hlen : length (Helpers_Model.sorted_copy z) = M) by (rewrite Helpers_Proofs.sorted_copy_length; unfold z; rewrite zip_with_length, Hl; lia).
  unfold z in *. clear z. clearbody l. unfold Helpers_Model.result_compare. destruct l as [|y l'] eqn:El; [done|]. rewrite <- El in *. rewrite Hs, Hlen, Hl. rewrite Nat.ltb_irrefl. cbv zeta.
  rewrite !sorted_zeros by done. destruct (M mod 2 =? 1); [|done]. destruct (Nat.eqb_spec (M / 2) 0) as [E|]; [|done].
  apply Nat.div_small_iff in E; [|done]. rewrite El in Hl. cbn in Hl. lia.
Qed.
(** Of a graph with a single vertex the comparison panics. *)
Theorem C63_single_panics width f g : oracle_compare width 1 f g = None.
Proof. reflexivity. Qed.

(** Two runs for components that have the same graph, the same ids and are at rest agree, however they came
    there: for instance a dynamic one, and the oracle on the finished graph. *)
Lemma joined_same {E} (e e' : nat -> list (nat * E)) : (forall u v x, (v, x) ∈ e u <-> (v, x) ∈ e' u) -> forall u v, joined e u v -> joined e' u v.
Proof. intros H u v Hj. induction Hj; [constructor|]. econstructor; [done|]. by apply H. Qed.
Theorem C63_oracle_components owner n es sched owner' n' es' sched' raw M : (forall v, owner v < n) -> (forall v, owner' v < n') -> no_deletion sched -> no_deletion sched' ->
  let s := erun cc owner (cc_start es) sched in let init := given owner (cc_start es) sched in
  let s' := erun cc owner' (cc_start es') sched' in let init' := given owner' (cc_start es') sched' in
  idle s -> idle s' -> (forall u v x, (v, x) ∈ edges s u <-> (v, x) ∈ edges s' u) -> (forall v x, (v, x) ∈ init <-> (v, x) ∈ init') ->
  (forall v x, (v, x) ∈ init -> x = raw v /\ (raw v < 2 ^ 32)%N) ->
  (forall u v e, (v, e) ∈ edges s u -> (u, raw u) ∈ init /\ exists e', (u, e') ∈ edges s v) -> (forall v, v < M -> (v, raw v) ∈ init) -> M <> 1 ->
  oracle_compare 32 M (fun v => Z.of_N (prop s' v)) (fun v => Z.of_N (prop s v)) = Some (0, 0, 0)%Z.
Proof.
  intros Hown Hown' Hd Hd' s init s' init' Hi Hi' He Hg Hraw Hsym Hall HM. apply C63_no_difference; [done|]. intros v Hv. f_equal.
  destruct (C35_components owner n es sched raw Hown Hd Hi Hraw Hsym v (Hall v Hv)) as [(a & Ha & Ea) Hva]. fold s in Ha, Ea, Hva.
  destruct (C35_components owner' n' es' sched' raw Hown' Hd' Hi') with (v := v) as [(b & Hb & Eb) Hvb].
  - intros w x Hw. by apply Hraw, Hg.
  - intros u w x Hx. apply He, Hsym in Hx as [H1 (x' & H2)]. split; [by apply Hg|]. exists x'. by apply He.
  - by apply Hg, Hall.
  - fold s' in Hb, Eb, Hvb. change (prop_t cc) with N in *. apply N.le_antisymm.
    + rewrite Ea. apply Hvb. by apply (joined_same _ _ He).
    + rewrite Eb. apply Hva. refine (joined_same _ _ _ _ _ Hb). intros u w x. symmetry. apply He.
Qed.
(** The same for shortest paths (floats: no difference means equal here). *)
Theorem C63_oracle_shortest rnd top owner n es sched owner' n' es' sched' : (forall x y, x <= y -> rnd x <= rnd y)%Qc -> (top <= rnd top)%Qc ->
  (forall v, owner v < n) -> (forall v, owner' v < n') -> no_deletion sched -> no_deletion sched' -> weights_ok es sched -> weights_ok es' sched' ->
  let s := erun (sssp rnd top) owner (sssp_start rnd top es) sched in let s' := erun (sssp rnd top) owner' (sssp_start rnd top es') sched' in
  idle s -> idle s' -> (forall u v x, (v, x) ∈ edges s u <-> (v, x) ∈ edges s' u) ->
  (forall v x, (v, x) ∈ given owner (sssp_start rnd top es) sched <-> (v, x) ∈ given owner' (sssp_start rnd top es') sched') ->
  forall v, prop s v = prop s' v.
Proof.
  intros Hm Ht Hown Hown' Hd Hd' Hw Hw' s s' Hi Hi' He Hg v.
  destruct (C36_rounded rnd top owner n es sched Hown Hd Hw Hm Ht Hi v) as (A1 & A2 & A3). destruct (C36_rounded rnd top owner' n' es' sched' Hown' Hd' Hw' Hm Ht Hi' v) as (B1 & B2 & B3).
  fold s in A1, A2, A3. fold s' in B1, B2, B3.
  assert (HW : forall v x, walk (fun w x => rnd (x + w)%Qc) (given owner (sssp_start rnd top es) sched) (edges s) v x <-> walk (fun w x => rnd (x + w)%Qc) (given owner' (sssp_start rnd top es') sched') (edges s') v x).
  { intros w x. split; induction 1 as [w x H|u w e x _ IH H]; try (apply walk_given; by apply Hg).
    - apply (walk_edge (fun (w : Qc) x => rnd (x + w)%Qc) _ _ u w e x); [done|by apply He].
    - apply (walk_edge (fun (w : Qc) x => rnd (x + w)%Qc) _ _ u w e x); [done|by apply He]. }
  apply Qcle_antisym.
  - destruct B1 as [B1|B1]; [apply A3; by apply HW|]. by eapply Qcle_trans.
  - destruct A1 as [A1|A1]; [apply B3; by apply HW|]. by eapply Qcle_trans.
Qed.

(** Triangles: the numbers of a stream and of the oracle (static, with the table of first edges
    copied) agree at every vertex. *)
Lemma triangles_each raw owner E M nt st s : (forall v, owner v < nt) -> (forall u v, u < M -> v < M -> raw u = raw v -> u = v) -> (forall v, v < M -> (raw v < 2147483647)%N) ->
  (forall a b, (a, b) ∈ E -> a < M /\ b < M) -> TC_Proofs.tinv raw owner E M nt st s -> TC_Props.at_rest nt s -> (forall u, u < M -> TC_Model.added s u = length (TC_Model.outs E u)) ->
  (st = true -> forall u, u < M -> TC_Model.outs E u <> [] -> Began_send u ∈ alog (TC_Model.base s)) ->
  forall v, v < M -> TC_Model.NumLeader (aprop (TC_Model.base s) v) = TC_Spec.sumn (fun u => TC_Static.sent raw E M u v (length (TC_Static.SE raw E u)) (length (TC_Static.SE raw E u))) M.
Proof.
  intros Hown Hraw Hsmall Hends HI Hrest Hadd Hst v Hv. destruct (TC_Proofs.tinv_rest raw owner E M nt st Hown Hraw Hsmall Hends s HI Hrest Hadd Hst) as [_ HU].
  pose proof (TC_Proofs.t_count _ _ _ _ _ _ _ HI v Hv) as H.
  destruct (Hrest (owner v) (Hown v)) as [_ Hq]. rewrite Hq in H. rewrite sumt_zero in H by (intros t Ht; destruct (Hrest t Ht) as [-> _]; done). cbn in H. rewrite !Nat.add_0_r in H. rewrite H.
  apply TC_Count.sumn_ext. intros u Hu. unfold TC_Proofs.UA. rewrite HU by done. rewrite TC_Proofs.shipped_plain by (destruct (Hrest (owner u) (Hown u)) as [-> _]; done).
  rewrite (TC_Proofs.len_edges raw owner E M nt st), Hadd by done. unfold TC_Static.SE. by rewrite map_length.
Qed.
Theorem C63_oracle_triangles raw owner E M nt sched owner' nt' sched' :
  (forall v, owner v < nt) -> (forall v, owner' v < nt') -> (forall u v, u < M -> v < M -> raw u = raw v -> u = v) -> (forall v, v < M -> (raw v < 2147483647)%N) ->
  (forall a b, (a, b) ∈ E -> a < M /\ b < M) -> (forall t c, (t, c) ∈ sched -> t < nt) -> (forall t c, (t, c) ∈ sched' -> t < nt') ->
  let s := TC_Model.trun raw owner E TC_Model.tnew sched in let s' := TC_Model.trun raw owner' E (TC_Model.tloaded raw owner' E) sched' in
  TC_Props.at_rest nt s -> (forall u, u < M -> TC_Model.added s u = length (TC_Model.outs E u)) ->
  TC_Props.at_rest nt' s' -> (forall u, u < M -> TC_Model.outs E u <> [] -> Began_send u ∈ alog (TC_Model.base s')) -> M <> 1 ->
  oracle_compare 32 M (fun v => Z.of_nat (TC_Model.NumLeader (aprop (TC_Model.base s') v))) (fun v => Z.of_nat (TC_Model.NumLeader (aprop (TC_Model.base s) v))) = Some (0, 0, 0)%Z.
Proof.
  intros Hown Hown' Hraw Hsmall Hends Ht Ht' s s' Hrest Hadd Hrest' Hnoted HM. apply C63_no_difference; [done|]. intros v Hv. f_equal.
  rewrite (triangles_each raw owner E M nt false s Hown Hraw Hsmall Hends); try done; [|by apply TC_Proofs.tinv_trun; try done; apply TC_Proofs.tinv_new].
  destruct (TC_Props.tinv_loaded raw owner' E M nt' Hown' Hraw Hsmall Hends) as [HL Hadd'].
  assert (HI : TC_Proofs.tinv raw owner' E M nt' true s') by (apply TC_Proofs.tinv_trun; done).
  apply (triangles_each raw owner' E M nt' true s' Hown' Hraw Hsmall Hends); try done. intros u Hu. destruct (TC_Proofs.t_edges _ _ _ _ _ _ _ HI u) as [H1 _].
  pose proof (TC_Props.added_run raw owner' E sched' (TC_Model.tloaded raw owner' E) u) as H2. fold s' in H2. rewrite Hadd' in H2. lia.
Qed.

(** The checks on results of runs: components of two pairs, distances along a path, the
    colouring of C38_case; a wrong label, a wrong distance and a clash of colours are rejected. *)
Definition pairs_run : est cc :=
  erun cc (fun v => v mod 2) (cc_start (fun v => nth v [[(1, tt)]; [(0, tt)]; [(3, tt)]; [(2, tt)]] []))
    (flat_map (fun v => (v mod 2, SendInit (a := cc) v (nth v [5; 3; 9; 2]%N 0%N)) :: repeat (v mod 2, Run) 10) [0; 1; 2; 3] ++ concat (repeat ((0, Pop) :: repeat (0, Run) 12 ++ (1, Pop) :: repeat (1, Run) 12) 6)).
Example C63_case :
  map (prop pairs_run) [0; 1; 2; 3] = [3; 3; 2; 2]%N /\ cc_check 4 (edges pairs_run) (prop pairs_run) = true /\
  oracle_compare 32 4 (fun v => Z.of_N (prop pairs_run v)) (fun v => Z.of_N (nth v [3; 3; 2; 2]%N 0%N)) = Some (0, 0, 0)%Z /\
  cc_check 4 (edges pairs_run) (fun v => nth v [3; 3; 2; 9]%N 0%N) = false /\
  (let q z := Q2Qc (z # 1) in let es v := nth v [[(1, q 5%Z)]; [(2, q 2%Z)]; []] [] in
   sssp_check (fun x => x) (q 1000%Z) 3 es (only 0 (q 0%Z)) (fun v => nth v [q 0; q 5; q 7]%Z (q 0%Z)) = true /\
   sssp_check (fun x => x) (q 1000%Z) 3 es (only 0 (q 0%Z)) (fun v => nth v [q 0; q 5; q 8]%Z (q 0%Z)) = false) /\
  (let s := Colour_Props.col_run toy_owner Colour_Props.col_sizes Colour_Props.col_es Colour_Props.col_sched in
   colour_check 3 (edges s) (fun _ => 2) (fun v => fst (prop s v)) = true /\ colour_check 3 (edges s) (fun _ => 2) (fun v => if v =? 2 then 0%N else fst (prop s v)) = false) /\
  tc_check 4 (fun v => length (aedges (TC_Model.base TC_Props.case_run) v)) (fun v => TC_Model.UpdateAt (aprop (TC_Model.base TC_Props.case_run) v)) = true.
Proof. by vm_compute. Qed.

Print Assumptions C63_components_accepted.
Print Assumptions C63_components_refuted.
Print Assumptions C63_components_mean.
Print Assumptions C63_components_weak.
Print Assumptions C63_shortest_accepted.
Print Assumptions C63_messages_accepted.
Print Assumptions C63_two_sources_refuted.
Print Assumptions C63_shortest_mean.
Print Assumptions C63_shortest_weak.
Print Assumptions C63_colouring_accepted.
Print Assumptions C63_colouring_means.
Print Assumptions C63_colouring_weak.
Print Assumptions C63_triangles_accepted.
Print Assumptions C63_no_difference.
Print Assumptions C63_single_panics.
Print Assumptions C63_oracle_components.
Print Assumptions C63_oracle_shortest.
Print Assumptions C63_oracle_triangles.
