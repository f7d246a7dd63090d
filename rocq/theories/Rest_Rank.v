(** PageRank comes to rest: flow that is passed on loses a fraction each time. *)
From Verif Require Import Base RBO_Spec QcUtil Engine_Spec Engine_Model Engine_Proofs Engine_Shape Engine_Props Rank_Spec Rank_Model Rank_Proofs Rank_Run Rank_Wake Rank_Error Rest_Spec Rest_Proofs Rest_Work.
From Coq Require Import QArith Qcanon Qround.
Open Scope nat_scope.

Section rest.
Context (owner : nat -> nat) (n : nat) (Hown : forall v, owner v < n) (N : nat).
Notation est := (est ranking).
Notation op := (op ranking).

Definition pkind (k : kind unit) : Prop := match k with KDel gone => Forall (fun e => fst e < N) gone | _ => True end.
Definition pop (o : op) : Prop :=
  match o with
  | Merge _ d _ | Cas d | Put d => d < N
  | Dec _ => True
  | Begin v k | Scan v k _ _ => v < N /\ pkind k
  | Else l => l = []
  | Init v _ => v < N
  end.
Record pinv (s : est) : Prop := {
  p_threads : threads ranking n s;
  p_box : forall v, exists c, box s v = [c];
  p_ops : forall t, Forall pop (todo s t);
  p_queue : forall t, Forall (fun v => v < N) (queue s t);
  p_edges : forall u, Forall (fun e : nat * unit => fst e < N) (edges s u);
  p_low : forall u, N <= u -> edges s u = [] }.
Definition pchoice (c : choice ranking) : Prop :=
  match c with
  | Run | Pop => True
  | AddEdges v es => v < N /\ Forall (fun e : nat * unit => fst e < N) es
  | DelEdges v _ | SendInit v _ => v < N
  end.

Lemma masked_Forall {A} (P : A -> Prop) b (l : list A) gone : Forall P l -> Forall P (masked b l gone).
Proof.
  intros H. revert gone. induction H as [|x l Hx H IH]; intros gone; [destruct gone, b; constructor|].
  destruct gone as [|g gone]; [cbn; destruct b; by repeat constructor|]. cbn [masked]. destruct (eqb g b); [constructor|]; auto.
Qed.
Lemma merge_cell (m : msg_t ranking) v d (c : cell_t ranking) : exists b, merge ranking m v d [c] = (@cons (cell_t ranking) ((c : Qc) + (m : Qc))%Qc [], b).
Proof. by eexists. Qed.
Lemma to_all_dest q l : Forall (fun e : nat * unit => fst e < N) l -> Forall (fun '(d, _) => d < N) (to_all q l).
Proof. intros H. apply Forall_fmap. eapply List.Forall_impl; [|exact H]. done. Qed.
Lemma react_dest v k p es got : Forall (fun e : nat * unit => fst e < N) es -> pkind k ->
  let '(_, ms, ms') := react ranking v k p es got in ms' = [] /\ Forall (fun '(d, _) => d < N) (ms : list (nat * Qc)).
Proof.
  intros He Hk. cbn [react ranking]. destruct k as [|start|gone]; cbn in Hk.
  - unfold rank_update. destruct (qltb _ _); (split; [done|]); [by apply to_all_dest|constructor].
  - unfold rank_add. split; [done|]. apply Forall_app. split.
    + destruct (start =? 0); [constructor|]. by apply to_all_dest, Forall_take.
    + by apply to_all_dest, Forall_drop.
  - unfold rank_del. split; [done|]. apply Forall_app. split; by apply to_all_dest.
Qed.

Lemma pinv_estep s t c : pinv s -> pchoice c -> pinv (estep ranking owner s t c).
Proof.
  intros Hs Hc. destruct (decide (t < n)) as [Ht|Ht].
  2:{ destruct (p_threads s Hs t ltac:(lia)) as [E1 E2]. unfold estep. rewrite E1. destruct c as [| |v es|v gone|v m]; try done.
      - by rewrite E2.
      - destruct (Nat.eqb_spec (owner v) t) as [E0|]; [|done]. specialize (Hown v). lia.
      - destruct (Nat.eqb_spec (owner v) t) as [E0|]; [|done]. specialize (Hown v). lia.
      - destruct (Nat.eqb_spec (owner v) t) as [E0|]; [|done]. specialize (Hown v). lia. }
  assert (HO : forall l, Forall pop l -> forall k, Forall pop (upd (todo s) t l k)).
  { intros l Hl k. destruct (decide (k = t)) as [->|Hne]; us; [done|apply (p_ops s Hs)]. }
  unfold estep. destruct (todo s t) as [|o rest] eqn:Et.
  - destruct c as [| |v es|v gone|v m]; try done.
    + destruct (queue s t) as [|v q] eqn:Eq; [done|]. pose proof (p_queue s Hs t) as Hq. rewrite Eq in Hq. apply list.Forall_cons in Hq as [Hv Hq].
      split; try apply Hs.
      * intros k Hk. cbn. us. by apply (p_threads s Hs).
      * apply HO. constructor; [done|]. constructor; [by split|constructor].
      * intros k. cbn. destruct (decide (k = t)) as [->|Hne]; us; [done|apply Hs].
    + destruct (Nat.eqb_spec (owner v) t) as [E0|]; [|done]. destruct Hc as [Hv Hes]. split; try apply Hs.
      * intros k Hk. cbn. us. by apply (p_threads s Hs).
      * apply HO. constructor; [by split|constructor].
      * intros u. cbn. destruct (decide (u = v)) as [->|Hne]; us; [|apply Hs]. apply Forall_app. split; [apply Hs|done].
      * intros u Hu. cbn. us. by apply (p_low s Hs).
    + destruct (Nat.eqb_spec (owner v) t) as [E0|]; [|done]. cbn in Hc. split; try apply Hs.
      * intros k Hk. cbn. us. by apply (p_threads s Hs).
      * apply HO. constructor; [|constructor]. split; [done|]. apply masked_Forall, Hs.
      * intros u. cbn. destruct (decide (u = v)) as [->|Hne]; us; [|apply Hs]. apply masked_Forall, Hs.
      * intros u Hu. cbn. us. by apply (p_low s Hs).
    + destruct (Nat.eqb_spec (owner v) t) as [E0|]; [|done]. split; try apply Hs.
      * intros k Hk. cbn. us. by apply (p_threads s Hs).
      * apply HO. constructor; [exact Hc|constructor].
  - destruct c; try done. pose proof (p_ops s Hs t) as Hop. rewrite Et in Hop. apply list.Forall_cons in Hop as [Ho Hrest].
    unfold exec_op. destruct o as [v d m|d|d|v|v k|v k i got|l|v m].
    + destruct (p_box s Hs d) as (c & Eb). rewrite Eb. destruct (merge_cell m v d c) as (b & ->). cbn in Ho.
      split; try apply Hs; [intros k Hk; cbn; us; by apply (p_threads s Hs)| |apply HO; destruct b; [constructor|]; done].
      intros w; cbn; (destruct (decide (w = d)) as [->|Hne]; us; [eauto|apply Hs]).
    + cbn in Ho. destruct (act s d =? 0); (split; try apply Hs; [intros k Hk; cbn; us; by apply (p_threads s Hs)|apply HO; try constructor; done]).
    + cbn in Ho. split; try apply Hs; [|by apply HO|].
      * intros k Hk. cbn. pose proof (Hown d). us. by apply (p_threads s Hs).
      * intros k. cbn. destruct (decide (k = owner d)) as [->|Hne]; us; [|apply Hs]. apply Forall_app. split; [apply Hs|by repeat constructor].
    + split; try apply Hs; [|by apply HO]. intros k Hk. cbn. us. by apply (p_threads s Hs).
    + split; try apply Hs; [|apply HO; constructor; done]. intros k' Hk. cbn. us. by apply (p_threads s Hs).
    + destruct (p_box s Hs v) as (c & Eb). destruct (box s v !! i) as [c1|] eqn:Ei.
      * assert (i = 0 /\ c1 = c) as [-> ->] by (rewrite Eb in Ei; destruct i; [by injection Ei as ->|done]). split; try apply Hs.
        -- intros k' Hk. cbn. us. by apply (p_threads s Hs).
        -- intros w. cbn. destruct (decide (w = v)) as [->|Hne]; us; [rewrite Eb; eauto|apply Hs].
        -- apply HO. constructor; [exact Ho|done].
      * destruct Ho as [Hv Hk0]. pose proof (react_dest v k (prop s v) (edges s v) got (p_edges s Hs v) Hk0) as HR.
        destruct (react ranking v k (prop s v) (edges s v) got) as [[p ms] ms'] eqn:Er. destruct HR as (-> & R2).
        split; try apply Hs.
        -- intros k' Hk. cbn. us. by apply (p_threads s Hs).
        -- apply HO. apply Forall_app. split; [|constructor; [|done]]; [|done].
           apply Forall_fmap. eapply List.Forall_impl; [|exact R2]. by intros [d m].
    + cbn in Ho. subst l. split; try apply Hs; [intros k Hk; cbn; us; by apply (p_threads s Hs)|]. apply HO. by destruct (sent s t =? 0).
    + destruct (p_box s Hs v) as (c & Eb). rewrite Eb. destruct (merge_cell m v v c) as (b & ->). cbn in Ho.
      split; try apply Hs; [intros k Hk; cbn; us; by apply (p_threads s Hs)| |apply HO; destruct b; [constructor|]; done].
      intros w; cbn; (destruct (decide (w = v)) as [->|Hne]; us; [eauto|apply Hs]).
Qed.

(** The flow that is under way. *)
Definition opq (o : op) : Qc :=
  match o with Merge _ _ m | Init _ m => qabs m | Scan _ _ _ got => qabs (total got) | _ => 0%Qc end.
Fixpoint lq (l : list op) : Qc := match l with [] => 0%Qc | o :: l => (opq o + lq l)%Qc end.
Definition at_vertex (s : est) (v : nat) : Qc := (qabs (total (box s v)) + qabs (fst (prop s v)))%Qc.
Definition flow (s : est) : Qc := (qsum (at_vertex s) N + qsum (fun t => lq (todo s t)) n)%Qc.

Lemma lq_app l l' : (lq (l ++ l') = lq l + lq l')%Qc.
Proof. induction l as [|o l IH]; cbn [lq app]; [ring|]. rewrite IH. ring. Qed.
Lemma opq_nonneg o : (0 <= opq o)%Qc.
Proof. destruct o; cbn; try apply Qcle_refl; apply qabs_nonneg. Qed.
Lemma lq_nonneg l : (0 <= lq l)%Qc.
Proof. induction l as [|o l IH]; cbn [lq]; [apply Qcle_refl|]. pose proof (opq_nonneg o). qclra. Qed.
Lemma qsum_nonneg f k : (forall i, 0 <= f i)%Qc -> (0 <= qsum f k)%Qc.
Proof. intros H. induction k as [|k IH]; cbn [qsum]; [apply Qcle_refl|]. specialize (H k). qclra. Qed.
Lemma flow_nonneg s : (0 <= flow s)%Qc.
Proof.
  unfold flow. assert (H1 : (0 <= qsum (at_vertex s) N)%Qc).
  { apply qsum_nonneg. intros v. unfold at_vertex. pose proof (qabs_nonneg (total (box s v))). pose proof (qabs_nonneg (fst (prop s v))). qclra. }
  assert (H2 : (0 <= qsum (fun t => lq (todo s t)) n)%Qc) by (apply qsum_nonneg; intros; apply lq_nonneg). qclra.
Qed.
Lemma lq_all v q l : lq (map (fun '(d, m) => Merge (a := ranking) v d m) (to_all q l)) = (inject_nat (length l) * qabs q)%Qc.
Proof.
  induction l as [|e l IH]; [cbn; rewrite QcUtil.inj_0; ring|]. unfold to_all in *. cbn [map lq opq length]. rewrite IH. change (S (length l)) with (1 + length l). rewrite QcUtil.inj_add, QcUtil.inj_1. ring.
Qed.

Lemma flow_todo s s' t : t < n -> (forall v, box s' v = box s v) -> (forall v, prop s' v = prop s v) -> (forall k, k <> t -> todo s' k = todo s k) ->
  (flow s' = flow s - lq (todo s t) + lq (todo s' t))%Qc.
Proof.
  intros Ht H1 H2 H3. unfold flow. rewrite (qsum_ext (at_vertex s') (at_vertex s)) by (intros; unfold at_vertex; by rewrite H1, H2).
  rewrite (qsum_change (fun t => lq (todo s t)) (fun t => lq (todo s' t)) n t Ht) by (intros k _ Hk; by rewrite H3). ring.
Qed.
Lemma flow_both s s' t v : t < n -> v < N -> (forall w, w <> v -> box s' w = box s w /\ prop s' w = prop s w) -> (forall k, k <> t -> todo s' k = todo s k) ->
  (flow s' = flow s - lq (todo s t) + lq (todo s' t) - at_vertex s v + at_vertex s' v)%Qc.
Proof.
  intros Ht Hv H1 H3. unfold flow. rewrite (qsum_change (at_vertex s) (at_vertex s') N v Hv) by (intros w _ Hw; unfold at_vertex; by destruct (H1 w Hw) as [-> ->]).
  rewrite (qsum_change (fun t => lq (todo s t)) (fun t => lq (todo s' t)) n t Ht) by (intros k _ Hk; by rewrite H3). ring.
Qed.

(** How many changes of the graph are still to be reacted to. *)
Definition is_change (o : op) : nat := match o with Begin _ k | Scan _ k _ _ => match k with KUpd => 0 | _ => 1 end | _ => 0 end.
Fixpoint lc (l : list op) : nat := match l with [] => 0 | o :: l => is_change o + lc l end.
Definition changes (s : est) : nat := sumt (fun t => lc (todo s t)) n.
Lemma lc_app l l' : lc (l ++ l') = lc l + lc l'.
Proof. induction l as [|o l IH]; simpl; [done|]. lia. Qed.
Lemma lc_merges v (ms : list (nat * Qc)) : lc (map (fun '(d, m) => Merge (a := ranking) v d m) ms) = 0.
Proof. by induction ms as [|[d m] l IH]. Qed.
Lemma changes_todo s s' t : t < n -> (forall k, k <> t -> todo s' k = todo s k) -> changes s' + lc (todo s t) = changes s + lc (todo s' t).
Proof.
  intros Ht H. unfold changes. pose proof (sumt_change (fun t => lc (todo s' t)) (fun t => lc (todo s t)) n t Ht ltac:(intros; cbn beta; by rewrite H)) as G. cbn beta in G. lia.
Qed.

Definition delta : Qc := ((1 - DAMP) * EPS)%Qc.
Lemma delta_pos : (0 < delta)%Qc. Proof. by vm_compute. Qed.
Lemma damp_01 : (0 <= DAMP /\ DAMP <= 1)%Qc. Proof. split; by vm_compute. Qed.

(** A reaction to a notification. *)
Lemma update_flow v p es got p' ms : rank_update p es got = (p', ms) ->
  (qabs (fst p') + lq (map (fun '(d, m) => Merge (a := ranking) v d m) ms) <= qabs (fst p) + qabs (total got))%Qc /\
  (ms = [] \/ qabs (fst p') + lq (map (fun '(d, m) => Merge (a := ranking) v d m) ms) + delta <= qabs (fst p) + qabs (total got))%Qc /\
  length ms <= length es.
Proof.
  unfold rank_update. set (f := (fst p + total got)%Qc).
  assert (Hf : (qabs f <= qabs (fst p) + qabs (total got))%Qc) by apply qabs_add.
  unfold qltb. destruct (Qclt_le_dec EPS (qabs f)) as [Hl|Hl]; intros [= <- <-].
  - cbn [fst snd]. rewrite lq_all, qabs_0.
    assert (Hb : (inject_nat (length es) * qabs (DAMP * f / qlen es) <= DAMP * qabs f)%Qc).
    { destruct es as [|e es]; [cbn [length]; rewrite QcUtil.inj_0, Qcmult_0_l; pose proof (qabs_nonneg f); pose proof damp_01 as [? _]; set (z := qabs f) in *; clearbody z; clear - H H0; qcnra|].
      set (k := inject_nat (length (e :: es))). assert (Hk : (0 < k)%Qc) by (apply QcUtil.inj_pos; simpl; lia). unfold qlen. fold k.
      assert (Hk0 : k <> 0%Qc) by (intros E; rewrite E in Hk; by apply Qclt_not_eq in Hk).
      replace (DAMP * f / k)%Qc with ((DAMP / k) * f)%Qc by (field; done).
      assert (Hd : (0 <= DAMP / k)%Qc) by (apply frac_nonneg; [apply damp_01|done]).
      pose proof (qabs_scale (DAMP / k) f Hd) as Hs. replace (DAMP * qabs f)%Qc with (k * (DAMP / k * qabs f))%Qc by (field; done).
      rewrite !(Qcmult_comm k). apply Qcmult_le_compat_r; [done|by apply Qclt_le_weak]. }
    assert (Hd : (DAMP * qabs f + delta <= qabs f)%Qc).
    { unfold delta. pose proof (Qcmult_le_compat_r EPS (qabs f) (1 - DAMP) ltac:(by apply Qclt_le_weak) ltac:(by vm_compute)) as H. 
      set (z := qabs f) in *. set (D := DAMP) in *. set (E := EPS) in *. clearbody z D E. clear - H. replace (z * (1 - D))%Qc with (z - D * z)%Qc in H by ring. replace (E * (1 - D))%Qc with ((1 - D) * E)%Qc in H by ring.
      set (a := (D * z)%Qc) in *. set (b := ((1 - D) * E)%Qc) in *. clearbody a b. qclra. }
    pose proof delta_pos as Hp. split_and!.
    + set (x1 := (inject_nat _ * _)%Qc) in *. set (x2 := (DAMP * qabs f)%Qc) in *. set (x3 := qabs f) in *. set (x4 := qabs (fst p)) in *. set (x5 := qabs (total got)) in *. set (dl := delta) in *. clearbody x1 x2 x3 x4 x5 dl. clear - Hb Hd Hp Hf. qclra.
    + right. set (x1 := (inject_nat _ * _)%Qc) in *. set (x2 := (DAMP * qabs f)%Qc) in *. set (x3 := qabs f) in *. set (x4 := qabs (fst p)) in *. set (x5 := qabs (total got)) in *. set (dl := delta) in *. clearbody x1 x2 x3 x4 x5 dl. clear - Hb Hd Hp Hf. qclra.
    + unfold to_all. by rewrite map_length.
  - cbn [fst snd map lq length]. split_and!; [|by left|lia]. rewrite Qcplus_0_r. done.
Qed.

Lemma qeq_le (x y : Qc) : x = y -> (x <= y)%Qc.
Proof. intros ->. apply Qcle_refl. Qed.
(** Steps that only change the list of a thread. *)
Ltac plain s t Ht Et :=
  match goal with |- context [flow ?x] => 
    let F := fresh "F" in let C := fresh "C" in
    pose proof (flow_todo s x t Ht ltac:(done) ltac:(done) ltac:(intros; cbn; by us)) as F; pose proof (changes_todo s x t Ht ltac:(intros; cbn; by us)) as C;
    cbn [todo] in C, F; us; rewrite Et in C, F; cbn [lc is_change lq opq total foldr] in C, F; rewrite ?qabs_0 in F; split_and!; [lia|rewrite F; apply qeq_le; ring|by intros] end.
Lemma flow_step s t c : pinv s -> c ∈ acts ranking -> can ranking s t c = true ->
  let s' := estep ranking owner s t c in
  changes s' < changes s \/ (changes s' = changes s /\ (flow s' <= flow s)%Qc /\
    forall v k i got rest, todo s t = Scan v k i got :: rest -> c = Run -> box s v !! i = None ->
      let '(_, ms, ms') := react ranking v k (prop s v) (edges s v) got in
      ms' = [] /\ length ms <= length (edges s v) /\ k = KUpd /\ (ms = [] \/ (flow s' + delta <= flow s)%Qc)).
Proof.
  intros Hs Hc Hcan s'.
  assert (Ht : t < n). { destruct (decide (t < n)) as [|Ht]; [done|]. destruct (p_threads s Hs t ltac:(lia)) as [E1 E2]. unfold can in Hcan. rewrite E1, E2 in Hcan. by destruct c. }
  unfold acts in Hc. rewrite !elem_of_cons, elem_of_nil in Hc. destruct Hc as [->|[->|[]]]; unfold can in Hcan; subst s'; unfold estep.
  - destruct (todo s t) as [|o rest] eqn:Et; [done|]. pose proof (p_ops s Hs t) as Hop. rewrite Et in Hop. apply list.Forall_cons in Hop as [Ho _].
    unfold exec_op. destruct o as [v d m|d|d|v|v k|v k i got|l|v m].
    + right. destruct (p_box s Hs d) as (c & Eb). rewrite Eb. destruct (merge_cell m v d c) as (b & ->). cbn in Ho.
      match goal with |- context [flow ?x] => pose proof (flow_both s x t d Ht Ho ltac:(intros; cbn; by us) ltac:(intros; cbn; by us)) as F; pose proof (changes_todo s x t Ht ltac:(intros; cbn; by us)) as C end.
      cbn [todo] in C, F. us. rewrite Et in C, F. split_and!; [|rewrite F|by intros].
      * destruct b; cbn [lc is_change] in C; lia.
      * unfold at_vertex. cbn [box prop]. us. rewrite Eb. cbn [total foldr lq opq]. rewrite !Qcplus_0_r.
        assert (E : lq (if b then Cas (a := ranking) d :: rest else rest) = lq rest) by (destruct b; cbn [lq opq]; ring). rewrite E.
        pose proof (qabs_add (c : Qc) (m : Qc)) as Ha. set (x1 := qabs ((c : Qc) + (m : Qc))) in *. set (x2 := qabs (c : Qc)) in *. set (x3 := qabs (m : Qc)) in *. set (x4 := qabs _). set (x5 := lq rest). set (x6 := flow s). clearbody x1 x2 x3 x4 x5 x6. clear - Ha. qclra.
    + right. destruct (act s d =? 0); plain s t Ht Et.
    + right. plain s t Ht Et.
    + right. plain s t Ht Et.
    + right. destruct k; plain s t Ht Et.
    + destruct Ho as [Hv Hk]. destruct (p_box s Hs v) as (c & Eb). destruct (box s v !! i) as [c1|] eqn:Ei.
      * assert (i = 0 /\ c1 = c) as [-> ->] by (rewrite Eb in Ei; destruct i; [by injection Ei as ->|done]). right.
        destruct (take ranking c) as [c' x] eqn:Ec. assert (c' = (0%Qc : cell_t ranking) /\ x = c) as [-> ->] by (injection Ec as <- <-; done).
        match goal with |- context [flow ?x] => pose proof (flow_both s x t v Ht Hv ltac:(intros; cbn; by us) ltac:(intros; cbn; by us)) as F; pose proof (changes_todo s x t Ht ltac:(intros; cbn; by us)) as C end.
        cbn [todo] in C, F. us. rewrite Et in C, F. split_and!; [|rewrite F|].
        -- cbn [lc is_change] in C; lia.
        -- unfold at_vertex. cbn [box prop]. us. rewrite Eb. change (<[0 := (0%Qc : cell_t ranking)]> [c]) with [0%Qc]. cbn [lq opq]. rewrite total_snoc. cbn [total foldr]. rewrite !Qcplus_0_r, qabs_0.
           pose proof (qabs_add (total got) (c : Qc)) as Ha. set (x1 := qabs (total got + (c : Qc))%Qc) in *. set (x2 := qabs (c : Qc)) in *. set (x3 := qabs (total got)) in *. set (x4 := qabs _). set (x5 := lq rest). set (x6 := flow s). clearbody x1 x2 x3 x4 x5 x6. clear - Ha. qclra.
        -- intros v' k' i' got' rest' [= <- <- <- <- <-] _ Hn. congruence.
      * destruct (react ranking v k (prop s v) (edges s v) got) as [[p ms] ms'] eqn:Er.
        match goal with |- context [flow ?x] => pose proof (flow_both s x t v Ht Hv ltac:(intros; cbn; by us) ltac:(intros; cbn; by us)) as F; pose proof (changes_todo s x t Ht ltac:(intros; cbn; by us)) as C end.
        cbn [todo] in C, F. us. rewrite Et in C, F. rewrite lc_app, lc_merges in C. cbn [lc is_change] in C.
        destruct k as [|start|gone]; [|left; cbn iota in C; lia|left; cbn iota in C; lia]. right. cbn iota in C.
        cbn [react ranking] in Er. injection Er as Er <-.
        destruct (update_flow v (prop s v) (edges s v) got p ms Er) as (U1 & U2 & U3).
        rewrite lq_app in F. cbn [lq opq] in F. unfold at_vertex in F. cbn [box prop] in F. us.
        set (x1 := qabs (fst p)) in *. set (x2 := lq (map _ ms)) in *. set (x3 := qabs (fst (prop s v))) in *. set (x4 := qabs (total got)) in *. set (x5 := qabs (total (box s v))) in *. set (x6 := lq rest) in *.
        split_and!; [lia|rewrite F|].
        -- set (x7 := flow s) in *. clearbody x1 x2 x3 x4 x5 x6 x7. clear - U1. qclra.
        -- intros v' k' i' got' rest' [= <- <- <- <- <-] _ _. cbn [react ranking]. rewrite Er. split_and!; try done.
           destruct U2 as [->|U2]; [by left|right]. rewrite F. set (x7 := flow s) in *. set (dl := delta) in *. clearbody x1 x2 x3 x4 x5 x6 x7 dl. clear - U2. qclra.
    + right. cbn in Ho. subst l. cbn [map]. destruct (sent s t =? 0); cbn [app]; plain s t Ht Et.
    + right. destruct (p_box s Hs v) as (c & Eb). rewrite Eb. destruct (merge_cell m v v c) as (b & ->). cbn in Ho.
      match goal with |- context [flow ?x] => pose proof (flow_both s x t v Ht Ho ltac:(intros; cbn; by us) ltac:(intros; cbn; by us)) as F; pose proof (changes_todo s x t Ht ltac:(intros; cbn; by us)) as C end.
      cbn [todo] in C, F. us. rewrite Et in C, F. split_and!; [|rewrite F|by intros].
      * destruct b; cbn [lc is_change] in C; lia.
      * unfold at_vertex. cbn [box prop]. us. rewrite Eb. cbn [total foldr lq opq]. rewrite !Qcplus_0_r.
        assert (E : lq (if b then Begin (a := ranking) v KUpd :: rest else rest) = lq rest) by (destruct b; cbn [lq opq]; ring). rewrite E.
        pose proof (qabs_add (c : Qc) (m : Qc)) as Ha. set (x1 := qabs ((c : Qc) + (m : Qc))) in *. set (x2 := qabs (c : Qc)) in *. set (x3 := qabs (m : Qc)) in *. set (x4 := qabs _). set (x5 := lq rest). set (x6 := flow s). clearbody x1 x2 x3 x4 x5 x6. clear - Ha. qclra.
  - right. destruct (todo s t) as [|o rest] eqn:Et; [|done]. destruct (queue s t) as [|v q] eqn:Eq; [done|].
    unfold start_task. cbn [box act queue prop edges todo sent elog]. plain s t Ht Et.
Qed.

(** Work, and the level of the flow. *)
Context (M : nat).
Definition rc (k : kind unit) : nat := 1.
Definition wm : nat := wq ranking rc 1 + 3.
Definition wi : nat := 1 + wbegin ranking rc 1 KUpd.
Definition level (s : est) : nat := Z.to_nat (Qfloor (this (flow s) / this delta)).
Definition left_over (s : est) : nat := level s * (wm * M) + work ranking n wm rc wi 1 s.
Definition bounded_deg (s : est) : Prop := forall u, length (edges s u) <= M.
Lemma level_le s s' : (flow s' <= flow s)%Qc -> level s' <= level s.
Proof.
  intros H. unfold level. assert (Hd : (0 < this delta)%Q) by (by vm_compute). 
  assert (Hq : (Qfloor (this (flow s') / this delta) <= Qfloor (this (flow s) / this delta))%Z); [|lia].
  apply Qfloor_resp_le. apply Qmult_le_compat_r; [exact H|]. by apply Qlt_le_weak, Qinv_lt_0_compat.
Qed.
Lemma level_lt s s' : (flow s' + delta <= flow s)%Qc -> S (level s') <= level s.
Proof.
  intros H. unfold level. assert (Hd : (0 < this delta)%Q) by (by vm_compute).
  assert (Hq : (Qfloor (this (flow s') / this delta) + 1 <= Qfloor (this (flow s) / this delta))%Z).
  { rewrite <- (Qfloor_Z 1) at 1. assert (E : forall x, (Qfloor x + Qfloor (inject_Z 1) = Qfloor (x + inject_Z 1))%Z).
    { intros x. rewrite Qfloor_Z. apply Z.le_antisymm.
      - assert (Hf : (inject_Z (Qfloor x + 1) <= x + inject_Z 1)%Q) by (rewrite inject_Z_plus; apply Qplus_le_compat; [apply Qfloor_le|apply Qle_refl]).
        apply Qfloor_resp_le in Hf. by rewrite Qfloor_Z in Hf.
      - assert (Hf : (inject_Z (Qfloor (x + inject_Z 1)) < inject_Z (Qfloor x + 2))%Q).
        { eapply Qle_lt_trans; [apply Qfloor_le|]. replace (Qfloor x + 2)%Z with ((Qfloor x + 1) + 1)%Z by lia. rewrite (inject_Z_plus (Qfloor x + 1)). apply Qplus_lt_le_compat; [apply Qlt_floor|apply Qle_refl]. }
        rewrite <- Zlt_Qlt in Hf. lia. }
    rewrite E. apply Qfloor_resp_le. apply Qle_trans with ((this (flow s') + this delta) / this delta)%Q.
    - apply Qeq_Qle || idtac. unfold Qdiv. rewrite Qmult_plus_distr_l. apply Qplus_le_compat; [apply Qle_refl|]. rewrite Qmult_inv_r; [apply Qle_refl|]. intros E0. rewrite E0 in Hd. by apply Qlt_irrefl in Hd.
    - apply Qmult_le_compat_r; [|by apply Qlt_le_weak, Qinv_lt_0_compat]. unfold Qcle in H. by rewrite this_add in H. }
  assert (H0 : (0 <= Qfloor (this (flow s') / this delta))%Z).
  { change 0%Z with (Qfloor 0). apply Qfloor_resp_le. apply Qle_shift_div_l; [done|]. rewrite Qmult_0_l. exact (flow_nonneg s'). }
  lia.
Qed.
Lemma left_step s t c : pinv s -> bounded_deg s -> c ∈ acts ranking -> can ranking s t c = true ->
  let s' := estep ranking owner s t c in changes s' < changes s \/ (changes s' = changes s /\ left_over s' < left_over s).
Proof.
  intros Hs HM Hc Hcan s'.
  destruct (flow_step s t c Hs Hc Hcan) as [H|(H1 & H2 & H3)]; [by left|right]. split; [done|].
  fold s' in H1, H2, H3. apply level_le in H2. unfold left_over.
  pose proof (Nat.mul_le_mono_r _ _ (wm * M) H2) as H2'.
  assert (Hlen : forall v, length (box s v) <= 1) by (intros v; destruct (p_box s Hs v) as (x & ->); done).
  destruct (work_step ranking owner n Hown wm rc wi 1 s t c ltac:(unfold wm; lia) ltac:(unfold wi; lia) (p_threads s Hs) Hlen Hc Hcan) as [H|[H|[H|H]]]; fold s' in H.
  - lia.
  - destruct H as (v & d & m & rest & _ & _ & _ & Hw). unfold wm at 2 in Hw. lia.
  - destruct H as (v & m & rest & _ & _ & _ & Hw). unfold wi at 2 in Hw. lia.
  - destruct H as (v & k & i & got & rest & Et & Ec & Hn & Hw). specialize (H3 v k i got rest Et Ec Hn).
    destruct (react ranking v k (prop s v) (edges s v) got) as [[p ms] ms']. destruct H3 as (-> & L & -> & [->|H3]).
    + cbn [length] in Hw. unfold rc at 2 in Hw. lia.
    + apply level_lt in H3. specialize (HM v). unfold rc at 2 in Hw. cbn [length] in Hw. change (edge_t ranking) with unit in *. change (msg_t ranking) with Qc in *.
      pose proof (Nat.mul_le_mono_r _ _ (wm * M) H3) as H3'. cbn [Nat.mul] in H3'.
      assert (wm * (length ms + 0) <= wm * M) by (apply Nat.mul_le_mono_l; lia). lia.
Qed.
Lemma rank_settles_M s : pinv s -> bounded_deg s -> finite ranking owner s /\ settles (erun ranking owner) (acts ranking) n idle s.
Proof.
  intros Hs HM. apply (settles_acc ranking owner n (fun s => pinv s /\ bounded_deg s)).
  - intros s' [H _]. apply H.
  - intros s' t c [H1 H2] Hc. split; [apply pinv_estep; [done|]|].
    + unfold acts in Hc. rewrite !elem_of_cons, elem_of_nil in Hc. by destruct Hc as [->|[->|[]]].
    + unfold bounded_deg. by rewrite engine_edges.
  - done.
  - assert (G : forall h k s, changes s < h -> left_over s < k -> Acc (next ranking owner (fun s => pinv s /\ bounded_deg s)) s).
    { induction h as [|h IHh]; [lia|]. induction k as [|k IH]; intros s' Hh Hk; [lia|]. constructor. intros s'' (t & c & [I1 I2] & Hc & Hcan & ->).
      destruct (left_step s' t c I1 I2 Hc Hcan) as [H|[E H]].
      - apply (IHh (S (left_over (estep ranking owner s' t c)))); lia.
      - apply IH; lia. }
    apply (G (S (changes s)) (S (left_over s))); lia.
Qed.
End rest.
