(** C67: the colouring comes to rest and the program ends, on graphs without self-loops; with a self-loop it need not.
    With wait counts it always does. *)
From Verif Require Import Base Engine_Spec Engine_Model Engine_Proofs Engine_Shape Engine_Props Rest_Spec Rest_Proofs Rest_Prio.
From Verif Require Import Colour_Spec Colour_Model Colour_Best Colour_Proofs Colour_Run Colour_Props Rest_Colour.
From Verif Require Import Wait_Spec Wait_Model Wait_Proofs Wait_Run Wait_Props Rest_Wait.
From Verif Require Import Whole_Model Whole_Proofs Whole_Props Live_Proofs Live_Props.
From Verif Require Term_Model Term_Proofs.
Open Scope nat_scope.

(** The log only grows. *)
Lemma log_grows {a} owner (s : est a) l x : x ∈ elog s -> x ∈ elog (erun a owner s l).
Proof.
  revert s. induction l as [|[t c] l IH]; intros s Hx; [done|]. unfold erun in *. cbn [fold_left]. apply IH. clear IH. unfold estep.
  destruct (todo s t) as [|o rest].
  - destruct c; try done; cbn; repeat case_match; done.
  - destruct c; try done. unfold exec_op. destruct o; cbn; repeat case_match; cbn; try done; apply elem_of_app; by left.
Qed.
Lemma ever_acts es sched l u : (forall t c, (t, c) ∈ l -> c ∈ acts colouring) -> ever es (sched ++ l) u = ever es sched u.
Proof.
  intros Hl. unfold ever, added. f_equal. rewrite map_app, concat_app. rewrite <- (app_nil_r (concat (map _ sched))) at 2. f_equal.
  induction l as [|[t c] l IH]; [done|]. cbn [map concat]. rewrite IH by (intros t' c' H; by apply (Hl t' c'), elem_of_list_further).
  specialize (Hl t c ltac:(apply elem_of_list_here)). unfold acts in Hl. rewrite !elem_of_cons, elem_of_nil in Hl. by destruct Hl as [->|[->|[]]].
Qed.
Lemma col_run_app owner b es sched l : col_run owner b es (sched ++ l) = erun colouring owner (col_run owner b es sched) l.
Proof. unfold col_run, erun. by rewrite fold_left_app. Qed.

(** What is assumed of the graph: positions are used once and are not too many, as in C38; there are finitely many
    vertices and no self-loops. *)
Definition col_graph (top K : nat) (f b : nat -> nat) (ev : nat -> list (nat * nat)) : Prop :=
  (N.of_nat K < 2 ^ 31 - 1)%N /\ slots_unique ev /\ positions_below ev f /\ (forall v, b v <= f v <= K) /\
  loopless top ev /\ (forall u, top <= u -> ev u = []).
Lemma colouring_finite owner n b es sched f top K : (forall v, owner v < n) -> col_graph top K f b (ever es sched) ->
  let s := col_run owner b es sched in finite colouring owner s /\ settles (erun colouring owner) (acts colouring) n idle s.
Proof.
  intros Hown (HK & HU & HP & Hf & HL & Hlow) s. destruct (col_inv owner n b es sched f K Hown HK HU HP Hf) as [Hs _].
  apply (colouring_rests owner n Hown K top (ever es sched)); try done.
  intros u v p H. pose proof (HP u v p H). pose proof (Hf v). lia.
Qed.

(** Whatever edges were added and deleted in whatever interleaving: from then on a bounded number of rounds is enough. *)
Theorem C67_rest owner n b es sched f top K : (forall v, owner v < n) -> col_graph top K f b (ever es sched) ->
  settles (erun colouring owner) (acts colouring) n idle (col_run owner b es sched).
Proof. intros Hown HG. by destruct (colouring_finite owner n b es sched f top K Hown HG). Qed.

(** With C38: then the colouring is proper. *)
Theorem C67_proper owner n b es sched f top K : (forall v, owner v < n) -> col_graph top K f b (ever es sched) ->
  let s := col_run owner b es sched in
  (forall u, es u <> [] -> Told u ∈ elog s) -> undirected (edges s) ->
  settles (erun colouring owner) (acts colouring) n (fun s' => edges s' = edges s /\ proper (edges s) (fun v => fst (prop s' v)) /\
    forall u, edges s u <> [] -> (fst (prop s' u) <= N.of_nat (f u))%N) s.
Proof.
  intros Hown HG s Ht Hu. destruct (C67_rest owner n b es sched f top K Hown HG) as (bound & Hb). exists bound. intros rounds HF Hlen. specialize (Hb rounds HF Hlen). fold s in Hb.
  assert (Hacts : forall t c, (t, c) ∈ concat rounds -> c ∈ acts colouring) by (intros t c; by apply rounds_acts with n).
  assert (Ee : edges (erun colouring owner s (concat rounds)) = edges s) by (by apply acts_run_edges).
  split; [done|]. destruct HG as (HK & HU & HP & Hf & _).
  assert (Eu : forall u, ever es (sched ++ concat rounds) u = ever es sched u) by (intros u; by apply ever_acts).
  pose proof (C38_proper owner n b es (sched ++ concat rounds) f K Hown HK) as HC. cbv zeta in HC. rewrite col_run_app in HC. fold s in HC. rewrite Ee in HC.
  apply HC; try done.
  - intros u1 u2 i1 i2 x. rewrite !Eu. apply HU.
  - intros u v p. rewrite Eu. apply HP.
  - intros u H. apply log_grows. by apply Ht.
Qed.

(** With C61: and the program ends with it. *)
Theorem C67_ends owner n b es before own sent0 sched swap f top K : (forall v, owner v < n) ->
  let e := col_run owner b es before in fresh n e sent0 ->
  let s0 := wstart colouring e own sent0 in let s := wrun colouring owner swap n s0 sched in
  let work := before ++ eworks colouring owner swap n s0 sched in
  col_graph top K f b (ever es work) -> closed colouring n s ->
  (forall u, es u <> [] -> Told u ∈ elog (eng s)) -> undirected (edges (eng s)) ->
  exists bound, forall rounds, Forall (fair_round colouring n) rounds -> bound <= length rounds ->
    swap = true \/ Term_Proofs.tidy swap n (trm s0) (lworks colouring owner swap n s0 (sched ++ concat rounds)) ->
    let s' := wrun colouring owner swap n s (concat rounds) in
    (forall t, t < n -> left s' t) /\ complete n s' = true /\ edges (eng s') = edges (eng s) /\
    proper (edges (eng s)) (fun v => fst (prop (eng s') v)) /\
    forall u, edges (eng s) u <> [] -> (fst (prop (eng s') u) <= N.of_nat (f u))%N.
Proof.
  intros Hown e Hf s0 s work HG HC Ht Hu.
  assert (Ew : eng s = col_run owner b es work) by (unfold s, s0, work, e; rewrite eng_all, col_run_app; done).
  destruct (colouring_finite owner n b es work f top K Hown HG) as [HF _]. cbv zeta in HF. rewrite <- Ew in HF.
  destruct (C61_ends colouring owner swap n Hown e own sent0 sched Hf HC HF) as (bound & Hb). exists bound. intros rounds Hr Hl Htd s'.
  destruct (Hb rounds Hr Hl Htd) as (H1 & H2 & H3 & l & El & Hl'). fold s0 in El, H1, H2, H3. fold s in El, H1, H2, H3. fold s' in El, H1, H2, H3.
  assert (Ee : edges (eng s') = edges (eng s)) by (rewrite El; by apply acts_run_edges). split_and!; try done;
  destruct HG as (HK & HU & HP & Hfb & _);
  (assert (Eu : forall u, ever es (work ++ l) u = ever es work u) by (intros u; by apply ever_acts));
  pose proof (C38_proper owner n b es (work ++ l) f K Hown HK) as HCC; cbv zeta in HCC; rewrite col_run_app, <- Ew, <- El, Ee in HCC;
  (apply HCC; try done; [intros u1 u2 i1 i2 x; rewrite !Eu; apply HU|intros u v p; rewrite Eu; apply HP|intros u H; rewrite El; apply log_grows; by apply Ht]).
Qed.

(** States that agree but for the log. *)
Record alike {a} (s s' : est a) : Prop := {
  al_box : forall v, box s v = box s' v; al_act : forall v, act s v = act s' v; al_queue : forall t, queue s t = queue s' t;
  al_prop : forall v, prop s v = prop s' v; al_edges : forall v, edges s v = edges s' v;
  al_todo : forall t, todo s t = todo s' t; al_sent : forall t, sent s t = sent s' t }.
Lemma upd_alike {A} (f g : nat -> A) i x y : (forall v, f v = g v) -> x = y -> forall v, upd f i x v = upd g i y v.
Proof. intros H -> v. unfold upd. by destruct (v =? i). Qed.
Lemma alike_step {a} owner (s s' : est a) t c : alike s s' -> alike (estep a owner s t c) (estep a owner s' t c).
Proof.
  intros [A1 A2 A3 A4 A5 A6 A7]. unfold estep. rewrite <- (A6 t). destruct (todo s t) as [|o rest] eqn:Et.
  - destruct c as [| |v es|v gone|v m]; try done.
    + rewrite <- (A3 t). destruct (queue s t); [done|]. split; cbn; try done; by apply upd_alike.
    + destruct (owner v =? t); [|done]. rewrite <- (A5 v). split; cbn; try done; by apply upd_alike.
    + destruct (owner v =? t); [|done]. rewrite <- (A5 v). split; cbn; try done; by apply upd_alike.
    + destruct (owner v =? t); [|done]. split; cbn; try done; by apply upd_alike.
  - destruct c as [| |v es|v gone|v m]; try done. unfold exec_op. destruct o as [u d m|d|d|v|v k|v k i got|l|v m].
    + rewrite <- (A1 d). destruct (merge a m u d (box s d)). split; cbn; try done; by apply upd_alike.
    + rewrite <- (A2 d). destruct (act s d =? 0); split; cbn; try done; by apply upd_alike.
    + split; cbn; try done; apply upd_alike; try done; [by rewrite (A3 (owner d))|by rewrite (A7 t)].
    + rewrite <- (A2 v). split; cbn; try done; by apply upd_alike.
    + split; cbn; try done; by apply upd_alike.
    + rewrite <- (A1 v), <- (A4 v), <- (A5 v). destruct (box s v !! i); [destruct (take a c)|destruct (react a v k (prop s v) (edges s v) got) as [[p ms] ms']]; split; cbn; try done; by apply upd_alike.
    + rewrite <- (A7 t). split; cbn; try done; by apply upd_alike.
    + rewrite <- (A1 v). destruct (merge a m v v (box s v)). split; cbn; try done; by apply upd_alike.
Qed.
Lemma alike_run {a} owner (s s' : est a) l : alike s s' -> alike (erun a owner s l) (erun a owner s' l).
Proof. revert s s'. induction l as [|[t c] l IH]; intros s s' H; [done|]. unfold erun in *. cbn [fold_left]. by apply IH, alike_step. Qed.
Lemma alike_trans {a} (s s' s'' : est a) : alike s s' -> alike s' s'' -> alike s s''.
Proof. intros [] []. split; intros; congruence. Qed.
Lemma alike_busy {a} (s s' : est a) : alike s s' -> ~ idle s -> ~ idle s'.
Proof. intros [A1 A2 A3 A4 A5 A6 A7] H Hi. apply H. intros t. rewrite A3, A6. apply Hi. Qed.
(** What returns to where it was goes on for ever. *)
Lemma cycles {a} owner n (s : est a) r : round (acts a) n r -> ~ idle s -> alike (erun a owner s r) s -> ~ settles (erun a owner) (acts a) n idle s.
Proof.
  intros Hr Hi Ha (bound & Hb). apply (alike_busy s (erun a owner s (concat (repeat r bound)))); [|done|].
  - clear Hb. assert (G : forall k, alike s (erun a owner s (concat (repeat r k)))); [|done].
    assert (H0 : forall k s0, alike s0 s -> alike s (erun a owner s0 (concat (repeat r k)))).
    { induction k as [|k IH]; intros s0 H; cbn [repeat concat]; [destruct H; split; intros; cbn; congruence|].
      unfold erun. rewrite fold_left_app. apply IH. eapply alike_trans; [apply alike_run; exact H|exact Ha]. }
    intros k. apply H0. split; done.
  - apply Hb; [|by rewrite repeat_length]. apply list.Forall_forall. intros x Hx. apply elem_of_list_In, repeat_spec in Hx. by subst.
Qed.

(** Vertices 0 and 1 with an edge between them and a self-loop at 0, one thread for each.  The code sends the vertex's own
    colour to itself and takes it for the initial mail.  When both vertices always read before either sends, they
    exchange colours 0 and 1 for ever. *)
Definition loop_es (v : nat) : list (nat * nat) := match v with 0 => [(0, 0); (0, 1); (1, 0)] | 1 => [(0, 2)] | _ => [] end.
Definition loop_b (v : nat) : nat := match v with 0 => 3 | 1 => 1 | _ => 0 end.
Definition loop_half : list (nat * choice colouring) :=
  let run t k : list (nat * choice colouring) := repeat (t, Run) k in
  [(0, Pop); (1, Pop)] ++ run 0 6 ++ run 1 4 ++ run 0 15 ++ run 1 10.
Definition loop_start : list (nat * choice colouring) :=
  let run t k : list (nat * choice colouring) := repeat (t, Run) k in
  [(0, SendInit (a := colouring) 0 (0%N, 0)); (1, SendInit (a := colouring) 1 (0%N, 0))] ++ run 0 6 ++ run 1 4 ++ run 0 15 ++ run 1 10 ++ loop_half.
Lemma both_nil {A} (l l' : list A) : length l + length l' = 0 -> l = l'. Proof. destruct l, l'; cbn; [done|lia..]. Qed.
Lemma toy_lt v : toy_owner v < 2. Proof. apply Nat.mod_upper_bound. lia. Qed.
Theorem C67_self_loop_refuted : exists owner b es sched, (forall v, owner v < 2) /\ slots_unique (ever es sched) /\ undirected es /\
  (forall u v p, (v, p) ∈ ever es sched u -> p < b v) /\
  ~ settles (erun colouring owner) (acts colouring) 2 idle (col_run owner b es sched).
Proof.
  exists toy_owner, loop_b, loop_es, loop_start. 
  assert (Ev : forall u, ever loop_es loop_start u = loop_es u). { intros u. unfold ever. replace (added loop_start u) with (@nil (nat * nat)) by (vm_compute; done). by rewrite app_nil_r. }
  split_and!.
  - apply toy_lt.
  - intros u1 u2 i1 i2 x. rewrite !Ev. destruct u1 as [|[|u1]], u2 as [|[|u2]]; cbn; destruct i1 as [|[|[|i1]]], i2 as [|[|[|i2]]]; cbn; try done; congruence.
  - intros u v p. destruct u as [|[|u]]; cbn; rewrite ?elem_of_cons, elem_of_nil.
    + intros [[= -> ->]|[[= -> ->]|[[= -> ->]|[]]]]; [exists 0|exists 0|exists 2]; cbn; rewrite !elem_of_cons; auto.
    + intros [[= -> ->]|[]]. exists 0. cbn. rewrite !elem_of_cons. auto.
    + done.
  - intros u v p. rewrite Ev. destruct u as [|[|u]]; cbn; rewrite ?elem_of_cons, elem_of_nil.
    + intros [[= -> ->]|[[= -> ->]|[[= -> ->]|[]]]]; cbn; lia.
    + intros [[= -> ->]|[]]. cbn. lia.
    + done.
  - apply (cycles toy_owner 2 _ (loop_half ++ loop_half)).
    + split.
      * intros t c H. assert (H' : (t, c) ∈ loop_half) by (apply elem_of_app in H; tauto). clear H. unfold loop_half in H'. rewrite !elem_of_app in H'.
        assert (G : forall t' k, (t, c) ∈ repeat (t', @Run colouring) k -> c ∈ acts colouring).
        { intros t' k Hin. apply elem_of_list_In, repeat_spec in Hin. injection Hin as -> ->. apply elem_of_list_here. }
        destruct H' as [H|[H|[H|[H|H]]]]; try by eapply G.
        rewrite !elem_of_cons, elem_of_nil in H. destruct H as [[= -> ->]|[[= -> ->]|[]]]; apply elem_of_list_further, elem_of_list_here.
      * intros t c Ht Hc. apply elem_of_app. left. unfold acts in Hc. rewrite !elem_of_cons, elem_of_nil in Hc. unfold loop_half.
        destruct t as [|[|t]]; [| |lia]; destruct Hc as [->|[->|[]]]; apply elem_of_list_lookup; [by exists 2|by exists 0|by exists 8|by exists 1].
    + intros Hi. destruct (Hi 0) as [_ H]. vm_compute in H. done.
    + split; intros v; destruct v as [|[|v]]; try match goal with |- todo _ _ = _ => apply both_nil end; vm_compute; reflexivity.
Qed.

(** With wait counts: from every state of a static undirected multigraph (self-loops included). *)
Definition wait_graph (top : nat) (b : nat -> nat) (es : nat -> list (nat * nat)) : Prop :=
  slots_unique es /\ balanced es /\ (forall u v p, (v, p) ∈ es u -> p < b v) /\ (forall v, (N.of_nat (b v) < 2 ^ 31 - 1)%N) /\
  (forall u, top <= u -> es u = [] /\ b u = 0).
Lemma wait_finite owner n b es sched top : (forall v, owner v < n) -> wait_graph top b es -> (forall t c, (t, c) ∈ sched -> static_choice c) ->
  let s := wait_run owner b es sched in finite waiting owner s /\ settles (erun waiting owner) (acts waiting) n idle s.
Proof.
  intros Hown (HU & HB & HP & HZ & Hlow) Hst s.
  assert (Hb : forall (f : nat -> nat), (forall u, top <= u -> f u = 0) -> exists M, forall u, f u <= M).
  { intros f Hf. assert (G : forall m, exists M, forall u, u < m -> f u <= M).
    { induction m as [|m (M & HM)]; [by exists 0; lia|]. exists (M + f m). intros u Hu. destruct (decide (u = m)) as [->|]; [lia|]. pose proof (HM u ltac:(lia)). lia. }
    destruct (G top) as (M & HM). exists M. intros u. destruct (decide (u < top)) as [Hu|Hu]; [by apply HM|]. rewrite Hf; lia. }
  destruct (Hb (fun u => length (es u))) as (M & HM); [intros u Hu; by rewrite (proj1 (Hlow u Hu))|].
  destruct (Hb b) as (K & HK); [intros u Hu; by apply Hlow|].
  apply (wait_settles_M owner n Hown es b HU HB HP HZ top (fun u Hu => proj1 (Hlow u Hu)) M K HM HK). by apply Wait_Run.winv_run.
Qed.
Theorem C67_wait_rest owner n b es sched top : (forall v, owner v < n) -> wait_graph top b es -> (forall t c, (t, c) ∈ sched -> static_choice c) ->
  settles (erun waiting owner) (acts waiting) n idle (wait_run owner b es sched).
Proof. intros Hown HG Hst. by destruct (wait_finite owner n b es sched top Hown HG Hst). Qed.
Lemma wait_run_app owner b es sched l : wait_run owner b es (sched ++ l) = erun waiting owner (wait_run owner b es sched) l.
Proof. unfold wait_run, erun. by rewrite fold_left_app. Qed.

(** With C39 and C61: the program ends with the greedy colouring. *)
Theorem C67_wait_ends owner n b es before own sent0 sched swap top : (forall v, owner v < n) -> wait_graph top b es ->
  (forall t c, (t, c) ∈ before -> static_choice c) -> (forall t c, (t, Do c) ∈ sched -> static_choice c) ->
  let e := wait_run owner b es before in fresh n e sent0 ->
  let s0 := wstart waiting e own sent0 in let s := wrun waiting owner swap n s0 sched in closed waiting n s ->
  (forall v, es v <> [] -> (forall u p, (v, p) ∈ es u -> prio u v = false) -> Told v ∈ elog (eng s)) ->
  exists bound, forall rounds, Forall (fair_round waiting n) rounds -> bound <= length rounds ->
    swap = true \/ Term_Proofs.tidy swap n (trm s0) (lworks waiting owner swap n s0 (sched ++ concat rounds)) ->
    let s' := wrun waiting owner swap n s (concat rounds) in
    (forall t, t < n -> left s' t) /\ complete n s' = true /\
    greedy prio es (fun v => fst (prop (eng s') v)) (fun v => es v <> []).
Proof.
  intros Hown HG Hb1 Hb2 e Hf s0 s HC Ht.
  set (work := before ++ eworks waiting owner swap n s0 sched).
  assert (Ew : eng s = wait_run owner b es work) by (unfold s, s0, work, e; rewrite eng_all, wait_run_app; done).
  assert (Hw : forall t c, (t, c) ∈ work -> static_choice c).
  { intros t c Hin. apply elem_of_app in Hin as [Hin|Hin]; [by apply (Hb1 t)|]. apply eworks_in in Hin. by apply (Hb2 t). }
  destruct (wait_finite owner n b es work top Hown HG Hw) as [HF _]. cbv zeta in HF. rewrite <- Ew in HF.
  destruct (C61_ends waiting owner swap n Hown e own sent0 sched Hf HC HF) as (bound & Hb). exists bound. intros rounds Hr Hl Htd s'.
  destruct (Hb rounds Hr Hl Htd) as (H1 & H2 & H3 & l & El & Hl'). fold s0 in El, H1, H2, H3. fold s in El, H1, H2, H3. fold s' in El, H1, H2, H3.
  split_and!; try done. destruct HG as (HU & HB & HP & HZ & _).
  pose proof (C39_greedy owner n b es (work ++ l) Hown HU HB HP HZ) as HCC. cbv zeta in HCC. rewrite wait_run_app, <- Ew, <- El in HCC.
  apply HCC; try done.
  - intros t c Hin. apply elem_of_app in Hin as [Hin|Hin]; [by apply (Hw t)|]. apply (acts_static c). by apply (Hl' t).
  - intros v Hv H. rewrite El. apply log_grows. by apply Ht.
Qed.

(** The same two vertices under the same schedule without the self-loop: after two of the half rounds all is quiet, and proper. *)
Definition pair_es (v : nat) : list (nat * nat) := match v with 0 => [(1, 0)] | 1 => [(0, 0)] | _ => [] end.
Definition pair_b (v : nat) : nat := match v with 0 | 1 => 1 | _ => 0 end.
Example C67_case :
  let s := col_run toy_owner pair_b pair_es loop_start in
  col_graph 2 1 pair_b pair_b (ever pair_es loop_start) /\
  map (fun v => fst (prop s v)) [0; 1] = [0; 1]%N /\ map (queue s) [0; 1] = [[]; []] /\ map (fun t => length (todo s t)) [0; 1] = [0; 0] /\
  wait_graph 4 wait_b wait_es.
Proof.
  assert (Ev : forall u, ever pair_es loop_start u = pair_es u). { intros u. unfold ever. replace (added loop_start u) with (@nil (nat * nat)) by (vm_compute; done). by rewrite app_nil_r. }
  split; [|split; [vm_compute; done|split; [vm_compute; done|split; [vm_compute; done|]]]].
  - split_and!.
    + done.
    + intros u1 u2 i1 i2 x. rewrite !Ev. destruct u1 as [|[|u1]], u2 as [|[|u2]]; cbn; destruct i1, i2; cbn; try done; congruence.
    + intros u v p. rewrite Ev. destruct u as [|[|u]]; cbn; rewrite ?elem_of_cons, elem_of_nil; [intros [[= -> ->]|[]]; cbn; lia..|done].
    + intros [|[|v]]; cbn; lia.
    + intros u v p. rewrite Ev. destruct u as [|[|u]]; cbn; rewrite ?elem_of_cons, elem_of_nil; [intros [[= -> ->]|[]]; lia..|done].
    + intros u Hu. rewrite Ev. destruct u as [|[|u]]; [lia..|done].
  - split_and!.
    + intros u1 u2 i1 i2 x. destruct u1 as [|[|[|[|u1]]]], u2 as [|[|[|[|u2]]]]; cbn; destruct i1 as [|[|[|i1]]], i2 as [|[|[|i2]]]; cbn; try done; congruence.
    + intros u v. unfold mult. destruct u as [|[|[|[|u]]]], v as [|[|[|[|v]]]]; cbn; try done.
    + intros u v p. destruct u as [|[|[|[|u]]]]; cbn; rewrite ?elem_of_cons, elem_of_nil; try done; intros H; repeat (destruct H as [[= -> ->]|H]; [cbn; lia|]); done.
    + intros [|[|[|[|v]]]]; done.
    + intros u Hu. destruct u as [|[|[|[|u]]]]; [lia..|done].
Qed.

Print Assumptions C67_rest.
Print Assumptions C67_proper.
Print Assumptions C67_ends.
Print Assumptions C67_self_loop_refuted.
Print Assumptions C67_wait_rest.
Print Assumptions C67_wait_ends.
