(** Colouring by messages with -w: every vertex is coloured once, greedily. *)
From Verif Require Import Base Bitmap_Spec Bitmap_Model Bitmap_Proofs Vertex_Model Active_Spec Active_Model Active_Proofs.
From Verif Require Import Colour_Spec MCol_Spec MCol_Model MCol_Graph MCol_Proofs.
Open Scope nat_scope.

Lemma store_cell wt x p i : npos x = Some i -> mscr (mstore wt x p) !! i = Some (ncol x) \/ mscr (mstore wt x p) !! i = None.
Proof.
  intros E. unfold mstore. rewrite E. destruct (mscr p !! i) as [prev|] eqn:Ep; [left|by right]. cbn [mscr].
  by rewrite list_lookup_insert by (by eapply lookup_lt_Some).
Qed.

Section handle.
Context (wt : bool) (lines : list (nat * nat)) (owner : nat -> nat) (n : nat).
Context (Hown : forall v, owner v < n).
Context (Hdeg : forall v, (N.of_nat (length (mentions lines v)) < MAGIC)%N).
Notation g := (load lines).
Notation es v := (t_out (load lines) v).
Notation mst := (ast (mcolouring wt)).
Notation minv := (minv wt lines owner n).
Notation flight := (flight wt owner).

(** What handling a note does. *)
Record handled_to (s s' : mst) (v : nat) (x : mnote) (k : nat) (p : mprop) (ms : list (nat * mnote)) : Prop := HandledTo {
  h_note : ok_note lines v x;
  h_good : good wt lines v (mstore wt x (aprop s v));
  h_prop : forall w, aprop s' w = if decide (w = v) then p else aprop s w;
  h_goodp : good wt lines v p;
  h_scr : mscr p = mscr (mstore wt x (aprop s v));
  h_case : let q := mstore wt x (aprop s v) in
    (p = q /\ ms = []) \/
    (mcol q = EMPTY /\ (wt = true -> (mwait q <= 0)%Z) /\ mcol p <> EMPTY /\ smallest_unused (seen (mscr q)) (mcol p) /\ ms = map (send_to v (mcol p)) (es v));
  h_fl : forall d j u i, es d !! j = Some (u, i) -> exists R,
    flight s d j u = (if decide (v = d /\ npos x = Some j) then [ncol x] else []) ++ R /\
    flight s' d j u = R ++ (if decide (u = v /\ ms <> []) then [mcol p] else []) }.
Lemma handle_to (s : mst) t v (x : mnote) k : minv s -> atodo s t = [@Handle (mcolouring wt) v x k] ->
  exists p ms, handled_to s (astep (mcolouring wt) owner s t ARun) v x k p ms /\ (0 < k -> ms = []).
Proof using All.
  intros HI Et. assert (Ho : owner v = t).
  { apply (i_mine _ _ _ _ (m_base _ _ _ _ _ HI) t (@Handle (mcolouring wt) v x k)). rewrite Et. by left. }
  assert (Hx : ok_note lines v x) by (apply (m_inh _ _ _ _ _ HI t); rewrite Et; by left).
  destruct (store_good wt lines owner n Hown Hdeg v x (aprop s v) (m_good _ _ _ _ _ HI v) Hx) as (HG & Hpan & Hst).
  unfold astep. rewrite Et. cbn [aexec].
  change (areact (mcolouring wt) v (KNote x) k (aprop s v) (aedges s v)) with (mreact wt v (KNote x) k (aprop s v) (aedges s v)).
  unfold mreact. rewrite Hpan. rewrite (m_edges _ _ _ _ _ HI v). set (q := mstore wt x (aprop s v)) in *.
  destruct (mupdate wt k q (base_edges v g)) as [p ms] eqn:Eu.
  pose proof (update_good wt lines owner n Hown Hdeg v k q p ms HG Eu) as (HG' & Hscr & Hw & Hcase).
  exists p, ms. split.
  - constructor; try done.
    + intros w. cbn. destruct (decide (w = v)) as [->|]; by us.
    + cbn. fold q. tauto.
    + apply (handle_flight wt lines owner n Hown Hdeg s _ t v x k p ms); try done; [by cbn [atodo]; rewrite app_nil_r|tauto].
  - intros Hk. destruct Hcase as [(_ & ? & _)|(_ & ? & _)]; [done|lia].
Qed.
End handle.

Section wait.
Context (lines : list (nat * nat)) (owner : nat -> nat) (n : nat).
Context (Hown : forall v, owner v < n).
Context (Hdeg : forall v, (N.of_nat (length (mentions lines v)) < MAGIC)%N).
Context (Hloop : no_loops lines).
Notation es v := (t_out (load lines) v).
Notation mst := (ast (mcolouring true)).
Notation minv := (minv true lines owner n).
Notation flight := (flight true owner).
Notation colr s v := (mcol (aprop s v)).

Definition cell0 (u v : nat) : N := if prio u v then MAGIC else EMPTY.
Definition first_of (s : mst) (v : nat) (c : N) : Prop := exists i u j, es v !! i = Some (u, j) /\ prio u v = true /\ c = colr s u.
Record winv (s : mst) : Prop := Winv {
  w_inv : minv s;
  w_cell : forall v i u j, es v !! i = Some (u, j) ->
    (colr s u = EMPTY /\ flight s v i u = [] /\ mscr (aprop s v) !! i = Some (cell0 u v)) \/
    (colr s u <> EMPTY /\ flight s v i u = [colr s u] /\ mscr (aprop s v) !! i = Some (cell0 u v)) \/
    (colr s u <> EMPTY /\ flight s v i u = [] /\ mscr (aprop s v) !! i = Some (colr s u));
  w_none : forall v i u j, colr s v <> EMPTY -> es v !! i = Some (u, j) -> mscr (aprop s v) !! i <> Some MAGIC;
  w_pick : forall v, colr s v <> EMPTY -> smallest_unused (first_of s v) (colr s v) }.

Lemma no_self v i u j : es v !! i = Some (u, j) -> u <> v.
Proof using All.
  intros E ->. assert (joined lines v v) as [H|H]; [|by apply (Hloop v)|by apply (Hloop v)]. apply (joined_es true lines owner n Hown Hdeg). by exists i, j.
Qed.
Lemma magics_zero l : magics l = 0 -> forall i, l !! i <> Some MAGIC.
Proof using.
  unfold magics. induction l as [|c l IH]; intros H i; [done|]. cbn in H. destruct (N.eqb_spec c MAGIC); [done|].
  destruct i as [|i]; cbn; [congruence|]. by apply IH.
Qed.
Lemma real_colour (s : mst) u : minv s -> colr s u <> EMPTY -> (colr s u < MAGIC)%N.
Proof using All.
  intros HI Hu. destruct (g_col _ _ _ _ (m_good _ _ _ _ _ HI u)) as [?|H]; [done|].
  rewrite (es_len lines) in H. pose proof (Hdeg u). lia.
Qed.

(** A neighbour before a coloured vertex is coloured. *)
Lemma before_coloured s v i u j : winv s -> es v !! i = Some (u, j) -> prio u v = true -> colr s v <> EMPTY -> colr s u <> EMPTY /\ flight s v i u = [] /\ mscr (aprop s v) !! i = Some (colr s u).
Proof using All.
  intros HI E Hp Hv. pose proof (w_none _ HI _ _ _ _ Hv E) as Hn. destruct (w_cell _ HI _ _ _ _ E) as [(H1 & H2 & H3)|[(H1 & H2 & H3)|H]]; [| |done].
  - unfold cell0 in H3. by rewrite Hp in H3.
  - unfold cell0 in H3. by rewrite Hp in H3.
Qed.

Lemma winv_step s t c : winv s -> ok_choice true n t c -> winv (astep (mcolouring true) owner s t c) /\
  forall v, colr s v <> EMPTY -> colr (astep (mcolouring true) owner s t c) v = colr s v.
Proof using All.
  intros HI Hok. pose proof (minv_step true lines owner n Hown Hdeg s t c (w_inv _ HI) Hok) as HM.
  destruct (step_flight true lines owner n Hown Hdeg s t c (w_inv _ HI) Hok) as [[Hp Hf]|(v & x & k & Et & ->)].
  { split; [|intros v _; by rewrite Hp]. constructor; [done| | |].
    - intros v i u j E. rewrite (Hf _ _ _ _ E), !Hp. by eapply w_cell.
    - intros v i u j. rewrite Hp. by apply w_none.
    - intros v Hv. rewrite Hp in *. destruct (w_pick _ HI v Hv) as [P1 P2]. split.
      + intros (i & u & j & E & Hpr & Hc). apply P1. exists i, u, j. by rewrite Hp in Hc.
      + intros d Hd. destruct (P2 d Hd) as (i & u & j & E & Hpr & Hc). exists i, u, j. by rewrite Hp. }
  destruct (handle_to true lines owner n Hown Hdeg s t v x k (w_inv _ HI) Et) as (p & ms & Hh & _).
  set (s' := astep (mcolouring true) owner s t ARun) in *. destruct Hh as [Hx HG Hp HG' Hscr Hcase Hfl].
  set (q := mstore true x (aprop s v)) in *. cbn zeta in Hcase.
  (* no colour is taken back *)
  assert (Hq : mcol q = colr s v).
  { unfold q, mstore. destruct (npos x) as [j|] eqn:Ej; [|done]. destruct (mscr (aprop s v) !! j) as [prev|] eqn:Epr; [|done]. cbn [mcol].
    destruct (nprio x) eqn:Enp; [|done]. destruct (N.eqb_spec (ncol x) (colr s v)) as [Ec|]; [|done]. cbn.
    destruct (decide (colr s v = EMPTY)) as [|Hne]; [done|]. exfalso.
    unfold ok_note in Hx. rewrite Ej in Hx. destruct Hx as (u & i & E & Hnp & _).
    destruct (Hfl v j u i E) as (R & F1 & _). rewrite decide_True in F1 by done.
    rewrite Hnp in Enp. pose proof (no_self _ _ _ _ E) as Huv. rewrite <- prio_cases in Enp by done.
    destruct (before_coloured s v j u i HI E Enp Hne) as (_ & F & _). by rewrite F in F1. }
  assert (Hkeep : forall w, colr s w <> EMPTY -> colr s' w = colr s w).
  { intros w Hw. rewrite Hp. destruct (decide (w = v)) as [->|]; [|done]. destruct Hcase as [[-> _]|(Hc & _)]; [done|congruence]. }
  assert (Hcell : forall w i, npos x <> Some i \/ w <> v -> mscr (aprop s' w) !! i = mscr (aprop s w) !! i).
  { intros w i Hor. rewrite Hp. destruct (decide (w = v)) as [->|]; [|done]. rewrite Hscr. unfold q, mstore. destruct (npos x) as [j|] eqn:Ej; [|done].
    destruct (mscr (aprop s v) !! j); [|done]. cbn [mscr]. rewrite list_lookup_insert_ne; [done|]. intros ->. by destruct Hor. }
  assert (Hc' : forall d j u i, es d !! j = Some (u, i) ->
    (colr s' u = EMPTY /\ flight s' d j u = [] /\ mscr (aprop s' d) !! j = Some (cell0 u d)) \/
    (colr s' u <> EMPTY /\ flight s' d j u = [colr s' u] /\ mscr (aprop s' d) !! j = Some (cell0 u d)) \/
    (colr s' u <> EMPTY /\ flight s' d j u = [] /\ mscr (aprop s' d) !! j = Some (colr s' u))).
  { intros d j u i E. destruct (Hfl d j u i E) as (R & F1 & F2). pose proof (no_self _ _ _ _ E) as Hud.
    pose proof (w_cell _ HI d j u i E) as W. destruct (decide (u = v)) as [->|Huv].
    - rewrite decide_False in F1 by (intros [-> _]; done). cbn [app] in F1. rewrite Hcell by (right; done).
      assert (Hcv : colr s' v = mcol p) by (rewrite Hp; by rewrite decide_True).
      destruct Hcase as [[-> ->]|(Hce & _ & Hne & _ & Ems)].
      + rewrite decide_False in F2 by (intros [_ ?]; done). rewrite app_nil_r in F2. rewrite Hcv, Hq, F2. rewrite F1 in W. exact W.
      + assert (Hms : ms <> []). { rewrite Ems. intros Hnil. apply map_eq_nil in Hnil. apply (pair_of lines) in E. by rewrite Hnil in E. }
        rewrite decide_True in F2 by done. rewrite Hq in Hce. destruct W as [(_ & W1 & W2)|[(W1 & _)|(W1 & _)]]; [|done|done].
        rewrite F1 in W1. subst R. cbn in F2. right. left. by rewrite Hcv, F2.
    - rewrite decide_False in F2 by (intros [? _]; done). rewrite app_nil_r in F2.
      assert (Hcu : colr s' u = colr s u) by (rewrite Hp; by rewrite decide_False). rewrite Hcu, F2.
      destruct (decide (v = d /\ npos x = Some j)) as [[-> Ej]|Hno].
      + cbn [app] in F1. destruct W as [(_ & W1 & _)|[(W0 & W1 & W2)|(_ & W1 & _)]]; [by rewrite W1 in F1| |by rewrite W1 in F1].
        rewrite F1 in W1. injection W1 as W1 ->. right. right. split_and!; [done|done|]. rewrite Hp, decide_True by done. rewrite Hscr. unfold q, mstore.
        rewrite Ej, W2. cbn [mscr]. rewrite list_lookup_insert by (by eapply lookup_lt_Some). by rewrite W1.
      + cbn [app] in F1. rewrite Hcell; [by rewrite F1 in W|]. destruct (decide (d = v)) as [->|]; [|by right]. left. intros ?. by apply Hno. }
  assert (Hnone : forall w i u j, colr s' w <> EMPTY -> es w !! i = Some (u, j) -> mscr (aprop s' w) !! i <> Some MAGIC).
  { intros w i u j Hw E. destruct (decide (colr s w = EMPTY)) as [He|He].
    - destruct (decide (w = v)) as [->|Hwv]; [|rewrite Hp, decide_False in Hw by done; done].
      rewrite Hp, decide_True in Hw by done. rewrite Hp, decide_True by done.
      destruct Hcase as [[-> _]|(_ & Hwt & _)]; [congruence|]. specialize (Hwt eq_refl). rewrite (g_wait _ _ _ _ HG) in Hwt.
      rewrite Hscr. apply magics_zero. lia.
    - destruct (decide (npos x = Some i /\ w = v)) as [[Ei ->]|Hno].
      + unfold ok_note in Hx. rewrite Ei in Hx. destruct Hx as (u' & i' & E' & _ & Hlt). rewrite Hp, decide_True by done. rewrite Hscr.
        destruct (store_cell true x (aprop s v) i Ei) as [H|H]; unfold q; rewrite H; [|done]. intros Heq. injection Heq as Heq. rewrite Heq in Hlt. by apply N.lt_irrefl in Hlt.
      + rewrite Hcell; [by eapply w_none|]. destruct (decide (w = v)) as [->|]; [|by right]. left. intros ?. by apply Hno. }
  split; [|exact Hkeep]. constructor; [done|exact Hc'|exact Hnone|]. intros w Hw.
  destruct (decide (colr s w = EMPTY)) as [He|He].
  - destruct (decide (w = v)) as [->|Hwv]; [|rewrite Hp, decide_False in Hw by done; done].
    assert (Hcv : colr s' v = mcol p) by (rewrite Hp; by rewrite decide_True).
    assert (Hsc : mscr (aprop s' v) = mscr q) by (rewrite Hp, decide_True by done; done).
    destruct Hcase as [[-> _]|(_ & _ & Hne & [P1 P2] & _)]; [congruence|]. rewrite Hcv. split.
    + intros (i & u & j & E & Hpr & Hc). apply P1.
      destruct (Hc' v i u j E) as [(H1 & _ & H3)|[(H1 & _ & H3)|(H1 & _ & H3)]].
      * exfalso. apply (Hnone v i u j Hw E). rewrite H3. unfold cell0. by rewrite Hpr.
      * exfalso. apply (Hnone v i u j Hw E). rewrite H3. unfold cell0. by rewrite Hpr.
      * rewrite Hsc in H3. rewrite Hc. split; [by eapply elem_of_list_lookup_2|]. rewrite <- Hc, <- Hcv.
        destruct (g_col _ _ _ _ HG') as [?|Hle]; [congruence|]. rewrite <- (g_len _ _ _ _ HG') in Hle. rewrite Hcv, <- Hscr. exact Hle.
    + intros d Hd. destruct (P2 d Hd) as [Hin Hle]. apply elem_of_list_lookup in Hin as [i Hi].
      rewrite (g_len _ _ _ _ HG) in Hle. pose proof (Hdeg v) as Hdv. rewrite <- (es_len lines) in Hdv. pose proof empty_big as Hbig.
      destruct (es v !! i) as [[u j]|] eqn:E; [|apply lookup_ge_None in E; apply lookup_lt_Some in Hi; rewrite (g_len _ _ _ _ HG) in Hi; lia].
      rewrite <- Hsc in Hi. exists i, u, j. split; [done|]. unfold cell0 in Hc'.
      destruct (Hc' v i u j E) as [(H1 & _ & H3)|[(H1 & _ & H3)|(H1 & _ & H3)]].
      * exfalso. rewrite Hi in H3. injection H3 as ->. destruct (prio u v); lia.
      * exfalso. rewrite Hi in H3. injection H3 as ->. destruct (prio u v); lia.
      * split; [|congruence]. pose proof (no_self _ _ _ _ E) as Huv. rewrite prio_cases by done. destruct (prio v u) eqn:Hvu; [exfalso|done].
        assert (Hu : colr s u <> EMPTY) by (rewrite Hp, decide_False in H1 by done; done).
        apply (pair_of lines) in E. by destruct (before_coloured s u j v i HI E Hvu Hu).
  - rewrite (Hkeep w He). destruct (w_pick _ HI w He) as [P1 P2]. split.
    + intros (i & u & j & E & Hpr & Hc). apply P1. exists i, u, j. split_and!; [done|done|].
      destruct (before_coloured s w i u j HI E Hpr He) as (Hu & _). by rewrite <- (Hkeep u Hu).
    + intros d Hd. destruct (P2 d Hd) as (i & u & j & E & Hpr & Hc). exists i, u, j. split_and!; [done|done|].
      destruct (before_coloured s w i u j HI E Hpr He) as (Hu & _). by rewrite (Hkeep u Hu).
Qed.

Lemma winv_start : winv (mstart true lines).
Proof using All.
  constructor; [by apply minv_start| |done|done]. intros v i u j E. left. cbn. split_and!; [done|done|].
  rewrite !list_lookup_fmap, lookup_take by (rewrite (k_len _ _ (load_ok lines) v); by eapply lookup_lt_Some). by rewrite E.
Qed.
Lemma winv_run sched : forall s, winv s -> ok_sched true n sched -> winv (arun (mcolouring true) owner s sched) /\
  forall v, colr s v <> EMPTY -> colr (arun (mcolouring true) owner s sched) v = colr s v.
Proof using All.
  induction sched as [|[t c] l IH]; intros s HI Hs; [done|]. cbn.
  destruct (winv_step s t c HI ltac:(apply Hs; by left)) as [H1 H2].
  destruct (IH _ H1 ltac:(intros ? ? H; apply Hs; by right)) as [H3 H4]. split; [done|]. intros v Hv. rewrite <- (H2 v Hv). apply H4. by rewrite (H2 v Hv).
Qed.
End wait.
