(** Invariants of colouring by messages. *)
From Verif Require Import Base Bitmap_Spec Bitmap_Model Bitmap_Proofs Vertex_Model Active_Spec Active_Model Active_Proofs.
From Verif Require Wait_Props.
From Verif Require Import Colour_Spec MCol_Spec MCol_Model MCol_Graph.
Open Scope nat_scope.

(** The colours that notes in [l] bring for cell [i] of [v]. *)
Definition fl (v i : nat) (l : list (nat * mnote)) : list N :=
  flat_map (fun '(d, x) => if decide (d = v /\ npos x = Some i) then [ncol x] else []) l.
Lemma fl_app v i l l' : fl v i (l ++ l') = fl v i l ++ fl v i l'. Proof. apply flat_map_app. Qed.
Lemma fl_cons v i d x l : fl v i ((d, x) :: l) = (if decide (d = v /\ npos x = Some i) then [ncol x] else []) ++ fl v i l.
Proof. done. Qed.
Lemma fl_none v i l : (forall x, (v, x) ∈ l -> npos x <> Some i) -> fl v i l = [].
Proof.
  induction l as [|[d x] l IH]; intros H; [done|]. rewrite fl_cons, IH.
  - destruct (decide _) as [[-> E]|]; [|done]. exfalso. apply (H x); [by left|done].
  - intros y Hy. apply H. by right.
Qed.
Lemma fl_sends v c d j (l : list (nat * nat)) : (forall i i', l !! i = Some (d, j) -> l !! i' = Some (d, j) -> i = i') ->
  fl d j (map (send_to v c) l) = if decide ((d, j) ∈ l) then [c] else [].
Proof.
  intros H. assert (Hnone : forall l', (d, j) ∉ l' -> fl d j (map (send_to v c) l') = []).
  { intros l' Hn. apply fl_none. intros x Hx. apply elem_of_list_fmap in Hx as ([d' j'] & [= -> ->] & Hin). cbn in *. intros [= ->]. done. }
  destruct (decide _) as [Hin|Hn]; [|by apply Hnone]. induction l as [|[d' j'] l IH]; [by apply elem_of_nil in Hin|].
  cbn [map]. change (send_to v c (d', j')) with (d', MN (Some j') c (negb (prio d' v))). rewrite fl_cons. cbn [npos ncol].
  destruct (decide (d' = d /\ Some j' = Some j)) as [[-> [= ->]]|Hne].
  - rewrite Hnone; [done|]. intros [k Hk]%elem_of_list_lookup. specialize (H 0 (S k) eq_refl Hk). done.
  - apply IH.
    + intros i i' Hi Hi'. assert (S i = S i') by (by apply H). lia.
    + apply elem_of_cons in Hin as [[= -> ->]|?]; [|done]. by destruct Hne.
Qed.

Section proofs.
Context (wt : bool) (lines : list (nat * nat)) (owner : nat -> nat) (n : nat).
Context (Hown : forall v, owner v < n).
Context (Hdeg : forall v, (N.of_nat (length (mentions lines v)) < MAGIC)%N).
Notation g := (load lines).
Notation es v := (t_out (load lines) v).
Notation mst := (ast (mcolouring wt)).
Notation mop := (aop (mcolouring wt)).

Definition hdl (l : list mop) : list (nat * mnote) := flat_map (fun o : mop => match o with ADec v x | Handle v x _ => [(v, x)] | _ => [] end) l.
Definition snl (l : list mop) : list (nat * mnote) := flat_map (fun o : mop => match o with Inc v x | APut v x => [(v, x)] | _ => [] end) l.
Lemma hdl_sends ms : hdl (sends (mcolouring wt) ms) = [].
Proof. induction ms as [|[d x] ms IH]; [done|]. exact IH. Qed.
Lemma snl_sends ms : snl (sends (mcolouring wt) ms) = ms.
Proof. induction ms as [|[d x] ms IH]; [done|]. cbn. f_equal. exact IH. Qed.
Definition plain (o : mop) : Prop := match o with Inc _ _ | APut _ _ => True | _ => False end.
Lemma hdl_plain l : Forall plain l -> hdl l = [].
Proof. induction 1 as [|o l Ho Hl IH]; [done|]. cbn. by destruct o. Qed.

(** On the way to cell [i] of [v], from [u], oldest first. *)
Definition flight (s : mst) (v i u : nat) : list N :=
  fl v i (hdl (atodo s (owner v)) ++ aqueue s (owner v) ++ snl (atodo s (owner u))).

Definition ok_note (d : nat) (x : mnote) : Prop :=
  match npos x with None => True | Some j => exists u i, es d !! j = Some (u, i) /\ nprio x = negb (prio d u) /\ (ncol x < MAGIC)%N end.
Definition from (t d : nat) (x : mnote) : Prop :=
  forall j u i, npos x = Some j -> es d !! j = Some (u, i) -> owner u = t.
Definition shape (l : list mop) : Prop :=
  (exists v x, l = [ADec v x]) \/ (exists v x k, l = [Handle v x k]) \/ Forall plain l.
Definition magics (l : list N) : nat := count (fun c => (c =? MAGIC)%N) l.
Record good (v : nat) (p : mprop) : Prop := Good {
  g_len : length (mscr p) = length (es v);
  g_bm : exists S, bm_inv (mbm p) S;
  g_panic : mpanic p = false;
  g_col : mcol p = EMPTY \/ (mcol p <= N.of_nat (length (es v)))%N;
  g_magic : forall i u j, mscr p !! i = Some MAGIC -> es v !! i = Some (u, j) -> prio u v = true;
  g_wait : mwait p = if wt then Z.of_nat (magics (mscr p)) else 0%Z;
  g_diff : forall i u j, es v !! i = Some (u, j) -> prio v u = false -> mcol p <> EMPTY -> mscr p !! i <> Some (mcol p) }.

Record minv (s : mst) : Prop := Minv {
  m_base : ainv (mcolouring wt) owner n s;
  m_edges : forall v, aedges s v = base_edges v g;
  m_shape : forall t, shape (atodo s t);
  m_inq : forall t d x, (d, x) ∈ aqueue s t -> ok_note d x;
  m_inh : forall t d x, (d, x) ∈ hdl (atodo s t) -> ok_note d x;
  m_ins : forall t d x, (d, x) ∈ snl (atodo s t) -> ok_note d x /\ from t d x;
  m_good : forall v, good v (aprop s v);
  m_last : forall v i u j c, es v !! i = Some (u, j) -> mcol (aprop s u) <> EMPTY -> mscr (aprop s v) !! i = Some c ->
    List.last (flight s v i u) c = mcol (aprop s u);
  m_awake : forall v, Began_send v ∈ alog s -> mcol (aprop s v) <> EMPTY \/ 0 < aact s v \/
    (exists t x, atodo s t = [Handle v x 0]) \/ (wt = true /\ (0 < mwait (aprop s v))%Z) }.

Lemma gok : graph_ok lines g. Proof. apply load_ok. Qed.
Lemma es_len v : length (es v) = length (mentions lines v).
Proof. rewrite <- (k_men _ _ gok v). by rewrite map_length. Qed.
Lemma pair_of v i u j : es v !! i = Some (u, j) -> es u !! j = Some (v, i). Proof. apply (k_pair _ _ gok). Qed.
Lemma empty_big : (MAGIC < EMPTY)%N. Proof. done. Qed.

Lemma good_base v : good v (base wt v g).
Proof using All.
  pose proof (k_len _ _ gok v) as Hl. constructor; unfold base; cbn [mscr mbm mpanic mcol mwait].
  - rewrite !map_length, take_length. lia.
  - eexists. apply grow_inv; [|done]. apply bm_inv_empty.
  - done.
  - by left.
  - intros i u j Hi He. rewrite !list_lookup_fmap, lookup_take in Hi by (apply lookup_lt_Some in He; lia). rewrite He in Hi. cbn in Hi.
    by destruct (prio u v).
  - destruct wt; [|done]. f_equal. generalize (map (fun e : nat * nat => prio (fst e) v) (take (t_in g v) (es v))) as l.
    intros l. induction l as [|b l IH]; [done|]. cbn. destruct b; cbn; [f_equal|]; exact IH.
  - done.
Qed.

Lemma magics_insert l i prev c : l !! i = Some prev -> c <> MAGIC -> magics (<[i := c]> l) + (if (prev =? MAGIC)%N then 1 else 0) = magics l.
Proof.
  unfold magics. revert i. induction l as [|y l IH]; intros i Hi Hc; [done|]. destruct i as [|i]; cbn [lookup list_lookup insert list_insert count] in *.
  - injection Hi as ->. destruct (N.eqb_spec c MAGIC); [done|]. lia.
  - rewrite <- (IH i Hi Hc). apply eq_sym, Nat.add_assoc.
Qed.

Lemma store_good v x p : good v p -> ok_note v x -> good v (mstore wt x p) /\ mpanic (mstore wt x p) = false /\
  (mcol (mstore wt x p) = mcol p \/ mcol (mstore wt x p) = EMPTY).
Proof using All.
  intros HG Hx. unfold mstore, ok_note in *. destruct (npos x) as [i|]; [|split_and!; [done|apply HG|by left]].
  destruct Hx as (u & j & Hi & Hp & Hc). destruct HG as [H1 H2 H3 H4 H5 H6 H7].
  destruct (mscr p !! i) as [prev|] eqn:Ei; [|apply lookup_ge_None in Ei; apply lookup_lt_Some in Hi; lia].
  assert (Hcm : ncol x <> MAGIC) by lia. pose proof (magics_insert _ _ _ _ Ei Hcm) as Hm. pose proof empty_big.
  split; [|split; [done|cbn [mcol]; destruct (nprio x && (ncol x =? mcol p)%N); tauto]].
  constructor; cbn [mscr mbm mpanic mcol mwait].
  - by rewrite insert_length.
  - done.
  - done.
  - destruct (nprio x && (ncol x =? mcol p)%N); tauto.
  - intros i' u' j' [(-> & E & _)|[_ Hi']]%list_lookup_insert_Some; [congruence|]. by apply H5.
  - rewrite H6. destruct wt; cbn; [|by rewrite andb_false_r]. rewrite andb_true_r.
    destruct (N.eqb_spec prev MAGIC) as [->|]; [|rewrite andb_false_r; lia].
    pose proof (H5 _ _ _ Ei Hi) as Hpr. assert (nprio x = true) as ->; [|cbn; lia].
    rewrite Hp. destruct (decide (u = v)) as [->|Huv]; [by rewrite prio_irrefl|]. by rewrite <- prio_cases.
  - intros i' u' j' Hi' Hpr. destruct (decide (i' = i)) as [->|Hne].
    + rewrite list_lookup_insert by (by eapply lookup_lt_Some). assert (Some (u', j') = Some (u, j)) as [= -> ->] by congruence.
      rewrite Hp, Hpr. cbn. destruct (N.eqb_spec (ncol x) (mcol p)) as [E|E]; [done|]. congruence.
    + rewrite list_lookup_insert_ne by done. destruct (nprio x && (ncol x =? mcol p)%N); [done|]. by eapply H7.
Qed.

Lemma update_good v act p p' ms : good v p -> mupdate wt act p (base_edges v g) = (p', ms) ->
  good v p' /\ mscr p' = mscr p /\ mwait p' = mwait p /\
  ((p' = p /\ ms = [] /\ (mcol p <> EMPTY \/ 0 < act \/ (wt = true /\ (0 < mwait p)%Z))) \/
   (mcol p = EMPTY /\ act = 0 /\ (wt = true -> (mwait p <= 0)%Z) /\ mcol p' <> EMPTY /\ smallest_unused (seen (mscr p)) (mcol p') /\ ms = map (send_to v (mcol p')) (es v))).
Proof using All.
  intros HG. unfold mupdate. destruct ((0 <? act) || (wt && (0 <? mwait p)%Z)) eqn:E1.
  { intros [= <- <-]. split_and!; try done. left. split_and!; try done. right.
    apply orb_true_iff in E1 as [E1|E1]; [left; by apply Nat.ltb_lt in E1|right]. apply andb_true_iff in E1 as [E1 E2]. apply Z.ltb_lt in E2. done. }
  destruct (N.eqb_spec (mcol p) EMPTY) as [Ec|Ec]; [|intros [= <- <-]; split_and!; try done; left; by (split_and!; [| |left])].
  rewrite (base_sends lines) by apply gok. intros [= <- <-]. destruct HG as [H1 [S H2] H3 H4 H5 H6 H7].
  pose proof (es_len v) as Hl. pose proof (Hdeg v) as Hd. pose proof empty_big as Hbig.
  destruct (pick_ok p S H2 ltac:(rewrite H1; lia)) as (P1 & P2 & P3). rewrite H1 in P2.
  apply orb_false_iff in E1 as [E1 E2]. apply Nat.ltb_ge in E1.
  split; [|split_and!; try done; right; cbn [mcol]; split_and!; try done; [lia| |lia]].
  - constructor; cbn [mscr mbm mpanic mcol mwait]; try done; [by right|]. intros i u j Hi Hpr _ Hin.
    destruct P1 as [P1 _]. apply P1. split; [by eapply elem_of_list_lookup_2|]. rewrite H1. lia.
  - intros Hw. rewrite Hw in E2. cbn in E2. by apply Z.ltb_ge in E2.
Qed.

Definition ok_choice (t : nat) (c : achoice (mcolouring wt)) : Prop :=
  match c with ARun | APop => True | ANote v x => t < n /\ npos x = None | _ => False end.

(** A step that leaves the properties and the notes on the way as they are. *)
Lemma minv_quiet (s s' : mst) : minv s -> ainv (mcolouring wt) owner n s' ->
  (forall v, aedges s' v = aedges s v) -> (forall v, aprop s' v = aprop s v) ->
  (forall t, shape (atodo s' t)) ->
  (forall t d x, (d, x) ∈ aqueue s' t -> ok_note d x) ->
  (forall t d x, (d, x) ∈ hdl (atodo s' t) -> ok_note d x) ->
  (forall t d x, (d, x) ∈ snl (atodo s' t) -> ok_note d x /\ from t d x) ->
  (forall v i u j, es v !! i = Some (u, j) -> flight s' v i u = flight s v i u) ->
  (forall v, Began_send v ∈ alog s' -> 0 < aact s' v \/ (exists t x, atodo s' t = [Handle v x 0]) \/
     (Began_send v ∈ alog s /\ aact s' v = aact s v /\ forall t x, atodo s t = [Handle v x 0] -> atodo s' t = [Handle v x 0])) ->
  minv s'.
Proof using All.
  intros HI Ha He Hp H1 H2 H3 H4 H5 H6. constructor; try done.
  - intros v. rewrite He. apply HI.
  - intros v. rewrite Hp. apply HI.
  - intros v i u j c E Hc Hi. rewrite !Hp in *. rewrite (H5 _ _ _ _ E). by eapply m_last.
  - intros v Hv. rewrite !Hp. destruct (H6 v Hv) as [H|[H|(Hb & Ea & Hk)]]; [tauto|tauto|].
    rewrite Ea. destruct (m_awake _ HI v Hb) as [H|[H|[(t & x & H)|H]]]; [tauto|tauto| |tauto]. right. right. left. exists t, x. by apply Hk.
Qed.

Lemma handle_flight (s s' : mst) t v (x : mnote) k p (ms : list (nat * mnote)) : minv s -> atodo s t = [@Handle (mcolouring wt) v x k] -> owner v = t ->
  (forall w, aqueue s' w = aqueue s w) -> atodo s' = upd (atodo s) t (sends (mcolouring wt) ms) ->
  (ms = [] \/ ms = map (send_to v (mcol p)) (es v)) ->
  forall d j u i, es d !! j = Some (u, i) -> exists R,
    flight s d j u = (if decide (v = d /\ npos x = Some j) then [ncol x] else []) ++ R /\
    flight s' d j u = R ++ (if decide (u = v /\ ms <> []) then [mcol p] else []).
Proof using All.
  intros HI Et Ho Hq Htd Hms d j u i E. unfold flight. rewrite Htd, Hq, !fl_app.
  exists (fl d j (hdl (if decide (owner d = t) then [] else atodo s (owner d))) ++ fl d j (aqueue s (owner d)) ++
     fl d j (snl (if decide (owner u = t) then [] else atodo s (owner u)))). split.
  - assert (Hsn : fl d j (snl (atodo s (owner u))) = fl d j (snl (if decide (owner u = t) then [] else atodo s (owner u)))).
    { destruct (decide (owner u = t)) as [->|]; [|done]. by rewrite Et. }
    assert (Hh : fl d j (hdl (atodo s (owner d))) = (if decide (v = d /\ npos x = Some j) then [ncol x] else []) ++
      fl d j (hdl (if decide (owner d = t) then [] else atodo s (owner d)))).
    { destruct (decide (owner d = t)) as [->|Hd]; [rewrite Et; apply (fl_cons d j v x [])|].
      assert (Hvd : ~ (v = d /\ npos x = Some j)) by (intros [-> _]; congruence). by rewrite decide_False by done. }
    by rewrite Hsn, Hh, <- app_assoc.
  - assert (Hs : fl d j ms = if decide (u = v /\ ms <> []) then [mcol p] else []).
    { destruct Hms as [->| -> ]; [destruct (decide _) as [[_ ?]|]; done|]. rewrite fl_sends.
      - apply pair_of in E. destruct (decide ((d, j) ∈ es v)) as [Hin|Hin].
        + apply elem_of_list_lookup in Hin as [i' Hi']. pose proof (pair_of _ _ _ _ Hi') as Hi2. apply pair_of in E.
          assert (Some (u, i) = Some (v, i')) as [= -> ->] by congruence. destruct (decide _) as [|Hn]; [done|]. destruct Hn. split; [done|].
          intros Hnil. apply map_eq_nil in Hnil. by rewrite Hnil in Hi'.
        + destruct (decide _) as [[-> _]|]; [|done]. destruct Hin. by eapply elem_of_list_lookup_2.
      - intros i1 i2 E1 E2. apply pair_of in E1, E2. congruence. }
    rewrite <- !app_assoc. f_equal; [|f_equal].
    + destruct (decide (owner d = t)) as [->|Hd]; us; [by rewrite hdl_sends|done].
    + destruct (decide (owner u = t)) as [->|Hu]; us.
      * rewrite snl_sends. exact Hs.
      * destruct (decide (u = v /\ ms <> [])) as [[-> _]|]; [congruence|]. by rewrite app_nil_r.
Qed.

Lemma minv_handle (s : mst) t v (x : mnote) k : minv s -> ainv (mcolouring wt) owner n (aexec (mcolouring wt) owner s t (@Handle (mcolouring wt) v x k) []) ->
  atodo s t = [@Handle (mcolouring wt) v x k] -> minv (aexec (mcolouring wt) owner s t (@Handle (mcolouring wt) v x k) []).
Proof using All.
  intros HI Ha Et. assert (Ho : owner v = t).
  { apply (i_mine _ _ _ _ (m_base _ HI) t (@Handle (mcolouring wt) v x k)). rewrite Et. by left. }
  pose proof (i_keep _ _ _ _ (m_base _ HI) t v x k ltac:(rewrite Et; by left)) as Hk.
  assert (Hx : ok_note v x) by (apply (m_inh _ HI t); rewrite Et; by left).
  destruct (store_good v x (aprop s v) (m_good _ HI v) Hx) as (HG & Hpan & Hst). cbn [aexec] in *.
  change (areact (mcolouring wt) v (KNote x) k (aprop s v) (aedges s v)) with (mreact wt v (KNote x) k (aprop s v) (aedges s v)) in *.
  unfold mreact in *. rewrite Hpan in *. rewrite (m_edges _ HI v) in *. set (q := mstore wt x (aprop s v)) in *.
  destruct (mupdate wt k q (base_edges v g)) as [p ms] eqn:Eu. pose proof (update_good v k q p ms HG Eu) as (HG' & Hscr & Hw & Hcase).
  rewrite app_nil_r in *.
  set (s' := Ast _ _ _ _ _ _) in *.
  assert (Hms : ms = [] \/ ms = map (send_to v (mcol p)) (es v)) by tauto.
  assert (Hp : forall w, aprop s' w = if decide (w = v) then p else aprop s w).
  { intros w. unfold s'. cbn. destruct (decide (w = v)) as [->|]; by us. }
  constructor.
  - exact Ha.
  - apply HI.
  - intros t'. unfold s'. cbn [atodo]. destruct (decide (t' = t)) as [->|]; us; [|apply HI]. right. right. apply list.Forall_forall.
    intros o Hin. apply sends_plain in Hin. destruct Hin as (? & ? & ->). done.
  - apply HI.
  - intros t' d y. unfold s'. cbn [atodo]. destruct (decide (t' = t)) as [->|]; us; [|apply HI]. rewrite hdl_sends. by intros H%elem_of_nil.
  - intros t' d y. unfold s'. cbn [atodo]. destruct (decide (t' = t)) as [->|]; us; [|apply HI]. rewrite snl_sends. intros Hin.
    destruct Hcase as [(_ & -> & _)|(_ & _ & _ & Hne & Hsm & ->)]; [by apply elem_of_nil in Hin|]. apply elem_of_list_fmap in Hin as ([d' j] & [= -> ->] & Hin).
    apply elem_of_list_lookup in Hin as [i Hi]. apply pair_of in Hi. cbn [fst snd]. split.
    + unfold ok_note. cbn [npos]. exists v, i. split_and!; [done|done|]. cbn [ncol]. destruct (g_col _ _ HG') as [?|Hle]; [done|].
      pose proof (Hdeg v). rewrite es_len in Hle. lia.
    + intros j' u i'. cbn [npos]. intros [= ->] Hi'. congruence.
  - intros w. rewrite Hp. destruct (decide (w = v)) as [->|]; [done|apply HI].
  - intros d j u i c E. rewrite !Hp.
    destruct (handle_flight s s' t v x k p ms HI Et Ho ltac:(done) ltac:(done) Hms d j u i E) as (R & F1 & F2). rewrite F2, last_app.
    intros Hcu Hc. destruct (decide (u = v /\ ms <> [])) as [[-> Hne]|Hno]; [by destruct (decide (v = v))|]. cbn [List.last].
    assert (Hcu' : mcol (aprop s u) = mcol (if decide (u = v) then p else aprop s u)).
    { destruct (decide (u = v)) as [->|]; [|done]. destruct Hcase as [(-> & _ & _)|(_ & _ & _ & _ & _ & ->)].
      - destruct Hst as [?|?]; done.
      - destruct Hno. split; [done|]. intros Hnil. apply map_eq_nil in Hnil. apply pair_of in E. by rewrite Hnil in E. }
    eapply eq_trans; [|exact Hcu']. assert (Hcu2 : mcol (aprop s u) <> EMPTY) by (intros X; apply Hcu; exact (eq_trans (eq_sym Hcu') X)).
    assert (Hcell : exists c0, mscr (aprop s d) !! j = Some c0 /\ c = List.last (if decide (v = d /\ npos x = Some j) then [ncol x] else []) c0).
    { destruct (decide (d = v)) as [->|Hd].
      - rewrite Hscr in Hc. unfold q, mstore in Hc. destruct (npos x) as [j'|] eqn:Ej.
        + destruct (mscr (aprop s v) !! j') as [prev|] eqn:Epr; cbn [mscr] in Hc.
          * destruct (decide (j' = j)) as [->|Hj].
            -- rewrite list_lookup_insert in Hc by (by eapply lookup_lt_Some). injection Hc as <-. exists prev. split; [done|].
               by destruct (decide _) as [|[]].
            -- rewrite list_lookup_insert_ne in Hc by done. exists c. split; [done|]. destruct (decide _) as [[_ ?]|]; [congruence|done].
          * exists c. split; [done|]. unfold q, mstore in Hpan. rewrite Ej, Epr in Hpan. done.
        + exists c. split; [done|]. by destruct (decide _) as [[_ ?]|].
      - exists c. split; [done|]. destruct (decide _) as [[-> _]|]; [done|done]. }
    destruct Hcell as (c0 & Hc0 & ->). pose proof (m_last _ HI _ _ _ _ _ E Hcu2 Hc0) as HL. by rewrite F1, last_app in HL.
  - intros w Hb. change (Began_send w ∈ alog s) in Hb. rewrite Hp. change (aact s' w) with (aact s w). destruct (decide (w = v)) as [->|Hne].
    + destruct Hcase as [(-> & _ & Hc)|(_ & _ & _ & Hc & _)]; [|tauto]. destruct Hc as [?|[?|?]]; [tauto| |tauto]. right. left. lia.
    + destruct (m_awake _ HI w Hb) as [?|[?|[(t' & y & H)|?]]]; [tauto|tauto| |tauto]. right. right. left. exists t', y. unfold s'. cbn [atodo].
      destruct (decide (t' = t)) as [->|]; us; [|done]. rewrite Et in H. congruence.
Qed.

Lemma minv_start : minv (mstart wt lines).
Proof using All.
  constructor; cbn; try done.
  - apply ainv_start.
  - intros t. right. right. constructor.
  - intros t d x H. by apply elem_of_nil in H.
  - intros t d x H. by apply elem_of_nil in H.
  - intros t d x H. by apply elem_of_nil in H.
  - apply good_base.
  - intros v H. by apply elem_of_nil in H.
Qed.

Lemma snl_hdl_swap (s s' : mst) t l : atodo s' = upd (atodo s) t l -> aqueue s' = aqueue s ->
  hdl l = hdl (atodo s t) -> snl l = snl (atodo s t) -> forall v i u, flight s' v i u = flight s v i u.
Proof using All.
  intros E Eq E1 E2 v i u. unfold flight. rewrite E, Eq, !fl_app.
  assert (H1 : hdl (upd (atodo s) t l (owner v)) = hdl (atodo s (owner v))).
  { destruct (decide (owner v = t)) as [->|]; us; done. }
  assert (H2 : snl (upd (atodo s) t l (owner u)) = snl (atodo s (owner u))).
  { destruct (decide (owner u = t)) as [->|]; us; done. }
  by rewrite H1, H2.
Qed.

(** Only handling a note changes properties and the notes on the way. *)
Lemma step_flight (s : mst) t c : minv s -> ok_choice t c ->
  ((forall v, aprop (astep (mcolouring wt) owner s t c) v = aprop s v) /\
   (forall v i u j, es v !! i = Some (u, j) -> flight (astep (mcolouring wt) owner s t c) v i u = flight s v i u)) \/
  (exists v x k, atodo s t = [Handle v x k] /\ c = ARun).
Proof using All.
  intros HI Hok. unfold astep in *. destruct (atodo s t) as [|o rest] eqn:Et.
  - left. destruct c as [| |v l|v x|v u]; try done.
    + destruct (aqueue s t) as [|[v x] q] eqn:Eq; [done|]. split; [done|].
      intros w i u j E. unfold flight. cbn [atodo aqueue]. rewrite !fl_app.
      assert (H2 : snl (upd (atodo s) t [ADec v x] (owner u)) = snl (atodo s (owner u))).
      { destruct (decide (owner u = t)) as [->|]; us; [by rewrite Et|done]. }
      rewrite H2, !app_assoc. f_equal. destruct (decide (owner w = t)) as [->|]; us; [|done]. rewrite Et, Eq. cbn [hdl flat_map app].
      rewrite fl_cons. symmetry. rewrite fl_cons. change (fl w i []) with (@nil N). by rewrite app_nil_r.
    + destruct Hok as [Ht Hx]. split; [done|]. intros w i u j E. unfold flight. cbn [atodo aqueue]. rewrite !fl_app.
      assert (H1 : hdl (upd (atodo s) t [Inc v x] (owner w)) = hdl (atodo s (owner w))).
      { destruct (decide (owner w = t)) as [->|]; us; [by rewrite Et|done]. }
      assert (H2 : fl w i (snl (upd (atodo s) t [Inc v x] (owner u))) = fl w i (snl (atodo s (owner u)))).
      { destruct (decide (owner u = t)) as [->|]; us; [|done]. rewrite Et. cbn [snl flat_map app]. rewrite fl_cons. rewrite decide_False; [done|]. intros [_ H]. congruence. }
      by rewrite H1, H2.
  - destruct c as [| |v l|v x|v u]; try (left; done).
    destruct (m_shape _ HI t) as [(v & x & H)|[(v & x & k & H)|H]]; rewrite Et in H.
    + left. injection H as -> ->. split; [done|]. intros w i u j E. cbn [aexec].
      apply (snl_hdl_swap s _ t [Handle v x (aact s v - 1)]); try done; by rewrite Et.
    + right. by exists v, x, k.
    + left. apply list.Forall_cons in H as [Ho Hrest]. destruct o as [d x|d x| | |]; try done; cbn [aexec] in *; (split; [done|]).
      * intros w i u j E. apply (snl_hdl_swap s _ t (APut d x :: rest)); try done; by rewrite Et.
      * assert (Hin : (d, x) ∈ snl (atodo s t)) by (rewrite Et; by left). destruct (m_ins _ HI t d x Hin) as [Hx Hfrom].
        intros w i u j E. unfold flight. cbn [atodo aqueue]. rewrite !fl_app.
        assert (H1 : hdl (upd (atodo s) t rest (owner w)) = hdl (atodo s (owner w))).
        { destruct (decide (owner w = t)) as [->|]; us; [by rewrite Et|done]. }
        rewrite H1. f_equal. destruct (decide (d = w /\ npos x = Some i)) as [[-> Hi]|Hno].
        -- pose proof (Hfrom _ _ _ Hi E) as Hu. rewrite Hu. us. rewrite Et, fl_app, fl_cons. cbn [snl flat_map app]. rewrite fl_cons.
           change (fl w i []) with (@nil N). by rewrite decide_True, app_nil_r, <- app_assoc by done.
        -- assert (H3 : fl w i (upd (aqueue s) (owner d) (aqueue s (owner d) ++ [(d, x)]) (owner w)) = fl w i (aqueue s (owner w))).
           { destruct (decide (owner w = owner d)) as [->|]; us; [|done]. rewrite fl_app, fl_cons, decide_False by done. by rewrite app_nil_r. }
           rewrite H3. f_equal. destruct (decide (owner u = t)) as [->|]; us; [|done]. rewrite Et. cbn [snl flat_map app].
           by rewrite fl_cons, decide_False.
Qed.

Lemma minv_step (s : mst) t c : minv s -> ok_choice t c -> minv (astep (mcolouring wt) owner s t c).
Proof using All.
  intros HI Hok. assert (Ha : ainv (mcolouring wt) owner n (astep (mcolouring wt) owner s t c)).
  { apply ainv_astep; [done| |apply HI]. intros v x ->. apply Hok. }
  pose proof (step_flight s t c HI Hok) as Hfl.
  destruct Hfl as [[_ Hfl]|(v & x & k & Et & ->)]; [|unfold astep in *; rewrite Et in *; by apply minv_handle].
  unfold astep in *. destruct (atodo s t) as [|o rest] eqn:Et.
  - destruct c as [| |v l|v x|v u]; try done.
    + destruct (aqueue s t) as [|[v x] q] eqn:Eq; [done|]. pose proof (i_queue _ _ _ _ (m_base _ HI) t v x ltac:(rewrite Eq; by left)) as Ho.
      apply (minv_quiet s); try done; cbn [atodo aqueue aact alog aprop aedges].
      * intros t'. destruct (decide (t' = t)) as [->|]; us; [|apply HI]. left. by exists v, x.
      * intros t' d y. destruct (decide (t' = t)) as [->|]; us; [|apply HI]. intros H. apply (m_inq _ HI t). rewrite Eq. by right.
      * intros t' d y. destruct (decide (t' = t)) as [->|]; us; [|apply HI]. cbn. intros H%elem_of_list_singleton. injection H as -> ->.
        apply (m_inq _ HI t). rewrite Eq. by left.
      * intros t' d y. destruct (decide (t' = t)) as [->|]; us; [|apply HI]. cbn. by intros H%elem_of_nil.
      * intros w Hw. right. right. split_and!; try done. intros t' y H. destruct (decide (t' = t)) as [->|]; us; [congruence|done].
    + destruct Hok as [Ht Hx]. apply (minv_quiet s); try done; cbn [atodo aqueue aact alog aprop aedges].
      * intros t'. destruct (decide (t' = t)) as [->|]; us; [|apply HI]. right. right. by repeat constructor.
      * apply HI.
      * intros t' d y. destruct (decide (t' = t)) as [->|]; us; [|apply HI]. cbn. by intros H%elem_of_nil.
      * intros t' d y. destruct (decide (t' = t)) as [->|]; us; [|apply HI]. cbn. intros H%elem_of_list_singleton. injection H as -> ->.
        unfold ok_note, from. rewrite Hx. done.
      * intros w Hw. right. right. split_and!; try done. intros t' y H. destruct (decide (t' = t)) as [->|]; us; [congruence|done].
  - destruct c as [| |v l|v x|v u]; try done.
    destruct (m_shape _ HI t) as [(v & x & H)|[(v & x & k & H)|H]]; rewrite Et in H.
    + injection H as -> ->. cbn [aexec] in *. apply (minv_quiet s); try done; cbn [atodo aqueue aact alog aprop aedges].
      * intros t'. destruct (decide (t' = t)) as [->|]; us; [|apply HI]. right. left. by eexists _, _, _.
      * apply HI.
      * intros t' d y. destruct (decide (t' = t)) as [->|]; us; [|apply HI]. intros H. apply (m_inh _ HI t). by rewrite Et.
      * intros t' d y. destruct (decide (t' = t)) as [->|]; us; [|apply HI]. cbn. by intros H%elem_of_nil.
      * intros w Hw. apply elem_of_app in Hw as [Hw|Hw%elem_of_list_singleton]; [|done]. destruct (decide (w = v)) as [->|Hne]; us.
        -- destruct (decide (aact s v - 1 = 0)) as [E0|]; [|left; lia]. right. left. exists t, x. us. by rewrite E0.
        -- right. right. split_and!; try done. intros t' y H. destruct (decide (t' = t)) as [->|]; us; [congruence|done].
    + injection H as -> ->. by apply minv_handle.
    + apply list.Forall_cons in H as [Ho Hrest]. destruct o as [d x|d x| | |]; try done; cbn [aexec] in *.
      * assert (Hin : (d, x) ∈ snl (atodo s t)) by (rewrite Et; by left).
        apply (minv_quiet s); try done; cbn [atodo aqueue aact alog aprop aedges].
        -- intros t'. destruct (decide (t' = t)) as [->|]; us; [|apply HI]. right. right. by constructor.
        -- apply HI.
        -- intros t' d' y. destruct (decide (t' = t)) as [->|]; us; [|apply HI]. intros H. apply (m_inh _ HI t). by rewrite Et.
        -- intros t' d' y. destruct (decide (t' = t)) as [->|]; us; [|apply HI]. intros H. apply (m_ins _ HI t). by rewrite Et.
        -- intros w Hw. destruct (decide (w = d)) as [->|Hne]; us; [left; lia|]. right. right.
           apply elem_of_app in Hw as [Hw|Hw%elem_of_list_singleton]; [|congruence]. split_and!; try done.
           intros t' y H. destruct (decide (t' = t)) as [->|]; us; [congruence|done].
      * assert (Hin : (d, x) ∈ snl (atodo s t)) by (rewrite Et; by left). destruct (m_ins _ HI t d x Hin) as [Hx Hfrom].
        apply (minv_quiet s); try done; cbn [atodo aqueue aact alog aprop aedges].
        -- intros t'. destruct (decide (t' = t)) as [->|]; us; [|apply HI]. right. by right.
        -- intros t' d' y. destruct (decide (t' = owner d)) as [->|]; us; [|apply HI]. intros [H|H%elem_of_list_singleton]%elem_of_app; [by eapply m_inq|]. by injection H as -> ->.
        -- intros t' d' y. destruct (decide (t' = t)) as [->|]; us; [|apply HI]. intros H. apply (m_inh _ HI t). by rewrite Et.
        -- intros t' d' y. destruct (decide (t' = t)) as [->|]; us; [|apply HI]. intros H. apply (m_ins _ HI t). rewrite Et. by right.
        -- intros w Hw. apply elem_of_app in Hw as [Hw|Hw%elem_of_list_singleton]; [|congruence]. right. right. split_and!; try done.
           intros t' y H. destruct (decide (t' = t)) as [->|]; us; [congruence|done].
Qed.
Definition ok_sched (sched : list (nat * achoice (mcolouring wt))) : Prop := forall t c, (t, c) ∈ sched -> ok_choice t c.
Lemma minv_run sched : forall s : mst, minv s -> ok_sched sched -> minv (arun (mcolouring wt) owner s sched).
Proof using All.
  induction sched as [|[t c] l IH]; intros s HI Hs; [done|]. cbn. apply IH.
  - apply minv_step; [done|]. apply Hs. by left.
  - intros t' c' H. apply Hs. by right.
Qed.

(** Nothing is left to do. *)
Definition rest (s : mst) : Prop := (forall t, atodo s t = []) /\ forall t, aqueue s t = [].
Lemma rest_act s v : minv s -> rest s -> aact s v = 0.
Proof using All.
  intros HI [H1 H2]. rewrite (i_act _ _ _ _ (m_base _ HI) v), H2. rewrite !sumt_zero; [done| |]; intros k _; by rewrite H1.
Qed.
Lemma rest_cell s v i u j c : minv s -> rest s -> es v !! i = Some (u, j) -> mcol (aprop s u) <> EMPTY -> mscr (aprop s v) !! i = Some c -> c = mcol (aprop s u).
Proof using All.
  intros HI [H1 H2] E Hu Hc. pose proof (m_last _ HI _ _ _ _ _ E Hu Hc) as HL. unfold flight in HL. by rewrite !H1, H2 in HL.
Qed.
Lemma joined_es u v : joined lines u v <-> exists i j, es v !! i = Some (u, j).
Proof using All.
  assert (Hm : joined lines u v <-> u ∈ mentions lines v).
  { unfold joined. clear Hdeg. induction lines as [|[x y] l IH]; cbn [mentions].
    - split; [intros [H|H]|intros H]; by apply elem_of_nil in H.
    - rewrite !elem_of_cons, !elem_of_app, <- IH. destruct (Nat.eqb_spec x v), (Nat.eqb_spec y v); subst; rewrite ?elem_of_list_singleton, ?elem_of_nil;
        intuition (try congruence); match goal with H : _ = _ |- _ => try (injection H as -> ->) end; tauto. }
  rewrite Hm, <- (k_men _ _ gok v), elem_of_list_fmap. split.
  - intros ([u' j] & -> & [i Hi]%elem_of_list_lookup). by exists i, j.
  - intros (i & j & H). exists (u, j). split; [done|]. by eapply elem_of_list_lookup_2.
Qed.

(** All vertices have been told to start. *)
Definition started (s : mst) : Prop := forall v, vertex lines v -> Began_send v ∈ alog s.
Lemma rest_all s v : minv s -> rest s -> started s -> vertex lines v -> mcol (aprop s v) <> EMPTY.
Proof using All.
  intros HI Hr Hst. revert v. refine (Wait_Props.prio_ind _ _). intros v IH Hv.
  destruct (m_awake _ HI v (Hst v Hv)) as [?|[Hact|[(t & x & H)|[Hw Hpos]]]]; [done| | |].
  - rewrite (rest_act s v HI Hr) in Hact. lia.
  - destruct Hr as [H1 _]. by rewrite H1 in H.
  - exfalso. destruct (m_good _ HI v) as [G1 G2 G3 G4 G5 G6 G7]. rewrite G6 in Hpos.
    assert (Hpos' : 0 < magics (mscr (aprop s v))).
    { revert Hpos. generalize (magics (mscr (aprop s v))) as m. intros m. case wt; lia. }
    assert (Hex : exists i, mscr (aprop s v) !! i = Some MAGIC).
    { clear -Hpos'. unfold magics in Hpos'. induction (mscr (aprop s v)) as [|c l IH]; cbn in Hpos'; [lia|].
      destruct (N.eqb_spec c MAGIC) as [->|]; [by exists 0|]. destruct (IH Hpos') as [i Hi]. by exists (S i). }
    destruct Hex as [i Hi]. destruct (es v !! i) as [[u j]|] eqn:E; [|apply lookup_ge_None in E; apply lookup_lt_Some in Hi; lia].
    pose proof (G5 _ _ _ Hi E) as Hpr. assert (Hu : mcol (aprop s u) <> EMPTY).
    { apply IH; [done|]. exists v. apply joined_es. apply pair_of in E. by exists j, i. }
    pose proof (rest_cell s v i u j _ HI Hr E Hu Hi) as Hc. destruct (g_col _ _ (m_good _ HI u)) as [?|Hle]; [done|].
    rewrite <- Hc, es_len in Hle. pose proof (Hdeg u). lia.
Qed.
Lemma rest_diff s u v : minv s -> rest s -> started s -> joined lines u v -> prio v u = false -> mcol (aprop s u) <> mcol (aprop s v).
Proof using All.
  intros HI Hr Hst Hj Hp. assert (Hj' : joined lines v u) by (unfold joined in *; tauto).
  pose proof (rest_all s u HI Hr Hst ltac:(by exists v)) as Hu. pose proof (rest_all s v HI Hr Hst ltac:(by exists u)) as Hv.
  apply joined_es in Hj as (i & j & E). destruct (mscr (aprop s v) !! i) as [c|] eqn:Ec.
  - pose proof (rest_cell s v i u j c HI Hr E Hu Ec) as ->. intros Heq. apply (g_diff _ _ (m_good _ HI v) i u j E Hp Hv). by rewrite Ec, Heq.
  - apply lookup_ge_None in Ec. rewrite (g_len _ _ (m_good _ HI v)) in Ec. apply lookup_lt_Some in E. lia.
Qed.
End proofs.
