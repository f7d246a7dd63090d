(** Colouring by messages ends on graphs without self-loops. *)
From Verif Require Import Base Bitmap_Spec Bitmap_Model Bitmap_Proofs Vertex_Model Active_Spec Active_Model Active_Proofs.
From Verif Require Import Colour_Spec MCol_Spec MCol_Model MCol_Graph MCol_Proofs MCol_Wait.
Open Scope nat_scope.

Fixpoint psum (p : nat -> nat -> nat) (i : nat) (l : list (nat * nat)) : nat :=
  match l with [] => 0 | (u, _) :: l' => p i u + psum p (S i) l' end.
Lemma psum_le p p' l : forall i, (forall k u j, l !! k = Some (u, j) -> p (i + k) u <= p' (i + k) u) -> psum p i l <= psum p' i l.
Proof.
  induction l as [|[u j] l IH]; intros i H; cbn; [done|].
  assert (H0 : p i u <= p' i u) by (specialize (H 0 u j eq_refl); by rewrite Nat.add_0_r in H).
  assert (H1 : psum p (S i) l <= psum p' (S i) l). { apply IH. intros k u' j' E. specialize (H (S k) u' j' E). by rewrite Nat.add_succ_r in H. }
  lia.
Qed.
Lemma psum_lt p p' l : forall i, (forall k u j, l !! k = Some (u, j) -> p (i + k) u <= p' (i + k) u) ->
  (exists k u j, l !! k = Some (u, j) /\ p (i + k) u < p' (i + k) u) -> psum p i l < psum p' i l.
Proof.
  induction l as [|[u j] l IH]; intros i H (k & u' & j' & E & Hlt); [done|]. cbn.
  assert (H0 : p i u <= p' i u) by (specialize (H 0 u j eq_refl); by rewrite Nat.add_0_r in H).
  assert (Hr : forall k u j, l !! k = Some (u, j) -> p (S i + k) u <= p' (S i + k) u).
  { intros k1 u1 j1 E1. specialize (H (S k1) u1 j1 E1). by rewrite Nat.add_succ_r in H. }
  pose proof (psum_le p p' l (S i) Hr) as H1. destruct k as [|k].
  - injection E as -> ->. rewrite Nat.add_0_r in Hlt. lia.
  - enough (psum p (S i) l < psum p' (S i) l) by lia. apply IH; [done|]. exists k, u', j'. split; [done|]. by rewrite Nat.add_succ_r in Hlt.
Qed.

Lemma psum_const b i l : psum (fun _ _ => b) i l = length l * b.
Proof. revert i. induction l as [|[u j] l IH]; intros i; cbn; [done|]. by rewrite IH. Qed.
Lemma bound_list (P : nat -> nat -> Prop) (l : list nat) : (forall u a b, P u a -> a <= b -> P u b) -> (forall u, u ∈ l -> exists b, P u b) ->
  exists b, forall u, u ∈ l -> P u b.
Proof.
  intros Hm. induction l as [|u l IH]; intros H; [exists 0; intros u Hu; by apply elem_of_nil in Hu|].
  destruct IH as [b Hb]; [intros w Hw; apply H; by right|]. destruct (H u ltac:(by left)) as [b' Hb'].
  exists (b + b'). intros w [->|Hw]%elem_of_cons; [eapply Hm; [exact Hb'|lia]|]. eapply Hm; [by apply Hb|lia].
Qed.
Fixpoint lsum (f : nat -> nat) (l : list nat) : nat := match l with [] => 0 | v :: l' => f v + lsum f l' end.
Lemma lsum_add f h l : lsum (fun v => f v + h v) l = lsum f l + lsum h l.
Proof. induction l as [|v l IH]; cbn; [done|]. rewrite IH. lia. Qed.
Lemma lsum_in f l v : v ∈ l -> f v <= lsum f l.
Proof. induction 1 as [|? ? ? H IH]; cbn; lia. Qed.
Lemma lsum_le f h l : (forall v, v ∈ l -> f v <= h v) -> lsum f l <= lsum h l.
Proof.
  induction l as [|v l IH]; intros H; cbn; [done|]. pose proof (H v ltac:(by left)). pose proof (IH ltac:(intros w Hw; apply H; by right)). lia.
Qed.

Section ends.
Context (wt : bool) (lines : list (nat * nat)) (owner : nat -> nat) (n : nat).
Context (Hown : forall v, owner v < n).
Context (Hdeg : forall v, (N.of_nat (length (mentions lines v)) < MAGIC)%N).
Notation es v := (t_out (load lines) v).
Notation mst := (ast (mcolouring wt)).
Notation minv := (minv wt lines owner n).
Notation flight := (flight wt owner).
Notation mstep := (astep (mcolouring wt) owner).
Notation colr s v := (mcol (aprop s v)).

(** [v] gets a colour in this step. *)
Definition painted (s : mst) (t : nat) (c : achoice (mcolouring wt)) (v : nat) : nat :=
  match atodo s t, c with
  | [Handle w x k], ARun =>
      if (w =? v)%nat && (mcol (mstore wt x (aprop s v)) =? EMPTY)%N && negb (colr (mstep s t c) v =? EMPTY)%N then 1 else 0
  | _, _ => 0
  end.
Definition blank (s : mst) (v : nat) : nat := if (colr s v =? EMPTY)%N then 1 else 0.
Definition taken (s : mst) (K : nat -> nat) (v i u : nat) : nat := if prio u v then K u - length (flight s v i u) else 0.
Record kinv (K : nat -> nat) (s : mst) : Prop := Kinv {
  k_min : minv s;
  k_fl : forall v i u j, es v !! i = Some (u, j) -> length (flight s v i u) <= K u;
  k_sum : forall v, K v + blank s v <= 1 + psum (taken s K v) 0 (es v) }.

Lemma kinv_start : kinv (fun _ => 0) (mstart wt lines).
Proof using All. constructor; [by apply minv_start|done|]. intros v. unfold blank. cbn [mstart astart aprop base mcol]. rewrite N.eqb_refl. lia. Qed.

Lemma kinv_handle K s t v (x : mnote) k : no_loops lines -> kinv K s -> atodo s t = [@Handle (mcolouring wt) v x k] ->
  kinv (fun w => K w + painted s t ARun w) (mstep s t ARun).
Proof using All.
  intros Hloop [HI HF HS] Et. pose proof (minv_step wt lines owner n Hown Hdeg s t ARun HI I) as HM.
  destruct (handle_to wt lines owner n Hown Hdeg s t v x k HI Et) as (p & ms & Hh & _).
  assert (Hpt : forall w, painted s t ARun w = if (v =? w) && (mcol (mstore wt x (aprop s w)) =? EMPTY)%N && negb (colr (mstep s t ARun) w =? EMPTY)%N then 1 else 0).
  { intros w. unfold painted. by rewrite Et. }
  set (s' := mstep s t ARun) in *. destruct Hh as [Hx HG Hp HG' Hscr Hcase Hfl]. cbn zeta in Hcase.
  assert (Hcv : colr s' v = mcol p) by (rewrite Hp; by rewrite decide_True).
  assert (Hpv : painted s t ARun v = (if (mcol (mstore wt x (aprop s v)) =? EMPTY)%N && negb (mcol p =? EMPTY)%N then 1 else 0)).
  { rewrite Hpt, Nat.eqb_refl, Hcv. done. }
  assert (Hpw : forall w, w <> v -> painted s t ARun w = 0).
  { intros w Hw. rewrite Hpt. destruct (Nat.eqb_spec v w); [congruence|done]. }
  assert (Hpost : forall d j u i, es d !! j = Some (u, i) -> length (if decide (u = v /\ ms <> []) then [mcol p] else []) = painted s t ARun u).
  { intros d j u i E. destruct (decide (u = v)) as [->|Hu].
    - rewrite Hpv. destruct Hcase as [[-> ->]|(He & _ & Hne & _ & Ems)].
      + rewrite decide_False by (intros [_ ?]; done). by destruct (mcol (mstore wt x (aprop s v)) =? EMPTY)%N.
      + rewrite decide_True.
        * rewrite He, N.eqb_refl. by destruct (N.eqb_spec (mcol p) EMPTY).
        * split; [done|]. rewrite Ems. intros Hnil. apply map_eq_nil in Hnil. apply (pair_of lines) in E. by rewrite Hnil in E.
    - rewrite decide_False by (intros [? _]; done). by rewrite Hpw. }
  assert (Htk : forall d j u i, es d !! j = Some (u, i) ->
    length (flight s' d j u) <= K u + painted s t ARun u /\
    taken s' (fun w => K w + painted s t ARun w) d j u = taken s K d j u + (if decide (v = d /\ npos x = Some j) then if prio u d then 1 else 0 else 0)).
  { intros d j u i E. destruct (Hfl d j u i E) as (R & F1 & F2). pose proof (HF d j u i E) as HFu. pose proof (Hpost d j u i E) as Hpo.
    unfold taken. rewrite F1, F2, !app_length, Hpo in *. destruct (decide (v = d /\ npos x = Some j)); cbn [length] in *; destruct (prio u d); lia. }
  constructor; [done|intros d j u i E; by apply (Htk d j u i E)|].
  intros w. specialize (HS w). destruct (decide (w = v)) as [->|Hw].
  - assert (Hle : psum (taken s K v) 0 (es v) <= psum (taken s' (fun w => K w + painted s t ARun w) v) 0 (es v)).
    { apply psum_le. intros j u i E. cbn. destruct (Htk v j u i E) as [_ ->]. lia. }
    destruct (decide (colr s v <> EMPTY /\ mcol (mstore wt x (aprop s v)) = EMPTY)) as [[He Hr]|Hno].
    + (* a colour is taken back *)
      assert (Hlt : psum (taken s K v) 0 (es v) < psum (taken s' (fun w => K w + painted s t ARun w) v) 0 (es v)).
      { apply psum_lt; [intros j u i E; cbn; destruct (Htk v j u i E) as [_ ->]; lia|].
        unfold ok_note in Hx. destruct (npos x) as [j|] eqn:Ej; [|unfold mstore in Hr; by rewrite Ej in Hr].
        destruct Hx as (u & i & E & Hnp & _). exists j, u, i. split; [done|]. cbn. destruct (Htk v j u i E) as [_ ->].
        rewrite decide_True by done. assert (Huv : u <> v).
        { intros ->. assert (joined lines v v) as [H|H]; [|by apply (Hloop v)|by apply (Hloop v)]. apply (joined_es wt lines owner n Hown Hdeg). by exists j, i. }
        assert (Enp : nprio x = true).
        { destruct (nprio x) eqn:En; [done|]. exfalso. unfold mstore in Hr. rewrite Ej in Hr. by destruct (mscr (aprop s v) !! j); cbn in Hr; rewrite ?En in Hr. }
        rewrite Hnp in Enp. rewrite <- prio_cases in Enp by done. rewrite Enp. lia. }
      unfold blank in *. rewrite Hpv, Hcv. destruct (N.eqb_spec (colr s v) EMPTY); [done|]. rewrite Hr, N.eqb_refl. cbn [andb].
      destruct (mcol p =? EMPTY)%N; cbn [negb]; lia.
    + unfold blank in *. rewrite Hpv, Hcv. destruct Hcase as [[-> _]|(He & _ & Hne & _)].
      * destruct (N.eqb_spec (mcol (mstore wt x (aprop s v))) EMPTY) as [Er|Er]; cbn [andb negb].
        -- destruct (N.eqb_spec (colr s v) EMPTY); [lia|]. by destruct Hno.
        -- lia.
      * rewrite He, N.eqb_refl. destruct (N.eqb_spec (mcol p) EMPTY); [done|]. cbn [andb negb].
        destruct (N.eqb_spec (colr s v) EMPTY); [lia|]. by destruct Hno.
  - rewrite (Hpw w Hw). assert (Hb : blank s' w = blank s w) by (unfold blank; rewrite Hp, decide_False by done; done). rewrite Hb.
    enough (psum (taken s K w) 0 (es w) <= psum (taken s' (fun w => K w + painted s t ARun w) w) 0 (es w)) by lia.
    apply psum_le. intros j u i E. cbn. destruct (Htk w j u i E) as [_ ->]. lia.
Qed.

Lemma kinv_step K s t c : no_loops lines -> kinv K s -> ok_choice wt n t c -> kinv (fun v => K v + painted s t c v) (mstep s t c).
Proof using All.
  intros Hloop HK Hok.
  assert (Hdec : (exists v x k, atodo s t = [@Handle (mcolouring wt) v x k] /\ c = ARun) \/ forall v, painted s t c v = 0).
  { unfold painted. destruct (atodo s t) as [|[] [|]]; try (right; done). destruct c; try (right; done). left. by eexists _, _, _. }
  destruct Hdec as [(v & x & k & Et & ->)|Hno]; [by eapply kinv_handle|].
  destruct (step_flight wt lines owner n Hown Hdeg s t c (k_min _ _ HK) Hok) as [[Hp Hf]|(v & x & k & Et & ->)]; [|by eapply kinv_handle].
  destruct HK as [HI HF HS]. constructor; [by apply minv_step|..].
  - intros v i u j E. rewrite (Hf _ _ _ _ E), Hno, Nat.add_0_r. by eapply HF.
  - intros v. rewrite Hno, Nat.add_0_r. unfold blank. rewrite Hp. specialize (HS v). etransitivity; [exact HS|]. apply le_n_S, psum_le.
    intros i u j E. cbn. unfold taken. rewrite (Hf _ _ _ _ E), Hno, Nat.add_0_r. done.
Qed.

(** How often [v] gets a colour in a run. *)
Fixpoint paintings (s : mst) (sched : list (nat * achoice (mcolouring wt))) (v : nat) : nat :=
  match sched with [] => 0 | (t, c) :: l => painted s t c v + paintings (mstep s t c) l v end.
Lemma kinv_run sched : forall K s, no_loops lines -> kinv K s -> ok_sched wt n sched ->
  exists K', kinv K' (arun (mcolouring wt) owner s sched) /\ forall v, K' v = K v + paintings s sched v.
Proof using All.
  induction sched as [|[t c] l IH]; intros K s Hloop HK Hs.
  - exists K. split; [done|]. cbn. lia.
  - destruct (IH _ _ Hloop (kinv_step K s t c Hloop HK ltac:(apply Hs; by left)) ltac:(intros ? ? H; apply Hs; by right)) as (K' & H1 & H2).
    exists K'. split; [done|]. intros v. rewrite H2. cbn. lia.
Qed.
Lemma paintings_bound : no_loops lines -> forall v, exists b, forall sched, ok_sched wt n sched -> paintings (mstart wt lines) sched v <= b.
Proof using All.
  intros Hloop. refine (Wait_Props.prio_ind _ _). intros v IH.
  set (P := fun u b => prio u v = true -> forall sched, ok_sched wt n sched -> paintings (mstart wt lines) sched u <= b).
  destruct (bound_list P (map fst (es v))) as [b Hb].
  { intros u a b H Hab Hp sched Hs. specialize (H Hp sched Hs). lia. }
  { intros u _. destruct (prio u v) eqn:E; [|exists 0; unfold P; congruence]. destruct (IH u E) as [b Hb]. exists b. by intros _. }
  exists (1 + length (es v) * b). intros sched Hs. destruct (kinv_run sched _ _ Hloop kinv_start Hs) as (K & HK & EK). cbn in EK.
  pose proof (k_sum _ _ HK v) as H. rewrite EK in H. etransitivity; [|apply le_n_S; rewrite <- (psum_const b 0); apply psum_le].
  - etransitivity; [|exact H]. lia.
  - intros i u j E. cbn. unfold taken. destruct (prio u v) eqn:Ep; [|lia]. rewrite EK.
    assert (Hu : u ∈ map fst (es v)) by (apply elem_of_list_fmap; exists (u, j); split; [done|by eapply elem_of_list_lookup_2]).
    specialize (Hb u Hu Ep sched Hs). lia.
Qed.

(** Steps that do something. *)
Definition acts (s : mst) (t : nat) (c : achoice (mcolouring wt)) : nat :=
  match atodo s t, c with
  | _ :: _, ARun => 1
  | [], APop => match aqueue s t with [] => 0 | _ => 1 end
  | [], ANote _ _ => 1
  | _, _ => 0
  end.
Definition notes (s : mst) (t : nat) (c : achoice (mcolouring wt)) : nat := match atodo s t, c with [], ANote _ _ => 1 | _, _ => 0 end.
Fixpoint total (f : mst -> nat -> achoice (mcolouring wt) -> nat) (s : mst) (sched : list (nat * achoice (mcolouring wt))) : nat :=
  match sched with [] => 0 | (t, c) :: l => f s t c + total f (mstep s t c) l end.
Definition weight (o : aop (mcolouring wt)) : nat := match o with Inc _ _ => 5 | APut _ _ => 4 | ADec _ _ => 2 | Handle _ _ _ => 1 | Added _ _ => 0 end.
Fixpoint weights (l : list (aop (mcolouring wt))) : nat := match l with [] => 0 | o :: l' => weight o + weights l' end.
Definition load_of (s : mst) (t : nat) : nat := weights (atodo s t) + 3 * length (aqueue s t).
Definition mass (s : mst) : nat := sumt (load_of s) n.
Definition sent (s : mst) (t : nat) (c : achoice (mcolouring wt)) : nat :=
  match atodo s t, c with [Handle v x k], ARun => painted s t c v * length (es v) | _, _ => 0 end.
Lemma weights_sends ms : weights (sends (mcolouring wt) ms) = 5 * length ms.
Proof using All. induction ms as [|[d x] ms IH]; cbn [sends map weights length]; [done|]. cbn [weight]. change (map _ ms) with (sends (mcolouring wt) ms). lia. Qed.

Lemma mass_at (s s' : mst) t a : t < n -> (forall k, k <> t -> load_of s' k = load_of s k) -> load_of s' t + a = load_of s t -> mass s' + a = mass s.
Proof using All. intros Ht H1 H2. unfold mass. pose proof (sumt_change (load_of s') (load_of s) n t Ht (fun k _ Hk => H1 k Hk)). lia. Qed.
Lemma mass_at_up (s s' : mst) t a : t < n -> (forall k, k <> t -> load_of s' k = load_of s k) -> load_of s' t = load_of s t + a -> mass s' = mass s + a.
Proof using All. intros Ht H1 H2. unfold mass. pose proof (sumt_change (load_of s') (load_of s) n t Ht (fun k _ Hk => H1 k Hk)). lia. Qed.

Lemma mass_step s t c : minv s -> ok_choice wt n t c -> mass (mstep s t c) + acts s t c <= mass s + 6 * notes s t c + 5 * sent s t c.
Proof using All.
  intros HI Hok. pose proof (m_base _ _ _ _ _ HI) as HB. unfold acts, notes, sent, astep. destruct (atodo s t) as [|o rest] eqn:Et.
  - destruct c as [| |v l|v x|v u]; try done; try lia.
    + destruct (aqueue s t) as [|[v x] q] eqn:Eq; [lia|]. pose proof (i_queue _ _ _ _ HB t v x ltac:(rewrite Eq; by left)) as Ho.
      assert (Ht : t < n) by (rewrite <- Ho; apply Hown).
      set (s' := Ast _ _ _ _ _ _). assert (mass s' + 1 = mass s); [|lia]. apply (mass_at s s' t 1 Ht); unfold load_of, s'; cbn [atodo aqueue].
      * intros k Hk. by us.
      * us. rewrite Et, Eq. cbn [weights weight length]. lia.
    + destruct Hok as [Ht _]. set (s' := Ast _ _ _ _ _ _). assert (mass s' = mass s + 5); [|lia]. apply (mass_at_up s s' t 5 Ht); unfold load_of, s'; cbn [atodo aqueue].
      * intros k Hk. by us.
      * us. rewrite Et. cbn [weights weight]. lia.
  - destruct c as [| |v l|v x|v u]; try done; try lia.
    assert (Ht : t < n). { apply (i_mine _ _ _ _ HB t o). rewrite Et. by left. }
    destruct (m_shape _ _ _ _ _ HI t) as [(v & x & H)|[(v & x & k & H)|H]]; rewrite Et in H.
    + injection H as -> ->. cbn [aexec]. set (s' := Ast _ _ _ _ _ _). assert (mass s' + 1 = mass s); [|lia]. apply (mass_at s s' t 1 Ht); unfold load_of, s'; cbn [atodo aqueue].
      * intros k Hk. by us.
      * us. rewrite Et. cbn [weights weight]. lia.
    + injection H as -> ->. pose proof (handle_to wt lines owner n Hown Hdeg s t v x k HI Et) as (p & ms & Hh & _).
      assert (Hs' : exists ms', (ms' = [] \/ length ms' = painted s t ARun v * length (es v)) /\
        mstep s t ARun = Ast (aact s) (aqueue s) (aprop (mstep s t ARun)) (aedges s) (upd (atodo s) t (sends (mcolouring wt) ms' ++ [])) (alog s)).
      { unfold painted. rewrite Et, Nat.eqb_refl. cbn [andb]. unfold astep. rewrite Et. cbn [aexec].
        change (areact (mcolouring wt) v (KNote x) k (aprop s v) (aedges s v)) with (mreact wt v (KNote x) k (aprop s v) (aedges s v)).
        destruct (store_good wt lines owner n Hown Hdeg v x (aprop s v) (m_good _ _ _ _ _ HI v) (h_note _ _ _ _ _ _ _ _ _ _ Hh)) as (HG & Hpan & _).
        unfold mreact. rewrite Hpan. rewrite (m_edges _ _ _ _ _ HI v). set (q := mstore wt x (aprop s v)) in *.
        destruct (mupdate wt k q (base_edges v (load lines))) as [p' ms'] eqn:Eu.
        pose proof (update_good wt lines owner n Hown Hdeg v k q p' ms' HG Eu) as (_ & _ & _ & Hcase).
        exists ms'. split; [|done]. destruct Hcase as [(_ & -> & _)|(He & _ & _ & Hne & _ & ->)]; [by left|]. right. cbn [aprop]. us.
        rewrite He, N.eqb_refl. destruct (N.eqb_spec (mcol p') EMPTY); [done|]. cbn [negb]. rewrite map_length. cbn [andb]. by rewrite Nat.mul_1_l. }
      destruct Hs' as (ms' & Hl & Es). unfold astep in Es at 1. rewrite Et in Es. rewrite Es. set (s' := Ast _ _ _ _ _ _).
      assert (mass s' + 1 = mass s + 5 * length ms').
      { assert (L1 : load_of s' t = 5 * length ms' + 3 * length (aqueue s t)).
        { unfold load_of, s'. cbn [atodo aqueue]. us. by rewrite app_nil_r, weights_sends. }
        assert (L2 : load_of s t = 1 + 3 * length (aqueue s t)) by (unfold load_of; by rewrite Et).
        assert (L3 : forall k', k' < n -> k' <> t -> load_of s' k' = load_of s k').
        { intros k' _ Hk'. unfold load_of, s'. cbn [atodo aqueue]. by us. }
        unfold mass. pose proof (sumt_change (load_of s') (load_of s) n t Ht L3) as HX. lia. }
      destruct Hl as [->|Hl]; cbn [length] in *; lia.
    + assert (Hsent : match o with Handle _ _ _ => False | _ => True end) by (apply list.Forall_cons in H as [Ho _]; by destruct o).
      apply list.Forall_cons in H as [Ho Hrest]. destruct o as [d x|d x| | |]; try done; cbn [aexec].
      * set (s' := Ast _ _ _ _ _ _). assert (mass s' + 1 = mass s); [|lia]. apply (mass_at s s' t 1 Ht); unfold load_of, s'; cbn [atodo aqueue].
        -- intros k Hk. by us.
        -- us. rewrite Et. cbn [weights weight]. lia.
      * set (s1 := Ast (aact s) (aqueue s) (aprop s) (aedges s) (upd (atodo s) t rest) (alog s) : mst).
        set (s' := Ast _ _ _ _ _ _). assert (H1 : mass s1 + 4 = mass s).
        { apply (mass_at s s1 t 4 Ht); unfold load_of, s1; cbn [atodo aqueue]; [intros k Hk; by us|]. us. rewrite Et. cbn [weights weight]. lia. }
        assert (H2 : mass s' = mass s1 + 3).
        { apply (mass_at_up s1 s' (owner d) 3 (Hown d)); unfold load_of, s1, s'; cbn [atodo aqueue]; [intros k Hk; by rewrite (upd_ne (aqueue s)) by done|].
          rewrite (upd_eq (aqueue s)), app_length. cbn [length]. lia. }
        lia.
Qed.

Definition everyone : list nat := map fst lines ++ map snd lines.
Lemma sent_le s t c : sent s t c <= lsum (fun v => painted s t c v * length (es v)) everyone.
Proof using All.
  unfold sent. destruct (atodo s t) as [|[] [|]]; try lia. destruct c; try lia.
  destruct (es v) as [|[u j] l] eqn:E; [cbn [length]; lia|].
  assert (Hv : v ∈ everyone).
  { assert (Hj : joined lines u v) by (apply (joined_es wt lines owner n Hown Hdeg); exists 0, j; by rewrite E).
    apply elem_of_app. destruct Hj as [H|H]; [right; by apply (elem_of_list_fmap_1 snd) in H|left; by apply (elem_of_list_fmap_1 fst) in H]. }
  pose proof (lsum_in (fun w => painted s t ARun w * length (es w)) everyone v Hv) as H. cbn beta in H. by rewrite E in H.
Qed.
Lemma total_run sched : forall s, minv s -> ok_sched wt n sched ->
  total acts s sched <= mass s + 6 * total notes s sched + 5 * lsum (fun v => paintings s sched v * length (es v)) everyone.
Proof using All.
  induction sched as [|[t c] l IH]; intros s HI Hs; cbn [total paintings]; [lia|].
  assert (Hok : ok_choice wt n t c) by (apply Hs; by left).
  pose proof (mass_step s t c HI Hok) as H1. pose proof (sent_le s t c) as H2.
  pose proof (IH (mstep s t c) ltac:(by apply minv_step) ltac:(intros ? ? H; apply Hs; by right)) as H3.
  assert (H4 : lsum (fun v => (painted s t c v + paintings (mstep s t c) l v) * length (es v)) everyone =
    lsum (fun v => painted s t c v * length (es v)) everyone + lsum (fun v => paintings (mstep s t c) l v * length (es v)) everyone).
  { rewrite <- lsum_add. apply Nat.le_antisymm; apply lsum_le; intros v _; lia. }
  lia.
Qed.
Lemma mass_start : mass (mstart wt lines) = 0.
Proof using All. apply sumt_zero. done. Qed.
Lemma ends_bound : no_loops lines -> exists B, forall sched, ok_sched wt n sched ->
  total acts (mstart wt lines) sched <= B + 6 * total notes (mstart wt lines) sched.
Proof using All.
  intros Hloop. destruct (bound_list (fun v b => forall sched, ok_sched wt n sched -> paintings (mstart wt lines) sched v <= b) everyone) as [b Hb].
  { intros u a b H Hab sched Hs. specialize (H sched Hs). lia. }
  { intros u _. by apply paintings_bound. }
  exists (5 * lsum (fun v => b * length (es v)) everyone). intros sched Hs.
  pose proof (total_run sched (mstart wt lines) ltac:(by apply minv_start) Hs) as H. rewrite mass_start in H.
  assert (H' : lsum (fun v => paintings (mstart wt lines) sched v * length (es v)) everyone <= lsum (fun v => b * length (es v)) everyone).
  { apply lsum_le. intros v Hv. apply Nat.mul_le_mono_r. by apply Hb. }
  lia.
Qed.
End ends.
