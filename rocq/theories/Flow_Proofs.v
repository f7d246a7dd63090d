(** Proofs for C92. *)
From Verif Require Import Base Vertex_Model Load_Spec Load_Model Remit_Model Flow_Model.
Open Scope nat_scope.

(** ** Sums *)
Fixpoint sumf (n : nat) (f : nat -> nat) : nat := match n with O => 0 | S k => sumf k f + f k end.
Lemma sumf_ext n f g : (forall u, u < n -> f u = g u) -> sumf n f = sumf n g.
Proof. induction n as [|n IH]; intros H; [done|]. cbn. rewrite IH by (intros; apply H; lia). rewrite (H n) by lia. done. Qed.
Lemma sumf_upd n f g t : t < n -> (forall u, u <> t -> g u = f u) -> sumf n g + f t = sumf n f + g t.
Proof.
  induction n as [|n IH]; intros Ht H; [lia|]. cbn. destruct (decide (t = n)) as [->|Hn].
  - rewrite (sumf_ext n g f) by (intros; apply H; lia). lia.
  - specialize (IH ltac:(lia) H). rewrite (H n) by lia. lia.
Qed.
Lemma sumf_le n f g : (forall u, u < n -> f u <= g u) -> sumf n f <= sumf n g.
Proof. induction n as [|n IH]; intros H; [done|]. cbn. pose proof (H n ltac:(lia)). assert (sumf n f <= sumf n g) by (apply IH; intros; apply H; lia). lia. Qed.
Lemma sumf_const n c : sumf n (fun _ => c) = n * c.
Proof. induction n as [|n IH]; [done|]. cbn. rewrite IH. lia. Qed.
Lemma all_or (f : nat -> bool) n : (forall t, t < n -> f t = true) \/ exists t, t < n /\ f t = false.
Proof.
  induction n as [|n [IH|(t & Ht & E)]]; [left; lia| |right; exists t; split; [lia|done]].
  destruct (f n) eqn:E; [left|right; exists n; split; [lia|done]]. intros t Ht. destruct (decide (t = n)) as [->|?]; [done|apply IH; lia].
Qed.
Lemma fset_eq {A} (f : nat -> A) i x : fset f i x i = x.
Proof. unfold fset. by rewrite Nat.eqb_refl. Qed.
Lemma fset_ne {A} (f : nat -> A) i j x : j <> i -> fset f i x j = f j.
Proof. intros H. unfold fset. destruct (Nat.eqb_spec j i); [done|done]. Qed.

Section flow.
Context {P : Type} (zero : P) (k n sl sf so st_ sq : nat).
Context (Hk : 0 < k) (Hn : 0 < n).
Notation nn := (N.of_nat n).
Notation flow := (flow P).
Notation fstep := (fstep zero k n sl sf so st_ sq).
Notation frun := (frun zero k n sl sf so st_ sq).
Implicit Types (s : flow) (p : pipe P).

Lemma wth_lt x : wth nn x < n.
Proof. unfold wth, within. pose proof (N.mod_lt x nn). lia. Qed.

(** ** The pipeline is Remit_Model's *)
Definition more p x : pipe P := with_todo p (todo p ++ x).
Lemma more_nil p : more p [] = p.
Proof. destruct p. unfold more, with_todo. cbn. by rewrite app_nil_r. Qed.
Lemma more_more p x y : more (more p x) y = more p (x ++ y).
Proof. unfold more, with_todo. cbn. by rewrite app_assoc. Qed.
Lemma more_bstep p x : todo p <> [] \/ bst p <> BPut -> bstep nn (more p x) = more (bstep nn p) x.
Proof. intros H. unfold bstep, more, with_todo. cbn. destruct (bst p); [|done]. destruct (todo p); [naive_solver|done]. Qed.
Lemma more_gstep p t x : gstep t (more p x) = more (gstep t p) x.
Proof. destruct p as [td b c f o v i r tc rs q em rl tk sp]. unfold gstep, more, with_todo. cbn. destruct (f t); [by destruct c|]. by destruct (lookup_or_new _ _ _). Qed.
Lemma more_rstep p x : rstep zero nn (more p x) = more (rstep zero nn p) x.
Proof. destruct p as [td b c f o v i r tc rs q em rl tk sp]. unfold rstep, more, with_todo. cbn. destruct rs as [|t|t|]; [destruct o; [by destruct c|done]|by destruct (r t)|by destruct (tc t)|done]. Qed.
Lemma more_tstep p t x : tstep t (more p x) = more (tstep t p) x.
Proof. destruct p as [td b c f o v i r tc rs q em rl tk sp]. unfold tstep, more, with_todo. cbn. by destruct (q t). Qed.

Definition abs s : Prop := exists l, forall x, bclosed (pip s) = false \/ x = [] -> more (pip s) x = prun zero nn (pipe_init (concat (gone s) ++ x)) l.
Lemma abs_start file : abs (fstart k file).
Proof. exists []. intros x _. done. Qed.
Lemma abs_step s s' w : abs s -> gone s' = gone s -> (forall x, bclosed (pip s') = false \/ x = [] -> (bclosed (pip s) = false \/ x = []) /\ more (pip s') x = step zero nn (more (pip s) x) w) -> abs s'.
Proof.
  intros (l & H) Hg Hw. exists (l ++ [w]). intros x Hx. destruct (Hw x Hx) as [H1 H2]. rewrite H2, Hg, (H x H1). unfold prun. by rewrite fold_left_app.
Qed.
Lemma abs_same s s' : abs s -> gone s' = gone s -> pip s' = pip s -> abs s'.
Proof. intros (l & H) Hg Hp. exists l. by rewrite Hg, Hp. Qed.

Lemma closed_gstep p t : bclosed (gstep t p) = bclosed p.
Proof. destruct p as [td b c f o v i r tc rs q em rl tk sp]. unfold gstep. cbn. destruct (f t); [by destruct c|]. by destruct (lookup_or_new _ _ _). Qed.
Lemma closed_rstep p : bclosed (rstep zero nn p) = bclosed p.
Proof. destruct p as [td b c f o v i r tc rs q em rl tk sp]. unfold rstep. cbn. destruct rs as [|t|t|]; [destruct o; [by destruct c|done]|by destruct (r t)|by destruct (tc t)|done]. Qed.
Lemma closed_tstep p t : bclosed (tstep t p) = bclosed p.
Proof. destruct p as [td b c f o v i r tc rs q em rl tk sp]. unfold tstep. cbn. by destruct (q t). Qed.

(** ** Invariant *)
Definition tokens p (t : nat) : nat :=
  count_occ Nat.eq_dec (ord p) t + (match bst p with BOrder u => if u =? t then 1 else 0 | BPut => 0 end) +
  match rst p with RLook u | RSeen u => if u =? t then 1 else 0 | _ => 0 end.
Definition got_rem (m : mpc) : nat := match m with MInput => 0 | MRemits j => n - j | _ => n end.
Definition got_evt (m : mpc) : nat := match m with MInput | MRemits _ => 0 | MEvents j => n - j | MAlg => n end.
Definition many (f : nat -> bool) : nat := sumf n (fun t => if f t then 1 else 0).

Record inv (file : list (list (tev P))) s : Prop := {
  i_abs : abs s;
  i_deal : exists rest, file = gone s ++ rest /\ cur s = length (gone s) mod k /\ forall i, i < k -> lq s i ++ src s i = dealt k i (length (gone s)) rest;
  i_over : over s = true -> src s (cur s) = [] /\ eseen s = false;
  i_seen : eseen s = true -> bst (pip s) = BPut /\ todo (pip s) = [];
  i_tok : forall t, tokens (pip s) t <= length (fe (pip s) t) + length (tr (pip s) t);
  i_eq : forall t, trclosed (pip s) t = false -> tokens (pip s) t = length (fe (pip s) t) + length (tr (pip s) t);
  i_trc : forall t, trclosed (pip s) t = true -> bclosed (pip s) = true /\ fe (pip s) t = [];
  i_clo : bclosed (pip s) = true -> todo (pip s) = [] /\ bst (pip s) = BPut /\ over s = true;
  i_done : rst (pip s) = RDone -> bclosed (pip s) = true /\ ord (pip s) = [];
  i_hand : hand s = true -> exists t, rst (pip s) = RLook t /\ tr (pip s) t <> [];
  i_ord : forall t, t ∈ ord (pip s) -> t < n;
  i_bst : forall t, bst (pip s) = BOrder t -> t < n;
  i_rst : forall t, rst (pip s) = RLook t \/ rst (pip s) = RSeen t -> t < n;
  i_strc : forall t, strc s t = true -> rst (pip s) = RDone /\ tq (pip s) t = [];
  i_mst : mst s <> MInput -> rst (pip s) = RDone;
  i_mj : match mst s with MRemits j | MEvents j => j <= n | _ => True end;
  i_nrem : nrem s + got_rem (mst s) = many (trclosed (pip s));
  i_nevt : nevt s + got_evt (mst s) = many (strc s) }.

Lemma dealt_nil i j (file : list (list (tev P))) : i = j mod k -> dealt k i j file = [] -> file = [].
Proof. intros -> H. destruct file as [|x f]; [done|]. cbn in H. by rewrite Nat.eqb_refl in H. Qed.

Lemma inv_start file : inv file (fstart k file).
Proof.
  assert (forall m c, sumf m (fun _ : nat => if (fun _ : nat => false) c then 1 else 0) = 0) as H0 by (intros; cbn; rewrite sumf_const; lia).
  constructor; cbn; try done; try (intros; lia).
  - apply abs_start.
  - exists file. split_and!; [done| |done]. symmetry. by apply Nat.mod_small.
  - intros t ?%elem_of_nil. done.
  - intros t [?|?]; done.
  - unfold many. cbn. rewrite sumf_const. lia.
  - unfold many. cbn. rewrite sumf_const. lia.
Qed.

Lemma many_set f t : t < n -> f t = false -> many (fset f t true) = S (many f).
Proof.
  intros Ht E. unfold many. pose proof (sumf_upd n (fun u => if f u then 1 else 0) (fun u => if fset f t true u then 1 else 0) t Ht) as H. cbn in H. rewrite E, fset_eq in H.
  rewrite <- plus_n_O, Nat.add_1_r in H. apply H. intros u Hu. by rewrite fset_ne by done.
Qed.
Lemma many_le f : many f <= n.
Proof. unfold many. rewrite <- (Nat.mul_1_r n) at 2. rewrite <- sumf_const. apply sumf_le. intros u _. by destruct (f u); lia. Qed.
Lemma many_all f : many f = n -> forall t, t < n -> f t = true.
Proof.
  intros H. destruct (all_or f n) as [?|(t & Ht & E)]; [done|exfalso]. pose proof (many_set f t Ht E). pose proof (many_le (fset f t true)). lia.
Qed.
Lemma many_ext f g : (forall t, f t = g t) -> many f = many g.
Proof. intros H. apply sumf_ext. intros u _. by rewrite H. Qed.

(** What the steps of the pipeline do to the fields that matter. *)
Lemma gstep_more p t e q : fe p t = e :: q -> let p' := gstep t p in
  todo p' = todo p /\ bst p' = bst p /\ bclosed p' = bclosed p /\ ord p' = ord p /\ trclosed p' = trclosed p /\ rst p' = rst p /\ tq p' = tq p /\
  fe p' = fset (fe p) t q /\ exists r, tr p' = fset (tr p) t (tr p t ++ [r]).
Proof. intros E. unfold gstep. rewrite E. destruct (lookup_or_new _ _ _). cbn. split_and!; try done. by eexists. Qed.

Ltac same HI := destruct HI; constructor; cbn; try done; try (eapply abs_same; [eassumption|done|done]).

Lemma inv_read file s i : inv file s -> i < k -> inv file (read sl s i).
Proof.
  intros HI Hi. unfold read. destruct (src s i) as [|x r] eqn:E; [done|]. destruct (_ <? _); [|done]. same HI.
  - destruct i_deal0 as (rest & -> & Hc & H). exists rest. split_and!; [done|done|]. intros j Hj. destruct (decide (j = i)) as [->|Hne].
    + rewrite !fset_eq. rewrite <- app_assoc. cbn. rewrite <- (H i Hi), E. done.
    + rewrite !fset_ne by done. by apply H.
  - intros Ho. destruct (i_over0 Ho) as [H1 H2]. split; [|done]. destruct (decide (cur s = i)) as [<-|Hne]; [congruence|]. by rewrite fset_ne.
Qed.

Lemma inv_get file s : inv file s -> bst (pip s) = BPut -> todo (pip s) = [] -> over s = false -> inv file (get k s).
Proof.
  intros HI Eb Et Ho. unfold get. destruct (eseen s) eqn:Es.
  - destruct (src s (cur s)) eqn:E; same HI; naive_solver congruence.
  - destruct (lq s (cur s)) as [|x q] eqn:E; [same HI; naive_solver congruence|].
    assert (Hb : bclosed (pip s) = false) by (destruct (bclosed (pip s)) eqn:Eb'; [|done]; destruct (i_clo _ _ HI Eb') as (? & ? & ?); congruence).
    same HI.
    + destruct i_abs0 as (l & H). exists l. intros y Hy. cbn. rewrite concat_app. cbn. rewrite app_nil_r, <- app_assoc. rewrite <- (H (x ++ y)) by (left; done). unfold more, with_todo. cbn. by rewrite Et.
    + destruct i_deal0 as (rest & Ef & Hc & H). assert (Hck : cur s < k) by (rewrite Hc; apply Nat.mod_upper_bound; lia).
      pose proof (H (cur s) Hck) as Hd. rewrite E in Hd. destruct rest as [|y rest]; [done|]. cbn in Hd. rewrite Hc, Nat.eqb_refl in Hd. injection Hd as -> Hd.
      exists rest. split_and!.
      * by rewrite Ef, <- app_assoc.
      * rewrite app_length. cbn. rewrite Hc. rewrite <- Nat.add_1_r, Nat.add_mod_idemp_l by lia. done.
      * intros j Hj. rewrite app_length. cbn. rewrite Nat.add_1_r. destruct (decide (j = cur s)) as [->|Hne].
        -- rewrite fset_eq, Hc. exact Hd.
        -- rewrite fset_ne by done. rewrite (H j Hj). cbn. destruct (Nat.eqb_spec (length (gone s) mod k) j); [congruence|done].
    + congruence.
    + intros H. congruence.
Qed.

Lemma inv_emit file s g : inv file s -> inv file (emit k n sf so s g).
Proof.
  intros HI. unfold emit. destruct (bst (pip s)) as [|t] eqn:Eb.
  - destruct (todo (pip s)) as [|e l] eqn:Et.
    + destruct (over s) eqn:Eo; [|by apply inv_get].
      unfold bstep. rewrite Eb, Et. same HI.
      * apply (abs_step s _ WEmit); [done|done|]. intros x [?| ->]; [done|]. split; [by right|]. rewrite !more_nil. cbn. unfold bstep. by rewrite Eb, Et.
      * intros t. specialize (i_tok0 t). unfold tokens in *. rewrite Eb in i_tok0. exact i_tok0.
      * intros t. specialize (i_eq0 t). unfold tokens in *. rewrite Eb in i_eq0. exact i_eq0.
      * intros t H. split; [done|]. by destruct (i_trc0 t H).
      * intros H. split; [done|]. by destruct (i_done0 H).
    + destruct (g || _) eqn:Eg; [|done].
      assert (Hb : bclosed (pip s) = false) by (destruct (bclosed (pip s)) eqn:Eb'; [|done]; destruct (i_clo _ _ HI Eb') as (? & ? & ?); congruence).
      assert (Hc : forall t, trclosed (pip s) t = false) by (intros t; destruct (trclosed (pip s) t) eqn:E'; [|done]; destruct (i_trc _ _ HI t E'); congruence).
      assert (Habs : abs (set_pip s (bstep nn (pip s)))).
      { apply (abs_step s _ WEmit); [apply HI|done|]. intros x _. split; [by left|]. cbn. rewrite more_bstep by (left; congruence). done. }
      revert Habs. unfold bstep. rewrite Eb, Et. intros Habs. same HI.
      * intros H. destruct (i_seen0 H). congruence.
      * intros t. specialize (i_tok0 t). unfold tokens in *. cbn. rewrite Eb in i_tok0. destruct (Nat.eqb_spec (wth nn (tdst e)) t) as [<-|?]; [rewrite fset_eq, app_length; cbn; lia|]. rewrite fset_ne by done. lia.
      * intros t H. specialize (i_eq0 t H). unfold tokens in *. cbn. rewrite Eb in i_eq0. destruct (Nat.eqb_spec (wth nn (tdst e)) t) as [<-|?]; [rewrite fset_eq, app_length; cbn; lia|]. rewrite fset_ne by done. lia.
      * intros t H. by rewrite Hc in H.
      * intros H. congruence.
      * intros t [= <-]. apply wth_lt.
  - destruct (g || _) eqn:Eg; [|done].
    assert (Habs : abs (set_pip s (bstep nn (pip s)))).
    { destruct (bclosed (pip s)) eqn:Eb'; [destruct (i_clo _ _ HI Eb') as (? & ? & ?); congruence|].
      apply (abs_step s _ WEmit); [apply HI|done|]. intros x _. split; [by left|]. cbn. rewrite more_bstep by (right; congruence). done. }
    revert Habs. unfold bstep. rewrite Eb. intros Habs. same HI.
    * intros H. destruct (i_seen0 H). congruence.
    * intros u. specialize (i_tok0 u). unfold tokens in *. cbn. rewrite Eb in i_tok0. rewrite count_occ_app. cbn. destruct (Nat.eqb_spec t u) as [Q|?]; destruct (Nat.eq_dec _ u); try done; lia.
    * intros u H. specialize (i_eq0 u H). unfold tokens in *. cbn. rewrite Eb in i_eq0. rewrite count_occ_app. cbn. destruct (Nat.eqb_spec t u) as [Q|?]; destruct (Nat.eq_dec _ u); try done; lia.
    * intros H. destruct (i_clo0 H) as (? & ? & ?). congruence.
    * intros H. destruct (i_done0 H) as [H1 ?]. destruct (i_clo0 H1) as (? & ? & ?). congruence.
    * intros u [?|?%elem_of_list_singleton]%elem_of_app; [by apply i_ord0|]. subst. by apply i_bst0.
Qed.

Lemma inv_pass file s t : inv file s -> t < n -> inv file (pass st_ s t).
Proof.
  intros HI Ht. unfold pass. destruct (trclosed (pip s) t) eqn:Ec; [done|]. cbn [orb]. destruct (space _ _ =? 0) eqn:Esp; [done|].
  assert (Habs : forall s', pip s' = gstep t (pip s) -> gone s' = gone s -> abs s').
  { intros s' E1 E2. apply (abs_step s _ (WThread t)); [apply HI|done|]. intros x. rewrite E1, closed_gstep. intros Hx. split; [done|]. by rewrite <- more_gstep. }
  destruct (fe (pip s) t) as [|e q] eqn:Ef.
  - destruct (bclosed (pip s)) eqn:Eb.
    + revert Habs. unfold gstep. rewrite Ef, Eb. intros Habs. rewrite (fset_eq _ t true : trclosed (Pipe _ _ _ _ _ _ _ _ (fset (trclosed (pip s)) t true) _ _ _ _ _ _) t = true).
      same HI.
      * by apply Habs.
      * intros u H. destruct (decide (u = t)) as [->|Hne]; [by rewrite fset_eq in H|]. rewrite fset_ne in H by done. by apply i_eq0.
      * intros u H. split; [done|]. destruct (decide (u = t)) as [->|Hne]; [done|]. rewrite fset_ne in H by done. by apply i_trc0.
      * intros _. by apply i_clo0.
      * intros H. split; [done|]. by apply i_done0.
      * rewrite many_set by done. lia.
    + revert Habs. unfold gstep. rewrite Ef, Eb. intros Habs. rewrite Ec. by destruct s.
  - destruct (gstep_more (pip s) t e q Ef) as (G1 & G2 & G3 & G4 & G5 & G6 & G7 & G8 & r & G9). set (p := gstep t (pip s)) in *. rewrite G5, Ec.
    same HI; rewrite ?G1, ?G2, ?G3, ?G4, ?G5, ?G6, ?G7, ?G8, ?G9; try done.
    * by apply Habs.
    * intros u. specialize (i_tok0 u). unfold tokens in *. rewrite G2, G4, G6. destruct (decide (u = t)) as [->|Hne]; [rewrite !fset_eq, app_length, Ef in *; cbn in *; lia|]. by rewrite !fset_ne.
    * intros u H. specialize (i_eq0 u H). unfold tokens in *. rewrite G2, G4, G6. destruct (decide (u = t)) as [->|Hne]; [rewrite !fset_eq, app_length, Ef in *; cbn in *; lia|]. by rewrite !fset_ne.
    * intros u H. destruct (i_trc0 u H) as [? Hf]. split; [done|]. rewrite fset_ne; [done|]. congruence.
    * intros H. destruct (i_hand0 H) as (u & H1 & H2). exists u. split; [done|]. destruct (decide (u = t)) as [->|Hne]; [rewrite fset_eq; by destruct (tr (pip s) t)|by rewrite fset_ne].
Qed.

Lemma abs_rstep s s' : abs s -> gone s' = gone s -> pip s' = rstep zero nn (pip s) -> abs s'.
Proof. intros H E1 E2. apply (abs_step s _ WRemit); [done|done|]. intros x. rewrite E2, closed_rstep. intros Hx. split; [done|]. by rewrite <- more_rstep. Qed.

Lemma inv_remit file s g : inv file s -> inv file (remitter zero n sq s g).
Proof.
  intros HI.
  assert (Habs : forall s', gone s' = gone s -> pip s' = rstep zero nn (pip s) -> abs s') by (intros; by apply (abs_rstep s); [apply HI|..]).
  assert (Hh : forall b, hand s = b -> (forall t, rst (pip s) <> RLook t) -> hand s = false).
  { intros b _ H. destruct (hand s) eqn:E; [|done]. destruct (i_hand _ _ HI E) as (t & H1 & _). by destruct (H t). }
  unfold remitter. destruct (rst (pip s)) as [|t|t|] eqn:Er.
  - specialize (Hh _ eq_refl ltac:(done)).
    assert (Hm : mst s = MInput) by (destruct (mst s) eqn:Em; [done|..]; (assert (H : rst (pip s) = RDone) by (apply (i_mst _ _ HI); congruence); congruence)).
    assert (Hsc : forall u, strc s u = false) by (intros u; destruct (strc s u) eqn:E; [|done]; destruct (i_strc _ _ HI u E); congruence).
    revert Habs. unfold rstep. rewrite Er. destruct (ord (pip s)) as [|t o] eqn:Eo.
    + destruct (bclosed (pip s)) eqn:Eb.
      * intros Habs. same HI.
        -- by apply Habs.
        -- intros u. specialize (i_tok0 u). unfold tokens in *. cbn. rewrite Er, Eo in i_tok0. exact i_tok0.
        -- intros u H. specialize (i_eq0 u H). unfold tokens in *. cbn. rewrite Er, Eo in i_eq0. exact i_eq0.
        -- by intros H; rewrite Hh in H.
        -- intros u H. by apply elem_of_nil in H.
        -- intros u [?|?]; done.
        -- intros u H. by rewrite Hsc in H.
      * intros _. destruct s. exact HI.
    + intros Habs. same HI.
      * by apply Habs.
      * intros u. specialize (i_tok0 u). unfold tokens in *. cbn. rewrite Er, Eo in i_tok0. cbn in i_tok0. destruct (Nat.eqb_spec t u) as [Q|?]; destruct (Nat.eq_dec _ u); try done; lia.
      * intros u H. specialize (i_eq0 u H). unfold tokens in *. cbn. rewrite Er, Eo in i_eq0. cbn in i_eq0. destruct (Nat.eqb_spec t u) as [Q|?]; destruct (Nat.eq_dec _ u); try done; lia.
      * intros H. by rewrite Hh in H.
      * intros u H. apply i_ord0. rewrite Eo. by apply elem_of_list_further.
      * intros u [[= <-]|?]; [|done]. apply i_ord0. rewrite Eo. apply elem_of_list_here.
      * intros u H. by rewrite Hsc in H.
  - assert (Hm : mst s = MInput) by (destruct (mst s) eqn:Em; [done|..]; (assert (H : rst (pip s) = RDone) by (apply (i_mst _ _ HI); congruence); congruence)).
    assert (Hsc : forall u, strc s u = false) by (intros u; destruct (strc s u) eqn:E; [|done]; destruct (i_strc _ _ HI u E); congruence).
    destruct (tr (pip s) t) as [|r q] eqn:Et.
    + assert (Hh' : hand s = false). { destruct (hand s) eqn:E; [|done]. destruct (i_hand _ _ HI E) as (u & H1 & H2). congruence. }
      revert Habs. unfold rstep. rewrite Er, Et. intros Habs. same HI.
      * by apply Habs.
      * intros u. specialize (i_tok0 u). unfold tokens in *. cbn. rewrite Er in i_tok0. exact i_tok0.
      * intros u H. specialize (i_eq0 u H). unfold tokens in *. cbn. rewrite Er in i_eq0. exact i_eq0.
      * intros H. by rewrite Hh' in H.
      * intros u [?|[= <-]]; [done|]. apply i_rst0. by left.
      * intros u H. by rewrite Hsc in H.
    + destruct (hand s) eqn:Eh.
      2: { same HI; try (intros H; by rewrite Hsc in H). intros _. exists t. split; [done|]. congruence. }
      unfold hand_on. destruct (g || _) eqn:Eg; [|done]. revert Habs. unfold rstep. rewrite Er, Et. unfold remit. intros Habs. same HI.
      * by apply Habs.
      * intros u. specialize (i_tok0 u). unfold tokens in *. cbn. rewrite Er in i_tok0. destruct (Nat.eqb_spec t u) as [Q|?]; [subst u; rewrite fset_eq, Et in *; cbn in *; lia|]. rewrite fset_ne by done. lia.
      * intros u H. specialize (i_eq0 u H). unfold tokens in *. cbn. rewrite Er in i_eq0. destruct (Nat.eqb_spec t u) as [Q|?]; [subst u; rewrite fset_eq, Et in *; cbn in *; lia|]. rewrite fset_ne by done. lia.
      * intros u [?|?]; done.
      * intros u H. by rewrite Hsc in H.
  - specialize (Hh _ eq_refl ltac:(done)).
    assert (Hm : mst s = MInput) by (destruct (mst s) eqn:Em; [done|..]; (assert (H : rst (pip s) = RDone) by (apply (i_mst _ _ HI); congruence); congruence)).
    assert (Hsc : forall u, strc s u = false) by (intros u; destruct (strc s u) eqn:E; [|done]; destruct (i_strc _ _ HI u E); congruence).
    destruct (trclosed (pip s) t) eqn:Ec.
    + unfold hand_on. destruct (g || _) eqn:Eg; [|done]. revert Habs. unfold rstep. rewrite Er, Ec. unfold remit. intros Habs. same HI.
      * by apply Habs.
      * intros u. specialize (i_tok0 u). unfold tokens in *. cbn. rewrite Er in i_tok0. destruct (decide (u = t)) as [->|Hne]; [rewrite fset_eq; lia|]. rewrite fset_ne by done. lia.
      * intros u H. specialize (i_eq0 u H). unfold tokens in *. cbn. rewrite Er in i_eq0. destruct (Nat.eqb_spec t u) as [Q|?]; [congruence|]. rewrite fset_ne by done. lia.
      * intros u [?|?]; done.
      * intros u H. by rewrite Hsc in H.
    + revert Habs. unfold rstep. rewrite Er, Ec. intros Habs. same HI.
      * by apply Habs.
      * intros u. specialize (i_tok0 u). unfold tokens in *. cbn. rewrite Er in i_tok0. exact i_tok0.
      * intros u H. specialize (i_eq0 u H). unfold tokens in *. cbn. rewrite Er in i_eq0. exact i_eq0.
      * intros H. by rewrite Hh in H.
      * intros u [[= <-]|?]; [|done]. apply i_rst0. by right.
      * intros u H. by rewrite Hsc in H.
  - unfold rstep. rewrite Er. destruct s. exact HI.
Qed.

Lemma inv_take file s t : inv file s -> t < n -> inv file (taking s t).
Proof.
  intros HI Ht. unfold taking. destruct (strc s t) eqn:Es; [done|]. destruct (tq (pip s) t) as [|r q] eqn:Eq.
  - destruct (rst (pip s)) eqn:Er; try done. same HI.
    + intros u H. split; [done|]. destruct (decide (u = t)) as [->|Hne]; [done|]. rewrite fset_ne in H by done. by apply i_strc0.
    + rewrite many_set by done. lia.
  - assert (Habs : abs (set_pip s (tstep t (pip s)))).
    { apply (abs_step s _ (WTake t)); [apply HI|done|]. intros x. cbn. rewrite closed_tstep. intros Hx. split; [done|]. by rewrite <- more_tstep. }
    revert Habs. unfold tstep. rewrite Eq. intros Habs. same HI.
    intros u H. destruct (i_strc0 u H) as [? H']. split; [done|]. rewrite fset_ne; [done|]. congruence.
Qed.

Lemma inv_main file s : inv file s -> inv file (main n s).
Proof.
  intros HI. unfold main. destruct (mst s) as [|[|j]|[|j]|] eqn:Em; [| | | | |done].
  - destruct (rst (pip s)) eqn:Er; try done. same HI.
    + rewrite Em in i_nrem0. cbn in i_nrem0. lia.
    + rewrite Em in i_nevt0. cbn in i_nevt0. lia.
  - same HI.
    + intros _. apply i_mst0. congruence.
    + rewrite Em in i_nrem0. cbn in i_nrem0. lia.
    + rewrite Em in i_nevt0. cbn in i_nevt0. lia.
  - destruct (Nat.eqb_spec (nrem s) 0); [done|]. same HI; rewrite ?Em in *; cbn in *; try lia. intros _. by apply i_mst0.
  - same HI; rewrite ?Em in *; cbn in *; try lia. intros _. by apply i_mst0.
  - destruct (Nat.eqb_spec (nevt s) 0); [done|]. same HI; rewrite ?Em in *; cbn in *; try lia. intros _. by apply i_mst0.
Qed.

Lemma inv_step file s a : inv file s -> inv file (fstep s a).
Proof.
  intros HI. destruct a as [i|g|t|g|t|]; cbn [Flow_Model.fstep].
  - destruct (Nat.ltb_spec i k); [by apply inv_read|done].
  - by apply inv_emit.
  - destruct (Nat.ltb_spec t n); [by apply inv_pass|done].
  - by apply inv_remit.
  - destruct (Nat.ltb_spec t n); [by apply inv_take|done].
  - by apply inv_main.
Qed.
Lemma inv_run file l : forall s, inv file s -> inv file (frun s l).
Proof. induction l as [|a l IH]; intros s HI; [done|]. cbn. by apply IH, inv_step. Qed.
Context (Hsl : 0 < sl) (Hsf : 0 < sf) (Hso : 0 < so) (Hst : 1 < st_) (Hsq : 0 < sq).

(** ** What is left to do *)
Fixpoint wl (c : nat) (l : list (list (tev P))) : nat := match l with [] => 0 | x :: l => 4 * c + 36 * length x + wl c l end.
Lemma wl_app c l l' : wl c (l ++ l') = wl c l + wl c l'.
Proof. induction l as [|x l IH]; cbn; [done|]. rewrite IH. lia. Qed.
Definition lines s i : nat := wl 3 (src s i) + wl 2 (lq s i).
Definition ebit s : nat :=
  if over s then 0 else match src s (cur s) with
  | [] => if eseen s then 1 else 2
  | _ => if eseen s then match lq s (cur s) with [] => 0 | _ => 1 end else 0
  end.
Definition bw p : nat := match bst p with BPut => 0 | BOrder _ => 28 end.
Definition rw s : nat :=
  match rst (pip s) with RGet => 4 | RLook _ => if hand s then 20 else 24 | RSeen t => 24 + match tr (pip s) t with [] => 0 | _ => 1 end | RDone => 0 end.
Definition thread s t : nat :=
  4 * length (fe (pip s) t) + 8 * length (tq (pip s) t) + (if trclosed (pip s) t then 0 else 4) + (if strc s t then 0 else 4).
Definition mw (m : mpc) : nat := match m with MInput => 4 * (2 * n + 3) | MRemits j => 4 * (n + 2 + j) | MEvents j => 4 * (1 + j) | MAlg => 0 end.
Definition mu s : nat :=
  sumf k (lines s) + 36 * length (todo (pip s)) + bw (pip s) + 24 * length (ord (pip s)) + rw s + sumf n (thread s) +
  (if over s then 0 else 8) + (if bclosed (pip s) then 0 else 4) + mw (mst s) + ebit s.

Lemma ebit_le s : ebit s <= 2.
Proof. unfold ebit. destruct (over s); [lia|]. destruct (src s (cur s)), (eseen s); try lia. destruct (lq s (cur s)); lia. Qed.

(** Steps that only look. *)
Definition unseen s b : flow := Flow (src s) (lq s) (cur s) b (over s) (pip s) (hand s) (strc s) (mst s) (nrem s) (nevt s) (gone s).
Inductive looked s : flow -> Prop :=
  | L_same : looked s s
  | L_look t : rst (pip s) = RLook t -> tr (pip s) t = [] -> looked s (set_pip s (rmove (pip s) (ord (pip s)) (RSeen t)))
  | L_back t : rst (pip s) = RSeen t -> tr (pip s) t = [] -> trclosed (pip s) t = false -> looked s (set_pip s (rmove (pip s) (ord (pip s)) (RLook t)))
  | L_seen b : lq s (cur s) = [] -> src s (cur s) <> [] -> looked s (unseen s b).

Lemma mu_read s i : i < k -> looked s (read sl s i) \/ mu (read sl s i) < mu s.
Proof.
  intros Hi. unfold read. destruct (src s i) as [|x r] eqn:E; [left; constructor|]. destruct (_ <? _); [|left; constructor]. right.
  unfold mu. cbn. match goal with |- context [sumf k (lines ?f)] => set (s' := f) end.
  pose proof (sumf_upd k (lines s) (lines s') i Hi) as Hs. assert (H : forall u, u <> i -> lines s' u = lines s u) by (intros u Hu; unfold lines; cbn; by rewrite !fset_ne).
  specialize (Hs H). unfold lines at 2 4 in Hs. cbn in Hs. rewrite !fset_eq, E, wl_app in Hs. cbn in Hs.
  pose proof (ebit_le s'). assert (rw s' = rw s) as -> by done. assert (sumf n (thread s') = sumf n (thread s)) as -> by done. lia.
Qed.
Lemma mu_get s : bst (pip s) = BPut -> todo (pip s) = [] -> over s = false -> cur s < k -> looked s (get k s) \/ mu (get k s) < mu s.
Proof.
  intros Eb Et Ho Hc. unfold get. destruct (eseen s) eqn:Es.
  - destruct (src s (cur s)) as [|y r] eqn:E.
    + right. unfold mu, rw, ebit. cbn. rewrite Ho. match goal with |- context [sumf n (thread ?f)] => assert (sumf n (thread f) = sumf n (thread s)) as -> by done end. match goal with |- context [sumf k (lines ?f)] => assert (sumf k (lines f) = sumf k (lines s)) as -> by done end. lia.
    + destruct (lq s (cur s)) as [|x q] eqn:El.
      * left. apply (L_seen s false); [done|congruence].
      * right. unfold mu, rw, ebit. cbn. rewrite Ho, E, Es, El. match goal with |- context [sumf n (thread ?f)] => assert (sumf n (thread f) = sumf n (thread s)) as -> by done end. match goal with |- context [sumf k (lines ?f)] => assert (sumf k (lines f) = sumf k (lines s)) as -> by done end. lia.
  - destruct (lq s (cur s)) as [|x q] eqn:El.
    + destruct (src s (cur s)) as [|y r] eqn:E.
      * right. unfold mu, rw, ebit. cbn. rewrite Ho, E, Es. match goal with |- context [sumf n (thread ?f)] => assert (sumf n (thread f) = sumf n (thread s)) as -> by done end. match goal with |- context [sumf k (lines ?f)] => assert (sumf k (lines f) = sumf k (lines s)) as -> by done end. lia.
      * left. apply (L_seen s true); [done|congruence].
    + right. match goal with |- mu ?f < _ => set (s' := f) end.
      pose proof (sumf_upd k (lines s) (lines s') (cur s) Hc) as Hs. assert (H : forall u, u <> cur s -> lines s' u = lines s u) by (intros u Hu; unfold lines; cbn; by rewrite !fset_ne).
      specialize (Hs H). unfold lines at 2 4 in Hs. cbn in Hs. rewrite !fset_eq, El in Hs. cbn in Hs. pose proof (ebit_le s').
      unfold mu. assert (rw s' = rw s) as -> by done. assert (sumf n (thread s') = sumf n (thread s)) as -> by done. assert (todo (pip s') = x) as -> by done. rewrite Et.
      assert (bw (pip s') = bw (pip s)) as -> by done. assert (ord (pip s') = ord (pip s)) as -> by done. assert (over s' = over s) as -> by done. assert (mst s' = mst s) as -> by done. assert (bclosed (pip s') = bclosed (pip s)) as -> by done. cbn. lia.
Qed.
Lemma mu_emit file s g : inv file s -> looked s (emit k n sf so s g) \/ mu (emit k n sf so s g) < mu s.
Proof.
  intros HI. unfold emit. destruct (bst (pip s)) as [|t] eqn:Eb.
  - destruct (todo (pip s)) as [|e l] eqn:Et.
    + destruct (over s) eqn:Eo.
      * unfold bstep. rewrite Eb, Et. destruct (bclosed (pip s)) eqn:Ec.
        -- left. match goal with |- looked _ ?f => assert (f = s) as -> end; [|constructor]. destruct s as [? ? ? ? ? p]. cbn in *. unfold set_pip. cbn. destruct p; cbn in *. congruence.
        -- right. unfold mu, rw, bw, ebit. cbn. rewrite Eo, Eb, Et, Ec. match goal with |- context [sumf n (thread ?f)] => assert (sumf n (thread f) = sumf n (thread s)) as -> by done end. match goal with |- context [sumf k (lines ?f)] => assert (sumf k (lines f) = sumf k (lines s)) as -> by done end. cbn. lia.
      * destruct (mu_get s Eb Et Eo) as [?|?]; [|by left|by right]. destruct (i_deal _ _ HI) as (r & _ & -> & _). apply Nat.mod_upper_bound. lia.
    + destruct (g || _) eqn:Eg; [|left; constructor]. right. unfold bstep. rewrite Eb, Et. match goal with |- mu ?f < _ => set (s' := f) end.
      pose proof (sumf_upd n (thread s) (thread s') (wth nn (tdst e)) (wth_lt _)) as Hs. assert (H : forall u, u <> wth nn (tdst e) -> thread s' u = thread s u) by (intros u Hu; unfold thread; cbn; by rewrite !fset_ne).
      specialize (Hs H). unfold thread at 2 4 in Hs. cbn in Hs. rewrite !fset_eq, app_length in Hs. cbn in Hs.
      unfold mu. assert (rw s' = rw s) as -> by done. assert (sumf k (lines s') = sumf k (lines s)) as -> by done. assert (todo (pip s') = l) as -> by done. rewrite Et.
      assert (bw (pip s') = 28) as -> by done. assert (ord (pip s') = ord (pip s)) as -> by done. assert (over s' = over s) as -> by done. assert (mst s' = mst s) as -> by done. assert (bclosed (pip s') = bclosed (pip s)) as -> by done. assert (ebit s' = ebit s) as -> by done. subst s'. cbn [length pip over mst set_hand set_pip]. lia.
  - destruct (g || _) eqn:Eg; [|left; constructor]. right. unfold bstep. rewrite Eb. match goal with |- mu ?f < _ => set (s' := f) end.
    unfold mu. assert (rw s' = rw s) as -> by done. assert (sumf k (lines s') = sumf k (lines s)) as -> by done. assert (sumf n (thread s') = sumf n (thread s)) as -> by done. assert (todo (pip s') = todo (pip s)) as -> by done.
    assert (bw (pip s') = 0) as -> by done. assert (bw (pip s) = 28) as -> by (unfold bw; by rewrite Eb). assert (ord (pip s') = ord (pip s) ++ [t]) as -> by done. assert (over s' = over s) as -> by done. assert (mst s' = mst s) as -> by done. assert (bclosed (pip s') = bclosed (pip s)) as -> by done. assert (ebit s' = ebit s) as -> by done. rewrite app_length. cbn. lia.
Qed.

Lemma mu_pass s t : t < n -> looked s (pass st_ s t) \/ mu (pass st_ s t) < mu s.
Proof.
  intros Ht. unfold pass. destruct (trclosed (pip s) t) eqn:Ec; [left; constructor|]. cbn [orb]. destruct (space _ _ =? 0); [left; constructor|].
  destruct (fe (pip s) t) as [|e q] eqn:Ef.
  - unfold gstep. rewrite Ef. destruct (bclosed (pip s)) eqn:Eb.
    + right. match goal with |- mu ?f < _ => set (s' := f) end.
      pose proof (sumf_upd n (thread s) (thread s') t Ht) as Hs. assert (H : forall u, u <> t -> thread s' u = thread s u) by (intros u Hu; unfold thread; cbn; by rewrite !fset_ne).
      specialize (Hs H). unfold thread at 2 4 in Hs. cbn in Hs. rewrite !fset_eq, Ec in Hs.
      unfold mu. assert (rw s' = rw s) as -> by done. assert (sumf k (lines s') = sumf k (lines s)) as -> by done. assert (todo (pip s') = todo (pip s)) as -> by done.
      assert (bw (pip s') = bw (pip s)) as -> by done. assert (ord (pip s') = ord (pip s)) as -> by done. assert (over s' = over s) as -> by done. assert (mst s' = mst s) as -> by done. assert (bclosed (pip s') = true) as -> by (subst s'; cbn; done || by rewrite Eb). assert (ebit s' = ebit s) as -> by done. rewrite Eb. lia.
    + left. rewrite Ec. destruct s. constructor.
  - right. destruct (gstep_more (pip s) t e q Ef) as (G1 & G2 & G3 & G4 & G5 & G6 & G7 & G8 & r & G9). set (p := gstep t (pip s)) in *. match goal with |- mu ?f < _ => set (s' := f) end.
    pose proof (sumf_upd n (thread s) (thread s') t Ht) as Hs. assert (H : forall u, u <> t -> thread s' u = thread s u) by (intros u Hu; unfold thread; cbn; rewrite G5, G7, G8; by rewrite !fset_ne).
    specialize (Hs H). unfold thread at 2 4 in Hs. cbn in Hs. rewrite G5, G7, G8, !fset_eq, Ef in Hs. cbn in Hs.
    assert (Hr : rw s' <= rw s + 1). { unfold rw, s'. cbn. rewrite G6, G9. destruct (rst (pip s)) as [|u|u|]; try lia. destruct (decide (u = t)) as [->|Hne]; [rewrite fset_eq; destruct (tr (pip s) t); cbn; lia|]. rewrite fset_ne by done. lia. }
    unfold mu. assert (sumf k (lines s') = sumf k (lines s)) as -> by done. assert (todo (pip s') = todo (pip s)) as -> by done.
    assert (bw (pip s') = bw (pip s)) as -> by (unfold bw; cbn; by rewrite G2). assert (ord (pip s') = ord (pip s)) as -> by done. assert (over s' = over s) as -> by done. assert (mst s' = mst s) as -> by done. assert (bclosed (pip s') = bclosed (pip s)) as -> by done. assert (ebit s' = ebit s) as -> by done. lia.
Qed.

Lemma mu_remit file s g : inv file s -> looked s (remitter zero n sq s g) \/ mu (remitter zero n sq s g) < mu s.
Proof.
  intros HI. unfold remitter. destruct (rst (pip s)) as [|t|t|] eqn:Er.
  - unfold rstep. rewrite Er. destruct (ord (pip s)) as [|t o] eqn:Eo.
    + destruct (bclosed (pip s)) eqn:Eb; [|left; destruct s; constructor]. right. match goal with |- mu ?f < _ => set (s' := f) end.
      unfold mu. assert (rw s' = 0) as -> by done. assert (rw s = 4) as -> by (unfold rw; by rewrite Er). assert (sumf k (lines s') = sumf k (lines s)) as -> by done. assert (todo (pip s') = todo (pip s)) as -> by done. assert (sumf n (thread s') = sumf n (thread s)) as -> by done.
      assert (bw (pip s') = bw (pip s)) as -> by done. assert (ord (pip s') = []) as -> by done. assert (over s' = over s) as -> by done. assert (mst s' = mst s) as -> by done. assert (bclosed (pip s') = bclosed (pip s)) as -> by done. assert (ebit s' = ebit s) as -> by done. rewrite Eo. cbn [length]. lia.
    + right. match goal with |- mu ?f < _ => set (s' := f) end. assert (rw s' <= 24) by (unfold rw; cbn; destruct (hand s); lia).
      unfold mu. assert (rw s = 4) as -> by (unfold rw; by rewrite Er). assert (sumf k (lines s') = sumf k (lines s)) as -> by done. assert (todo (pip s') = todo (pip s)) as -> by done. assert (sumf n (thread s') = sumf n (thread s)) as -> by done.
      assert (bw (pip s') = bw (pip s)) as -> by done. assert (ord (pip s') = o) as -> by done. assert (over s' = over s) as -> by done. assert (mst s' = mst s) as -> by done. assert (bclosed (pip s') = bclosed (pip s)) as -> by done. assert (ebit s' = ebit s) as -> by done. rewrite Eo. cbn [length]. lia.
  - destruct (tr (pip s) t) as [|r q] eqn:Et.
    + left. unfold rstep. rewrite Er, Et. by apply L_look.
    + destruct (hand s) eqn:Eh.
      * unfold hand_on. destruct (g || _); [|left; constructor]. right. unfold rstep. rewrite Er, Et. unfold remit. match goal with |- mu ?f < _ => set (s' := f) end.
        set (d := wth nn (rsrc r)) in *.
        pose proof (sumf_upd n (thread s) (thread s') d (wth_lt _)) as Hs. assert (H : forall u, u <> d -> thread s' u = thread s u) by (intros u Hu; unfold thread; cbn; by rewrite !fset_ne).
        specialize (Hs H). unfold thread at 2 4 in Hs. cbn in Hs. rewrite !fset_eq, app_length in Hs. cbn in Hs.
        unfold mu. assert (rw s' = 4) as -> by done. assert (rw s = 20) as -> by (unfold rw; by rewrite Er, Eh). assert (sumf k (lines s') = sumf k (lines s)) as -> by done. assert (todo (pip s') = todo (pip s)) as -> by done.
        assert (bw (pip s') = bw (pip s)) as -> by done. assert (ord (pip s') = ord (pip s)) as -> by done. assert (over s' = over s) as -> by done. assert (mst s' = mst s) as -> by done. assert (bclosed (pip s') = bclosed (pip s)) as -> by done. assert (ebit s' = ebit s) as -> by done. lia.
      * right. match goal with |- mu ?f < _ => set (s' := f) end. unfold mu. assert (rw s' = 20) as -> by (unfold rw; cbn; by rewrite Er). assert (rw s = 24) as -> by (unfold rw; by rewrite Er, Eh).
        assert (sumf k (lines s') = sumf k (lines s)) as -> by done. assert (sumf n (thread s') = sumf n (thread s)) as -> by done. assert (ebit s' = ebit s) as -> by done. subst s'. cbn [length pip over mst set_hand set_pip]. lia.
  - destruct (trclosed (pip s) t) eqn:Ec.
    + unfold hand_on. destruct (g || _); [|left; constructor]. right. unfold rstep. rewrite Er, Ec. unfold remit. match goal with |- mu ?f < _ => set (s' := f) end.
      set (d := wth nn 0) in *.
      pose proof (sumf_upd n (thread s) (thread s') d (wth_lt _)) as Hs. assert (H : forall u, u <> d -> thread s' u = thread s u) by (intros u Hu; unfold thread; cbn; fold d; by rewrite !fset_ne).
      specialize (Hs H). unfold thread at 2 4 in Hs. cbn in Hs. fold d in Hs. rewrite !fset_eq, app_length in Hs. cbn in Hs.
      unfold mu. assert (rw s' = 4) as -> by done. assert (24 <= rw s) by (unfold rw; rewrite Er; lia). assert (sumf k (lines s') = sumf k (lines s)) as -> by done. assert (todo (pip s') = todo (pip s)) as -> by done.
      assert (bw (pip s') = bw (pip s)) as -> by done. assert (ord (pip s') = ord (pip s)) as -> by done. assert (over s' = over s) as -> by done. assert (mst s' = mst s) as -> by done. assert (bclosed (pip s') = bclosed (pip s)) as -> by done. assert (ebit s' = ebit s) as -> by done. lia.
    + unfold rstep. rewrite Er, Ec. destruct (tr (pip s) t) as [|r q] eqn:Et; [left; by apply L_back|]. right. match goal with |- mu ?f < _ => set (s' := f) end.
      unfold mu. assert (rw s' <= 24) by (unfold rw; cbn; destruct (hand s); lia). assert (rw s = 25) as -> by (unfold rw; by rewrite Er, Et).
      assert (sumf k (lines s') = sumf k (lines s)) as -> by done. assert (sumf n (thread s') = sumf n (thread s)) as -> by done. assert (ebit s' = ebit s) as -> by done. assert (bw (pip s') = bw (pip s)) as -> by done. assert (mst s' = mst s) as -> by done. assert (over s' = over s) as -> by done. assert (bclosed (pip s') = bclosed (pip s)) as -> by done. assert (ord (pip s') = ord (pip s)) as -> by done. assert (todo (pip s') = todo (pip s)) as -> by done. lia.
  - left. unfold rstep. rewrite Er. destruct s. constructor.
Qed.

Lemma mu_take s t : t < n -> looked s (taking s t) \/ mu (taking s t) < mu s.
Proof.
  intros Ht. unfold taking. destruct (strc s t) eqn:Es; [left; constructor|]. destruct (tq (pip s) t) as [|r q] eqn:Eq.
  - destruct (rst (pip s)) eqn:Er; try (left; constructor). right. match goal with |- mu ?f < _ => set (s' := f) end.
    pose proof (sumf_upd n (thread s) (thread s') t Ht) as Hs. assert (H : forall u, u <> t -> thread s' u = thread s u) by (intros u Hu; unfold thread; cbn; by rewrite !fset_ne).
    specialize (Hs H). unfold thread at 2 4 in Hs. cbn in Hs. rewrite !fset_eq, Es in Hs.
    unfold mu. assert (rw s' = rw s) as -> by done. assert (sumf k (lines s') = sumf k (lines s)) as -> by done. assert (ebit s' = ebit s) as -> by done. subst s'. cbn [pip over mst] in *. lia.
  - right. unfold tstep. rewrite Eq. match goal with |- mu ?f < _ => set (s' := f) end.
    pose proof (sumf_upd n (thread s) (thread s') t Ht) as Hs. assert (H : forall u, u <> t -> thread s' u = thread s u) by (intros u Hu; unfold thread; cbn; by rewrite !fset_ne).
    specialize (Hs H). unfold thread at 2 4 in Hs. cbn in Hs. rewrite !fset_eq, Eq, Es in Hs. cbn in Hs.
    unfold mu. assert (rw s' = rw s) as -> by done. assert (sumf k (lines s') = sumf k (lines s)) as -> by done. assert (ebit s' = ebit s) as -> by done. assert (bw (pip s') = bw (pip s)) as -> by done. assert (mst s' = mst s) as -> by done. assert (over s' = over s) as -> by done. assert (bclosed (pip s') = bclosed (pip s)) as -> by done. assert (ord (pip s') = ord (pip s)) as -> by done. assert (todo (pip s') = todo (pip s)) as -> by done. lia.
Qed.

Lemma mu_main s : looked s (main n s) \/ mu (main n s) < mu s.
Proof.
  assert (G : forall m r e, mw m < mw (mst s) -> mu (Flow (src s) (lq s) (cur s) (eseen s) (over s) (pip s) (hand s) (strc s) m r e (gone s)) < mu s).
  { intros m r e H. match goal with |- mu ?f < _ => set (s' := f) end. unfold mu. assert (rw s' = rw s) as -> by done. assert (sumf k (lines s') = sumf k (lines s)) as -> by done. assert (ebit s' = ebit s) as -> by done. assert (sumf n (thread s') = sumf n (thread s)) as -> by done. subst s'. cbn [pip over mst] in *. lia. }
  unfold main. destruct (mst s) as [|[|j]|[|j]|] eqn:Em; [| | | | |left; constructor].
  - destruct (rst (pip s)); try (left; constructor). right. apply G. cbn. lia.
  - right. apply G. cbn. lia.
  - destruct (_ =? _); [left; constructor|right; apply G; cbn; lia].
  - right. apply G. cbn. lia.
  - destruct (_ =? _); [left; constructor|right; apply G; cbn; lia].
Qed.

Lemma mu_step file s a : inv file s -> looked s (fstep s a) \/ mu (fstep s a) < mu s.
Proof.
  intros HI. destruct a as [i|g|t|g|t|]; cbn [Flow_Model.fstep].
  - destruct (Nat.ltb_spec i k); [by apply mu_read|left; constructor].
  - by apply (mu_emit file).
  - destruct (Nat.ltb_spec t n); [by apply mu_pass|left; constructor].
  - by apply (mu_remit file).
  - destruct (Nat.ltb_spec t n); [by apply mu_take|left; constructor].
  - by apply mu_main.
Qed.
Lemma looked_mu file s s' : inv file s -> looked s s' -> mu s' = mu s.
Proof.
  intros HI H. destruct H as [|t Er Et|t Er Et Ec|b El Es]; [done| | |].
  - assert (Hh : hand s = false). { destruct (hand s) eqn:E; [|done]. destruct (i_hand _ _ HI E) as (u & H1 & H2). congruence. }
    unfold mu. match goal with |- context [sumf n (thread ?f)] => set (s' := f) end. assert (rw s' = rw s) as ->; [|done]. unfold rw, s'. cbn. by rewrite Er, Et, Hh.
  - assert (Hh : hand s = false). { destruct (hand s) eqn:E; [|done]. destruct (i_hand _ _ HI E) as (u & H1 & H2). congruence. }
    unfold mu. match goal with |- context [sumf n (thread ?f)] => set (s' := f) end. assert (rw s' = rw s) as ->; [|done]. unfold rw, s'. cbn. by rewrite Er, Et, Hh.
  - unfold mu. match goal with |- context [sumf n (thread ?f)] => set (s' := f) end. assert (ebit s' = ebit s) as ->; [|done]. unfold ebit, s'. cbn. destruct (over s); [done|]. destruct (src s (cur s)); [done|]. rewrite El. by destruct b, (eseen s).
Qed.

(** ** Somebody can always go on *)
Definition ready s (a : factor) : Prop :=
  match a with
  | FRead i => i < k /\ src s i <> [] /\ lq s i = []
  | FEmit _ => match bst (pip s), todo (pip s) with
      | BOrder _, _ => ord (pip s) = []
      | BPut, e :: _ => fe (pip s) (wth nn (tdst e)) = []
      | BPut, [] => if over s then bclosed (pip s) = false else lq s (cur s) <> [] \/ src s (cur s) = []
      end
  | FPass t => t < n /\ trclosed (pip s) t = false /\ tr (pip s) t = [] /\ (fe (pip s) t <> [] \/ bclosed (pip s) = true)
  | FRemit _ => (forall t, t < n -> tq (pip s) t = []) /\ match rst (pip s) with
      | RGet => ord (pip s) <> [] \/ bclosed (pip s) = true
      | RLook t => tr (pip s) t <> []
      | RSeen t => tr (pip s) t <> [] \/ trclosed (pip s) t = true
      | RDone => False
      end
  | FTake t => t < n /\ strc s t = false /\ (tq (pip s) t <> [] \/ rst (pip s) = RDone)
  | FMain => match mst s with MInput => rst (pip s) = RDone | MRemits j => j = 0 \/ nrem s <> 0 | MEvents j => j = 0 \/ nevt s <> 0 | MAlg => False end
  end.
Lemma ready_looked s s' a : looked s s' -> ready s a -> ready s' a.
Proof.
  intros H. destruct H as [|t Er Et|t Er Et Ec|b El Es]; [done| | |]; destruct a as [i|g|u|g|u|]; cbn; try done.
  - intros [? ?]. split; [done|]. left. rewrite Er in *. done.
  - intros (? & ? & [?|?]); split_and!; try done; [by left|congruence].
  - destruct (mst s); try done. congruence.
  - intros [? H]. rewrite Er in H. split; [done|]. destruct H; congruence.
  - intros (? & ? & [?|?]); split_and!; try done; [by left|congruence].
  - destruct (mst s); try done. congruence.
Qed.

Lemma looked_same s s' : looked s s' ->
  (lq s' = lq s /\ over s' = over s /\ gone s' = gone s /\ strc s' = strc s /\ mst s' = mst s /\ hand s' = hand s) /\
  (bst (pip s') = bst (pip s) /\ bclosed (pip s') = bclosed (pip s) /\ fe (pip s') = fe (pip s) /\ trclosed (pip s') = trclosed (pip s) /\ tq (pip s') = tq (pip s)) /\
  (eseen s' = eseen s \/ (lq s (cur s) = [] /\ src s (cur s) <> [])) /\
  (rst (pip s') = rst (pip s) \/ exists t, (rst (pip s) = RLook t \/ (rst (pip s) = RSeen t /\ trclosed (pip s) t = false)) /\ tr (pip s) t = []).
Proof.
  intros H. destruct H as [|t Er Et|t Er Et Ec|b El Es]; cbn; split_and!; try done; try (by left); try (by right).
  - right. exists t. split; [by left|done].
  - right. exists t. split; [by right|done].
Qed.

Lemma ready_less file s a : inv file s -> ready s a -> mu (fstep s a) < mu s.
Proof.
  intros HI Hr. destruct (mu_step file s a HI) as [Hl|?]; [exfalso|done].
  destruct (looked_same _ _ Hl) as ((L1 & L2 & L3 & L4 & L5 & L6) & (L7 & L8 & L9 & L10 & L11) & L12 & L13). clear Hl.
  destruct a as [i|g|t|g|t|]; cbn [Flow_Model.fstep ready] in *.
  - destruct Hr as (Hi & H1 & H2). destruct (Nat.ltb_spec i k); [|lia]. unfold read in *. destruct (src s i) as [|x r]; [done|]. rewrite H2 in *. cbn [length] in L1. destruct (Nat.ltb_spec 0 sl); [|lia].
    cbn in L1. apply (f_equal (fun f => f i)) in L1. rewrite fset_eq in L1. congruence.
  - unfold emit in *. destruct (bst (pip s)) as [|t] eqn:Eb.
    + destruct (todo (pip s)) as [|e l] eqn:Et.
      * destruct (over s) eqn:Eo.
        -- unfold bstep in L8. rewrite Eb, Et in L8. cbn in L8. congruence.
        -- unfold get in *. destruct (eseen s) eqn:Es.
           ++ destruct (src s (cur s)) eqn:E; cbn in L2, L12; [congruence|]. destruct L12 as [?|[? _]]; [done|]. destruct Hr; congruence.
           ++ destruct (lq s (cur s)) as [|x q] eqn:El.
              ** cbn in L12. destruct L12 as [?|[_ ?]]; [done|]. destruct Hr; congruence.
              ** cbn in L3. apply (f_equal length) in L3. rewrite app_length in L3. cbn in L3. lia.
      * rewrite Hr in L7. cbn [length] in L7. destruct (Nat.ltb_spec 0 sf); [|lia]. rewrite orb_true_r in L7. unfold bstep in L7. rewrite Eb, Et in L7. done.
    + rewrite Hr in L7. cbn [length] in L7. destruct (Nat.ltb_spec 0 so); [|lia]. rewrite orb_true_r in L7. unfold bstep in L7. rewrite Eb in L7. done.
  - destruct Hr as (Ht & H1 & H2 & H3). destruct (Nat.ltb_spec t n); [|lia]. unfold pass in *. rewrite H1 in *. cbn [orb] in *.
    assert (Hsp : space st_ (waiting s t) =? 0 = false) by (apply Nat.eqb_neq; unfold space, waiting; rewrite H2; cbn; lia). rewrite Hsp in *.
    destruct (fe (pip s) t) as [|e q] eqn:Ef.
    + destruct H3 as [?|H3]; [done|]. cbn in L10. unfold gstep in L10. rewrite Ef, H3 in L10. cbn in L10. apply (f_equal (fun f => f t)) in L10. rewrite fset_eq in L10. congruence.
    + destruct (gstep_more (pip s) t e q Ef) as (_ & _ & _ & _ & _ & _ & _ & G8 & _). cbn in L9. rewrite G8 in L9. apply (f_equal (fun f => f t)) in L9. rewrite fset_eq, Ef in L9. apply (f_equal length) in L9. cbn in L9. lia.
  - destruct Hr as [Hq Hr]. unfold remitter, hand_on in *. destruct (rst (pip s)) as [|t|t|] eqn:Er.
    + assert (rst (pip (set_pip s (rstep zero nn (pip s)))) <> RGet). { cbn. unfold rstep. rewrite Er. destruct (ord (pip s)); [|done]. destruct Hr as [?| ->]; done. }
      destruct L13 as [?|(t & [?|[? _]] & _)]; done.
    + destruct (tr (pip s) t) as [|r q] eqn:Et; [done|]. destruct (hand s) eqn:Eh; [|done]. rewrite Hq in * by apply wth_lt. cbn [length] in *. destruct (Nat.ltb_spec 0 sq); [|lia]. rewrite orb_true_r in *. done.
    + destruct (trclosed (pip s) t) eqn:Ec.
      * rewrite Hq in * by apply wth_lt. cbn [length] in *. destruct (Nat.ltb_spec 0 sq); [|lia]. rewrite orb_true_r in *. cbn in L13. unfold rstep in L13. rewrite Er, Ec in L13. cbn in L13. destruct L13 as [?|(u & [?|[[= <-] ?]] & ?)]; [done|done|]. congruence.
      * destruct Hr as [Hr|?]; [|done]. cbn in L13. unfold rstep in L13. rewrite Er, Ec in L13. cbn in L13. destruct L13 as [?|(u & [?|[[= <-] ?]] & ?)]; done.
    + done.
  - destruct Hr as (Ht & H1 & H2). destruct (Nat.ltb_spec t n); [|lia]. unfold taking in *. rewrite H1 in *. destruct (tq (pip s) t) as [|r q] eqn:Eq.
    + destruct H2 as [?|H2]; [done|]. rewrite H2 in *. cbn in L4. apply (f_equal (fun f => f t)) in L4. rewrite fset_eq in L4. congruence.
    + cbn in L11. unfold tstep in L11. rewrite Eq in L11. cbn in L11. apply (f_equal (fun f => f t)) in L11. rewrite fset_eq, Eq in L11. apply (f_equal length) in L11. cbn in L11. lia.
  - unfold main in *. destruct (mst s) as [|[|j]|[|j]|] eqn:Em; cbn in *.
    + rewrite Hr in *. done.
    + done.
    + destruct Hr as [?|Hr]; [done|]. destruct (Nat.eqb_spec (nrem s) 0); [done|]. cbn in L5. injection L5. lia.
    + done.
    + destruct Hr as [?|Hr]; [done|]. destruct (Nat.eqb_spec (nevt s) 0); [done|]. cbn in L5. injection L5. lia.
    + done.
Qed.

Definition final s : Prop :=
  mst s = MAlg /\ rst (pip s) = RDone /\ bclosed (pip s) = true /\ ord (pip s) = [] /\
  forall t, t < n -> trclosed (pip s) t = true /\ strc s t = true /\ fe (pip s) t = [] /\ tq (pip s) t = [].
Definition everyone (l : list factor) : Prop :=
  (forall i, i < k -> FRead i ∈ l) /\ (exists g, FEmit g ∈ l) /\ (forall t, t < n -> FPass t ∈ l) /\ (exists g, FRemit g ∈ l) /\ (forall t, t < n -> FTake t ∈ l) /\ FMain ∈ l.

Lemma someone file s l : inv file s -> everyone l -> final s \/ exists a, a ∈ l /\ ready s a.
Proof.
  intros HI (E1 & (ge & E2) & E3 & (gr & E4) & E5 & E6).
  destruct (all_or (fun t => match tq (pip s) t with [] => true | _ => false end) n) as [Hq|(t & Ht & E)].
  2: { right. exists (FTake t). split; [by apply E5|]. cbn. assert (Hne : tq (pip s) t <> []) by (by destruct (tq (pip s) t)). split_and!; [done| |by left]. destruct (strc s t) eqn:Es; [|done]. by destruct (i_strc _ _ HI t Es). }
  assert (Hq' : forall t, t < n -> tq (pip s) t = []) by (intros t Ht; specialize (Hq t Ht); by destruct (tq (pip s) t)). clear Hq.
  assert (Htok : forall t, rst (pip s) = RLook t \/ rst (pip s) = RSeen t -> tr (pip s) t = [] -> trclosed (pip s) t = false -> exists a, a ∈ l /\ ready s a).
  { intros t Hr Et Ec. pose proof (i_rst _ _ HI t Hr) as Ht. exists (FPass t). split; [by apply E3|]. cbn. split_and!; try done. left. pose proof (i_tok _ _ HI t) as H. unfold tokens in H.
    assert (Hx : match rst (pip s) with RLook u | RSeen u => if u =? t then 1 else 0 | _ => 0 end = 1) by (destruct Hr as [-> | ->]; by rewrite Nat.eqb_refl). rewrite Hx, Et in H. cbn in H. destruct (fe (pip s) t); [cbn in H; lia|done]. }
  destruct (rst (pip s)) as [|t|t|] eqn:Er.
  - right. destruct (ord (pip s)) as [|u o] eqn:Eo.
    2: { exists (FRemit gr). split; [done|]. cbn. rewrite Er, Eo. split; [done|by left]. }
    destruct (bclosed (pip s)) eqn:Eb.
    { exists (FRemit gr). split; [done|]. cbn. rewrite Er, Eo, Eb. split; [done|by right]. }
    assert (Hc : forall t, trclosed (pip s) t = false) by (intros t; destruct (trclosed (pip s) t) eqn:E'; [|done]; destruct (i_trc _ _ HI t E'); congruence).
    destruct (bst (pip s)) as [|u] eqn:Ebs.
    2: { exists (FEmit ge). split; [done|]. cbn. by rewrite Ebs. }
    assert (Hfe : forall t, fe (pip s) t = []). { intros t. pose proof (i_eq _ _ HI t (Hc t)) as H. unfold tokens in H. rewrite Eo, Ebs, Er in H. cbn in H. destruct (fe (pip s) t); [done|cbn in H; lia]. }
    destruct (todo (pip s)) as [|e td] eqn:Et.
    2: { exists (FEmit ge). split; [done|]. cbn. by rewrite Ebs, Et. }
    destruct (over s) eqn:Eov.
    { exists (FEmit ge). split; [done|]. cbn. by rewrite Ebs, Et, Eov. }
    destruct (lq s (cur s)) as [|x q] eqn:El.
    + destruct (src s (cur s)) as [|y r] eqn:Es.
      * exists (FEmit ge). split; [done|]. cbn. rewrite Ebs, Et, Eov. by right.
      * assert (Hck : cur s < k) by (destruct (i_deal _ _ HI) as (r' & _ & -> & _); apply Nat.mod_upper_bound; lia).
        exists (FRead (cur s)). split; [by apply E1|]. cbn. split_and!; congruence.
    + exists (FEmit ge). split; [done|]. cbn. rewrite Ebs, Et, Eov. left. congruence.
  - right. destruct (tr (pip s) t) as [|r q] eqn:Et.
    + destruct (trclosed (pip s) t) eqn:Ec; [|by apply (Htok t); [left|..]].
      (* the queue is closed and the event is missing: it was passed on and not yet got *)
      pose proof (i_tok _ _ HI t) as H. unfold tokens in H. rewrite Er, Nat.eqb_refl, Et in H. cbn in H. destruct (i_trc _ _ HI t Ec) as [_ Hf]. rewrite Hf in H. cbn in H. lia.
    + exists (FRemit gr). split; [done|]. cbn. rewrite Er, Et. done.
  - right. destruct (trclosed (pip s) t) eqn:Ec.
    { exists (FRemit gr). split; [done|]. cbn. rewrite Er, Ec. split; [done|by right]. }
    destruct (tr (pip s) t) as [|r q] eqn:Et; [by apply (Htok t); [right|..]|].
    exists (FRemit gr). split; [done|]. cbn. rewrite Er, Et. split; [done|by left].
  - destruct (i_done _ _ HI Er) as [Hb Ho]. destruct (i_clo _ _ HI Hb) as (C1 & C2 & C3).
    destruct (all_or (trclosed (pip s)) n) as [Hc|(t & Ht & E)].
    2: { right. exists (FPass t). split; [by apply E3|]. cbn. split_and!; try done; [|by right]. pose proof (i_eq _ _ HI t E) as H. unfold tokens in H. rewrite Ho, C2, Er in H. cbn in H. destruct (tr (pip s) t); [done|cbn in H; lia]. }
    destruct (all_or (strc s) n) as [Hs|(t & Ht & E)].
    2: { right. exists (FTake t). split; [by apply E5|]. cbn. split_and!; try done. by right. }
    assert (Mc : many (trclosed (pip s)) = n). { unfold many. rewrite (sumf_ext n _ (fun _ => 1)) by (intros u Hu; by rewrite Hc). rewrite sumf_const. lia. }
    assert (Ms : many (strc s) = n). { unfold many. rewrite (sumf_ext n _ (fun _ => 1)) by (intros u Hu; by rewrite Hs). rewrite sumf_const. lia. }
    pose proof (i_nrem _ _ HI) as Nr. pose proof (i_nevt _ _ HI) as Ne. pose proof (i_mj _ _ HI) as Mj. rewrite Mc in Nr. rewrite Ms in Ne.
    destruct (mst s) as [|j|j|] eqn:Em.
    + right. exists FMain. split; [done|]. cbn. by rewrite Em.
    + right. exists FMain. split; [done|]. cbn in *. rewrite Em. lia.
    + right. exists FMain. split; [done|]. cbn in *. rewrite Em. lia.
    + left. split_and!; try done. intros t Ht. split_and!; [by apply Hc|by apply Hs| |by apply Hq']. by destruct (i_trc _ _ HI t (Hc t Ht)).
Qed.

Lemma mu_le file l : forall s, inv file s -> mu (frun s l) <= mu s.
Proof.
  induction l as [|a l IH]; intros s HI; [done|]. change (mu (frun (fstep s a) l) <= mu s). pose proof (IH (fstep s a) (inv_step file s a HI)). destruct (mu_step file s a HI) as [Hl|?]; [|lia]. pose proof (looked_mu file s _ HI Hl). lia.
Qed.
Lemma round_less file l a : forall s, inv file s -> a ∈ l -> ready s a -> mu (frun s l) < mu s.
Proof.
  induction l as [|b l IH]; intros s HI Ha Hr; [by apply elem_of_nil in Ha|]. change (mu (frun (fstep s b) l) < mu s).
  destruct (mu_step file s b HI) as [Hl|Hl].
  - apply elem_of_cons in Ha as [->|Ha].
    + pose proof (ready_less file s b HI Hr). pose proof (mu_le file l (fstep s b) (inv_step file s b HI)). lia.
    + rewrite <- (looked_mu file s _ HI Hl). apply IH; [by apply inv_step|done|by apply (ready_looked s)].
  - pose proof (mu_le file l (fstep s b) (inv_step file s b HI)). lia.
Qed.

Notation frounds := (frounds zero k n sl sf so st_ sq).
Lemma inv_rounds file R : forall j s, inv file s -> inv file (frounds s R j).
Proof. induction j as [|j IH]; intros s HI; [done|]. cbn. by apply inv_run, IH. Qed.
Lemma drains file s R : inv file s -> (forall j, everyone (R j)) -> exists j, final (frounds s R j).
Proof.
  intros HI HR.
  assert (G : forall m j, mu (frounds s R j) < m -> exists j', final (frounds s R j')).
  { induction m as [|m IH]; intros j Hm; [lia|]. pose proof (inv_rounds file R j s HI) as HJ. destruct (someone file _ (R j) HJ (HR j)) as [?|(a & Ha & Hr)]; [by exists j|].
    apply (IH (S j)). cbn. pose proof (round_less file (R j) a _ HJ Ha Hr). lia. }
  apply (G (S (mu (frounds s R 0))) 0). lia.
Qed.
End flow.
