(** Proofs about CreateEvent. *)
From Verif Require Import Base Vertex_Model Load_Spec Load_Model Load_Proofs Remit_Spec Remit_Model Remit_Proofs Born_Model.
Open Scope N_scope.

Lemma fold_max (l : list nat) (f : nat -> N) m b : fold_left (fun m t => N.max m (f t)) l m <= b <-> m <= b /\ forall t, In t l -> f t <= b.
Proof.
  revert m. induction l as [|x l IH]; intros m; simpl; [naive_solver|]. rewrite IH. split.
  - intros [H1 H2]. split; [lia|]. intros t [<-|Ht]; [lia|auto].
  - intros [H1 H2]. split; [specialize (H2 x); lia|]. auto.
Qed.
Lemma fold_max_in (l : list nat) (f : nat -> N) m t : In t l -> f t <= fold_left (fun m t => N.max m (f t)) l m.
Proof. intros H. by apply (proj1 (fold_max l f m _) (N.le_refl _)). Qed.

Section proofs.
  Context {P : Type} (zero : P) (nthr : N) (evs : list (tev P)).
  Context (Hnum : forall i e, evs !! i = Some e -> event_idx (word e) = N.of_nat i).
  Implicit Types s : born P.

  Definition inc (l : list (sev P)) : Prop := forall a x b y c, l = a ++ x :: b ++ y :: c -> idx x < idx y.
  Lemma inc_cons x l : inc (x :: l) <-> inc l /\ forall y, In y l -> idx x < idx y.
  Proof.
    split.
    - intros H. split.
      + intros a y b z c ->. apply (H (x :: a) y b z c). done.
      + intros y Hy. apply in_split in Hy as (b & c & ->). exact (H [] x b y c eq_refl).
    - intros [H1 H2] [|a0 a] y b z c E; simpl in E.
      + injection E as -> ->. apply H2, in_app_iff. right. by left.
      + injection E as _ E. exact (H1 _ _ _ _ _ E).
  Qed.
  Lemma inc_filter f l : inc l -> inc (List.filter f l).
  Proof.
    induction l as [|x l IH]; intros H; [done|]. apply inc_cons in H as [H1 H2]. simpl. destruct (f x); [|auto].
    apply inc_cons. split; [auto|]. intros y Hy. apply filter_In in Hy as [Hy _]. auto.
  Qed.
  Lemma inc_app l1 l2 x y : inc (l1 ++ l2) -> In x l1 -> In y l2 -> idx x < idx y.
  Proof.
    intros H Hx Hy. apply in_split in Hx as (a & b & ->). apply in_split in Hy as (b' & c & ->).
    apply (H a x (b ++ b') y c). by rewrite <- !app_assoc.
  Qed.

  Lemma E_nth (s : pipe P) i x : always nthr evs s -> E s !! i = Some x -> exists e, evs !! i = Some e /\ view e = x /\ idx x = N.of_nat i.
  Proof.
    intros Ha Hi. unfold E in Hi. rewrite list_lookup_fmap in Hi. destruct (emitted s !! i) as [e|] eqn:Ei; [|done].
    cbn in Hi. injection Hi as <-. exists e. assert (He : evs !! i = Some e).
    { rewrite <- (p_evs _ _ _ Ha). by apply lookup_app_l_Some. }
    split; [done|]. split; [done|]. exact (Hnum _ _ He).
  Qed.
  Lemma E_inc (s : pipe P) : always nthr evs s -> inc (E s).
  Proof.
    intros Ha a x b y c H.
    assert (Hx : E s !! length a = Some x) by (rewrite H, lookup_app_r, Nat.sub_diag by lia; done).
    assert (Hy : E s !! (length a + S (length b))%nat = Some y).
    { rewrite H, lookup_app_r by lia. replace (_ - _)%nat with (S (length b)) by lia. simpl. by rewrite lookup_app_r, Nat.sub_diag by lia. }
    destruct (E_nth s _ _ Ha Hx) as (? & _ & _ & ->). destruct (E_nth s _ _ Ha Hy) as (? & _ & _ & ->). lia.
  Qed.
  Lemma rlog_nth (s : pipe P) i r : always nthr evs s -> good nthr s -> rlog s !! i = Some r ->
    exists e, evs !! i = Some e /\ view e = pev r /\ event_idx (rword r) = N.of_nat i.
  Proof.
    intros Ha Hg Hi. destruct (p_rlog _ _ Hg) as (E2 & HE & _).
    assert (H : E s !! i = Some (pev r)).
    { rewrite HE. apply lookup_app_l_Some. rewrite list_lookup_fmap, Hi. done. }
    destruct (E_nth s _ _ Ha H) as (e & H1 & H2 & H3). exists e. split; [done|]. split; [done|]. exact H3.
  Qed.
  (** What waits before checkToRemit is younger than what has passed it at the same thread, and
      than everything remitted. *)
  Lemma fe_passed (s : pipe P) t x e : always nthr evs s -> good nthr s -> In x (map pev (passed nthr s t)) -> In e (fe s t) ->
    idx x < event_idx (word e).
  Proof.
    intros Ha Hg Hx He. pose proof (inc_filter (inthr nthr t) _ (E_inc s Ha)) as H. rewrite (p_passed _ _ Hg t) in H.
    exact (inc_app _ _ x (view e) H Hx (in_map view _ _ He)).
  Qed.
  Lemma fe_rlog (s : pipe P) t x e : always nthr evs s -> good nthr s -> In x (map pev (rlog s)) -> In e (fe s t) ->
    idx x < event_idx (word e).
  Proof.
    intros Ha Hg Hx He. apply in_map_iff in Hx as (r & <- & Hr).
    apply elem_of_list_In, elem_of_list_lookup in Hr as (i & Hi).
    destruct (rlog_nth s i r Ha Hg Hi) as (e0 & He0 & Hv0 & Hidx). cbn [idx pev pview fst]. rewrite Hidx.
    assert (Hf : In (view e) (List.filter (inthr nthr t) (E s))).
    { rewrite (p_passed _ _ Hg). apply in_app_iff. right. by apply in_map. }
    apply filter_In in Hf as [HfE Hft]. apply elem_of_list_In, elem_of_list_lookup in HfE as (j & Hj).
    destruct (E_nth s _ _ Ha Hj) as (_ & _ & _ & Hjj). cbn [idx view] in Hjj. rewrite Hjj.
    destruct (Nat.lt_ge_cases i j) as [|Hji]; [lia|]. exfalso.
    destruct (p_rlog _ _ Hg) as (E2 & HE & _).
    assert (Hlen : (i < length (rlog s))%nat) by (apply lookup_lt_is_Some; eauto).
    destruct (lookup_lt_is_Some_2 (rlog s) j) as (r' & Hr'); [lia|].
    assert (Hpe : view e = pev r').
    { rewrite HE, lookup_app_l, list_lookup_fmap, Hr' in Hj by (rewrite map_length; lia). cbn [fmap option_fmap option_map] in Hj. congruence. }
    assert (Hpass : In (pev r') (map pev (passed nthr s t))).
    { apply in_map. unfold passed, rfor. apply in_app_iff. left. apply filter_In. split.
      - apply elem_of_list_In, elem_of_list_lookup. eauto.
      - unfold inthr in Hft. rewrite Hpe in Hft. exact Hft. }
    pose proof (fe_passed s t _ _ Ha Hg Hpass He) as H. rewrite <- Hpe in H. cbn [idx view] in H. lia.
  Qed.

  Record binv s : Prop := {
    b_in : forall t v, In v (verts (bpipe s) t) ->
      wth nthr v = t /\
      ((exists x, In x (map pev (passed nthr (bpipe s) t)) /\ dst x = v /\ create s t v = idx x) \/
       (exists x, In x (map pev (rlog (bpipe s))) /\ src x = v /\ create s t v = idx x));
    b_le : forall t x, In x (map pev (passed nthr (bpipe s) t)) -> In (dst x) (verts (bpipe s) t) /\ create s t (dst x) <= idx x;
    b_taken : forall t r, In r (taken (bpipe s) t) -> In (rsrc r) (verts (bpipe s) t);
    b_at : forall t, at_ev s t = match list.last (taken (bpipe s) t) with Some r => event_idx (rword r) | None => 0 end }.

  Lemma spurious_step (s : pipe P) w : spurious (step zero nthr s w) = false -> spurious s = false.
  Proof.
    destruct w as [|t| |t]; simpl.
    - unfold bstep. by destruct (bst s); [destruct (todo s)|].
    - unfold gstep. destruct (fe s t); [by destruct (bclosed s)|]. by destruct (lookup_or_new _ _ _).
    - unfold rstep. destruct (rst s); [destruct (ord s); [by destruct (bclosed s)|done]|by destruct (tr s t)|by destruct (trclosed s t)|done].
    - unfold tstep. by destruct (tq s t).
  Qed.
  Lemma always_step (s : pipe P) w : always nthr evs s -> always nthr evs (step zero nthr s w).
  Proof. intros H. exact (always_run zero nthr evs s [w] H). Qed.
  (** Steps of the emitter and the Remitter do not change what has passed. *)
  Lemma passed_same (s s' : pipe P) t : good nthr s -> good nthr s' -> E s' = E s -> fe s' t = fe s t ->
    map pev (passed nthr s' t) = map pev (passed nthr s t).
  Proof.
    intros Hg Hg' HE Hf. pose proof (p_passed _ _ Hg t) as H. pose proof (p_passed _ _ Hg' t) as H'.
    rewrite HE, H, Hf in H'. by apply app_inv_tail in H'.
  Qed.
  Lemma binv_pipe s p' : binv s ->
    (forall t, verts p' t = verts (bpipe s) t) -> (forall t, map pev (passed nthr p' t) = map pev (passed nthr (bpipe s) t)) ->
    (forall x, In x (map pev (rlog (bpipe s))) -> In x (map pev (rlog p'))) -> (forall t, taken p' t = taken (bpipe s) t) ->
    binv (Born p' (create s) (at_ev s)).
  Proof.
    intros [B1 B2 B3 B4] Hv Hp Hr Ht. split; cbn [bpipe create at_ev].
    - intros t v Hin. rewrite Hv in Hin. destruct (B1 t v Hin) as (Hw & H). split; [done|]. rewrite Hp.
      destruct H as [H|(x & H1 & H2)]; [by left|right]. eauto.
    - intros t x. rewrite Hp, Hv. apply B2.
    - intros t r. rewrite Ht, Hv. apply B3.
    - intros t. rewrite Ht. apply B4.
  Qed.
  Lemma note_new_other s t raw ev t' v : In v (verts (bpipe s) t') -> note_new s t raw ev t' v = create s t' v.
  Proof.
    intros Hin. unfold note_new. destruct (find_idx raw (verts (bpipe s) t)) eqn:Ef; [done|].
    destruct (Nat.eqb_spec t' t) as [->|]; [|done]. destruct (N.eqb_spec v raw) as [->|]; [|done].
    by apply find_idx_none in Ef.
  Qed.
  Lemma lookup_verts t l raw : fst (lookup_or_new t l raw) = match find_idx raw l with Some _ => l | None => l ++ [raw] end.
  Proof. unfold lookup_or_new. by destruct (find_idx raw l). Qed.
  Lemma find_idx_in raw l i : find_idx raw l = Some i -> In raw l.
  Proof. intros H. apply find_idx_spec in H. apply elem_of_list_In, elem_of_list_lookup. eauto. Qed.

  Lemma binv_step s w : always nthr evs (bpipe s) -> binv s -> spurious (step zero nthr (bpipe s) w) = false ->
    binv (born_step zero nthr s w).
  Proof.
    intros Ha Hb Hsp. pose proof (always_step _ w Ha) as Ha'. pose proof (p_good _ _ _ Ha' Hsp) as Hg'.
    pose proof (p_good _ _ _ Ha (spurious_step _ _ Hsp)) as Hg. destruct w as [|t| |t]; unfold born_step.
    - apply binv_pipe; [done| | | |].
      + intros t. cbn [step]. unfold bstep. by destruct (bst _); [destruct (todo _)|].
      + intros t. cbn [step] in *. unfold bstep. destruct (bst (bpipe s)); [destruct (todo (bpipe s))|]; done.
      + intros x. cbn [step]. unfold bstep. by destruct (bst _); [destruct (todo _)|].
      + intros t. cbn [step]. unfold bstep. by destruct (bst _); [destruct (todo _)|].
    - cbn [step] in *. destruct (fe (bpipe s) t) as [|e q] eqn:Ef.
      { apply binv_pipe; [done| | | |]; unfold gstep; rewrite Ef; by destruct (bclosed (bpipe s)). }
      assert (Hw : wth nthr (tdst e) = t).
      { assert (In (view e) (List.filter (inthr nthr t) (E (bpipe s)))) as H.
        { rewrite (p_passed _ _ Hg), Ef. apply in_app_iff. right. by left. }
        apply filter_In in H as [_ H]. by apply Nat.eqb_eq in H. }
      assert (HfeE : In e (fe (bpipe s) t)) by (rewrite Ef; by left).
      assert (Hp : forall t', map pev (passed nthr (gstep t (bpipe s)) t') =
        if Nat.eqb t' t then map pev (passed nthr (bpipe s) t) ++ [view e] else map pev (passed nthr (bpipe s) t')).
      { intros t'. unfold gstep, passed. rewrite Ef. destruct (lookup_or_new _ _ _) as [vs didx]. cbn [rlog tr]. unfold fset.
        destruct (Nat.eqb_spec t' t) as [->|]; [|done]. rewrite app_assoc, map_app. done. }
      assert (Hv : forall t', verts (gstep t (bpipe s)) t' = fset (verts (bpipe s)) t (match find_idx (tdst e) (verts (bpipe s) t) with Some _ => verts (bpipe s) t | None => verts (bpipe s) t ++ [tdst e] end) t').
      { intros t'. unfold gstep. rewrite Ef. rewrite <- lookup_verts with (t := t). destruct (lookup_or_new _ _ _) as [vs didx]. done. }
      assert (Hrl : rlog (gstep t (bpipe s)) = rlog (bpipe s)).
      { unfold gstep. rewrite Ef. by destruct (lookup_or_new _ _ _) as [vs didx]. }
      assert (Htk : taken (gstep t (bpipe s)) = taken (bpipe s)).
      { unfold gstep. rewrite Ef. by destruct (lookup_or_new _ _ _) as [vs didx]. }
      assert (Hold : forall t' v, In v (verts (bpipe s) t') -> In v (verts (gstep t (bpipe s)) t')).
      { intros t' v Hin. rewrite Hv. unfold fset. destruct (Nat.eqb_spec t' t) as [->|]; [|done].
        destruct (find_idx _ _); [done|]. apply in_app_iff. by left. }
      destruct Hb as [B1 B2 B3 B4]. split; cbn [bpipe create at_ev].
      + intros t' v Hin. rewrite Hp, Hrl.
        assert (Hcase : In v (verts (bpipe s) t') \/ (t' = t /\ v = tdst e /\ find_idx (tdst e) (verts (bpipe s) t) = None)).
        { rewrite Hv in Hin. unfold fset in Hin. destruct (Nat.eqb_spec t' t) as [->|]; [|by left].
          destruct (find_idx _ _); [by left|]. apply in_app_iff in Hin as [Hin|[<-|[]]]; [by left|by right]. }
        destruct Hcase as [Hin'|(-> & -> & Hnone)].
        * rewrite note_new_other by done. destruct (B1 _ _ Hin') as (Hw' & Hc). split; [done|].
          destruct Hc as [(x & H1 & H2)|Hc]; [left|by right]. exists x. split; [|done].
          destruct (Nat.eqb_spec t' t) as [->|]; [|done]. apply in_app_iff. by left.
        * split; [done|]. left. exists (view e). rewrite Nat.eqb_refl. split; [apply in_app_iff; right; by left|]. split; [done|].
          unfold note_new. rewrite Hnone, Nat.eqb_refl, N.eqb_refl. done.
      + intros t' x Hx. rewrite Hp in Hx.
        assert (Hcase : In x (map pev (passed nthr (bpipe s) t')) \/ (t' = t /\ x = view e)).
        { destruct (Nat.eqb_spec t' t) as [->|]; [|by left]. apply in_app_iff in Hx as [Hx|[<-|[]]]; [by left|by right]. }
        destruct Hcase as [Hx'|(-> & ->)].
        * destruct (B2 _ _ Hx') as [H1 H2]. split; [auto|]. by rewrite note_new_other.
        * cbn [dst view idx]. rewrite Hv. unfold fset. rewrite Nat.eqb_refl. unfold note_new.
          destruct (find_idx (tdst e) (verts (bpipe s) t)) as [i|] eqn:Efi.
          -- pose proof (find_idx_in _ _ _ Efi) as Hin. split; [done|].
             destruct (B1 _ _ Hin) as (_ & [(x & H1 & _ & ->)|(x & H1 & _ & ->)]).
             ++ apply N.lt_le_incl. exact (fe_passed _ t x e Ha Hg H1 HfeE).
             ++ apply N.lt_le_incl. exact (fe_rlog _ t x e Ha Hg H1 HfeE).
          -- rewrite Nat.eqb_refl, N.eqb_refl. split; [apply in_app_iff; right; by left|]. cbn [andb]. lia.
      + intros t' r Hr. rewrite Htk in Hr. auto.
      + intros t'. rewrite Htk. apply B4.
    - cbn [step] in *. apply binv_pipe; [done| | | |].
      + intros t. unfold rstep. destruct (rst (bpipe s)); [destruct (ord (bpipe s)); [by destruct (bclosed (bpipe s))|done]|by destruct (tr (bpipe s) t0)|by destruct (trclosed (bpipe s) t0)|done].
      + intros t. apply passed_same; try done.
        * unfold E, rstep. destruct (rst (bpipe s)); [destruct (ord (bpipe s)); [by destruct (bclosed (bpipe s))|done]|by destruct (tr (bpipe s) t0)|by destruct (trclosed (bpipe s) t0)|done].
        * unfold rstep. destruct (rst (bpipe s)); [destruct (ord (bpipe s)); [by destruct (bclosed (bpipe s))|done]|by destruct (tr (bpipe s) t0)|by destruct (trclosed (bpipe s) t0)|done].
      + intros x Hx. unfold rstep. destruct (rst (bpipe s)); [destruct (ord (bpipe s)); [by destruct (bclosed (bpipe s))|done]|destruct (tr (bpipe s) t)|destruct (trclosed (bpipe s) t)|done]; try done;
          cbn [remit rlog]; rewrite map_app; apply in_app_iff; by left.
      + intros t. unfold rstep. destruct (rst (bpipe s)); [destruct (ord (bpipe s)); [by destruct (bclosed (bpipe s))|done]|by destruct (tr (bpipe s) t0)|by destruct (trclosed (bpipe s) t0)|done].
    - cbn [step] in *. destruct (tq (bpipe s) t) as [|r q] eqn:Eq.
      { apply binv_pipe; [done| | | |]; unfold tstep; rewrite Eq; done. }
      assert (Hrin : In r (rlog (bpipe s)) /\ wth nthr (rsrc r) = t).
      { assert (In r (taken (bpipe s) t ++ tq (bpipe s) t)) as H by (rewrite Eq; apply in_app_iff; right; by left).
        rewrite (p_taken _ _ _ Ha t) in H. apply filter_In in H as [H1 H2]. by apply Nat.eqb_eq in H2. }
      assert (Hp : forall t', map pev (passed nthr (tstep t (bpipe s)) t') = map pev (passed nthr (bpipe s) t')).
      { intros t'. unfold tstep. by rewrite Eq. }
      assert (Hv : forall t', verts (tstep t (bpipe s)) t' = fset (verts (bpipe s)) t (match find_idx (rsrc r) (verts (bpipe s) t) with Some _ => verts (bpipe s) t | None => verts (bpipe s) t ++ [rsrc r] end) t').
      { intros t'. unfold tstep. rewrite Eq. cbn [verts]. by rewrite lookup_verts. }
      assert (Hrl : rlog (tstep t (bpipe s)) = rlog (bpipe s)) by (unfold tstep; by rewrite Eq).
      assert (Htk : taken (tstep t (bpipe s)) = fset (taken (bpipe s)) t (taken (bpipe s) t ++ [r])) by (unfold tstep; by rewrite Eq).
      assert (Hold : forall t' v, In v (verts (bpipe s) t') -> In v (verts (tstep t (bpipe s)) t')).
      { intros t' v Hin. rewrite Hv. unfold fset. destruct (Nat.eqb_spec t' t) as [->|]; [|done].
        destruct (find_idx _ _); [done|]. apply in_app_iff. by left. }
      destruct Hb as [B1 B2 B3 B4]. split; cbn [bpipe create at_ev].
      + intros t' v Hin. rewrite Hp, Hrl.
        assert (Hcase : In v (verts (bpipe s) t') \/ (t' = t /\ v = rsrc r /\ find_idx (rsrc r) (verts (bpipe s) t) = None)).
        { rewrite Hv in Hin. unfold fset in Hin. destruct (Nat.eqb_spec t' t) as [->|]; [|by left].
          destruct (find_idx _ _); [by left|]. apply in_app_iff in Hin as [Hin|[<-|[]]]; [by left|by right]. }
        destruct Hcase as [Hin'|(-> & -> & Hnone)].
        * rewrite note_new_other by done. by apply B1.
        * split; [apply Hrin|]. right. exists (pev r). split; [apply in_map, Hrin|]. split; [done|].
          unfold note_new. rewrite Hnone, Nat.eqb_refl, N.eqb_refl. done.
      + intros t' x Hx. rewrite Hp in Hx. destruct (B2 _ _ Hx) as [H1 H2]. split; [auto|]. by rewrite note_new_other.
      + intros t' r' Hr. rewrite Htk in Hr. unfold fset in Hr. destruct (Nat.eqb_spec t' t) as [->|]; [|auto].
        apply in_app_iff in Hr as [Hr|[<-|[]]]; [auto|]. rewrite Hv. unfold fset. rewrite Nat.eqb_refl.
        destruct (find_idx (rsrc r) (verts (bpipe s) t)) eqn:Efi; [by apply find_idx_in in Efi|]. apply in_app_iff. right. by left.
      + intros t'. rewrite Htk. unfold fset. destruct (Nat.eqb_spec t' t) as [->|]; [|auto]. by rewrite list.last_snoc.
  Qed.

  Lemma bpipe_run sched : bpipe (born_run zero nthr evs sched) = prun zero nthr (pipe_init evs) sched.
  Proof.
    unfold born_run, prun. change (pipe_init evs) with (bpipe (Born (pipe_init evs) (fun _ _ => 0) (fun _ => 0))) at 2.
    generalize (Born (pipe_init evs) (fun _ _ => 0) (fun _ => 0)). induction sched as [|w sched IH]; intros s; [done|].
    simpl. rewrite IH. f_equal. unfold born_step. destruct w as [|t| |t]; [done|by destruct (fe (bpipe s) t)|done|by destruct (tq (bpipe s) t)].
  Qed.
  Lemma binv_run sched : spurious (bpipe (born_run zero nthr evs sched)) = false -> binv (born_run zero nthr evs sched).
  Proof.
    induction sched as [|w sched IH] using rev_ind; intros Hsp.
    - split; simpl; try done.
    - unfold born_run in *. rewrite fold_left_app in *. cbn [fold_left] in *. fold (born_run zero nthr evs sched) in *.
      assert (Hst : bpipe (born_step zero nthr (born_run zero nthr evs sched) w) = step zero nthr (bpipe (born_run zero nthr evs sched)) w).
      { unfold born_step. destruct w as [|t| |t]; [done|by destruct (fe _ t)|done|by destruct (tq _ t)]. }
      rewrite Hst in Hsp. apply binv_step; [|apply IH; by apply spurious_step in Hsp|done].
      rewrite bpipe_run. apply always_run, always_init.
  Qed.
End proofs.
