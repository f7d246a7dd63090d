(** Message-passing shortest paths end with the best value over all walks. *)
From Verif Require Import Base Min_Spec Active_Spec Active_Model Active_Proofs MsgMin_Model.
Open Scope nat_scope.

Section proofs.
Context {V E : Type} (leb : V -> V -> bool) (top : V) (empty : V -> bool) (ext : E -> V -> V) (owner : nat -> nat) (n : nat).
Definition le (x y : V) : Prop := leb x y = true.
Context (le_total : forall x y, le x y \/ le y x) (le_trans : forall x y z, le x y -> le y z -> le x z).
Context (empty_top : forall x, empty x = true -> le top x).
Context (ext_mono : forall e x y, le x y -> le (ext e x) (ext e y)) (good : E -> Prop) (ext_top : forall e x, good e -> le top x -> le top (ext e x)).
Notation A := (msg_alg V E leb empty ext).
Implicit Types (s : ast A) (gv : list (nat * V)).

Lemma le_refl x : le x x.
Proof. by destruct (le_total x x). Qed.
Lemma nle x y : leb x y = false -> le y x.
Proof. intros H. destruct (le_total x y) as [H'|H']; [|done]. unfold le in H'. congruence. Qed.

Definition val s v : V := fst (aprop s v).
Definition will s v : bool := snd (aprop s v).
Definition ok gv (es : nat -> list (nat * E)) v x : Prop := walk ext gv es v x \/ le top x.
Definition note_of (o : aop A) : option (nat * V) :=
  match o with Inc v x | APut v x | ADec v x | Handle v x _ => Some (v, x) | Added _ _ => None end.
(** A notification with value [x] is on its way to [v]. *)
Definition flying s (v : nat) (x : V) : Prop := exists t, (v, x) ∈ aqueue s t \/ exists o, o ∈ atodo s t /\ note_of o = Some (v, x).
Definition covered s (u i d : nat) (e : E) : Prop :=
  le top (val s u) \/ will s u = true \/ le (val s d) (ext e (val s u)) \/
  (exists x, le x (ext e (val s u)) /\ flying s d x) \/
  (exists st rest, (st <= i)%nat /\ atodo s (owner u) = Added u st :: rest).

Record minv gv s : Prop := Minv {
  m_vok : forall v, ok gv (aedges s) v (val s v);
  m_fok : forall v x, flying s v x -> ok gv (aedges s) v x;
  m_good : forall u d e, (d, e) ∈ aedges s u -> good e;
  m_top : forall v, le (val s v) top;
  m_will : forall v, will s v = true -> (0 < aact s v)%nat \/ exists x k, Handle (a := A) v x k ∈ atodo s (owner v);
  m_gv : forall v x, (v, x) ∈ gv -> le (val s v) x \/ flying s v x;
  m_cov : forall u i d e, aedges s u !! i = Some (d, e) -> covered s u i d e }.

Lemma walk_weaken gv gv' es es' v x : (forall y, y ∈ gv -> y ∈ gv') -> (forall u y, y ∈ es u -> y ∈ es' u) ->
  walk ext gv es v x -> walk ext gv' es' v x.
Proof. intros H1 H2. induction 1; [apply walk_given; auto|eapply walk_edge; eauto]. Qed.
Lemma ok_weaken gv gv' es es' v x : (forall y, y ∈ gv -> y ∈ gv') -> (forall u y, y ∈ es u -> y ∈ es' u) -> ok gv es v x -> ok gv' es' v x.
Proof. intros H1 H2 [H|H]; [left|by right]. by apply (walk_weaken gv gv' es). Qed.
Lemma ok_ext gv es u v e x : good e -> ok gv es u x -> (v, e) ∈ es u -> ok gv es v (ext e x).
Proof. intros Hg [H|H] He; [left; by eapply walk_edge|right; by apply ext_top]. Qed.

Lemma minv_start es : (forall u d e, (d, e) ∈ es u -> good e) -> minv [] (astart A (fun _ => (top, false)) es).
Proof.
  intros Hes. constructor; cbn; intros; try done.
  - right. apply le_refl.
  - destruct H as (t & [H|(o & H & _)]); by apply elem_of_nil in H.
  - by eapply Hes.
  - apply le_refl.
  - by apply elem_of_nil in H.
  - left. apply le_refl.
Qed.

(** Steps that change no property and no edge. *)
Lemma minv_frame gv new s s' t l : minv gv s -> atodo s' = upd (atodo s) t l ->
  aprop s' = aprop s -> aedges s' = aedges s ->
  (forall v x, flying s v x -> flying s' v x) -> (forall v x, flying s' v x -> flying s v x \/ (v, x) ∈ new) ->
  (forall v x, (v, x) ∈ new -> flying s' v x) ->
  (forall v, (0 < aact s v)%nat -> (0 < aact s' v)%nat \/ exists x k, Handle (a := A) v x k ∈ atodo s' (owner v)) ->
  (forall v x k, Handle v x k ∈ atodo s t -> Handle v x k ∈ l) -> (forall v k r, atodo s t <> Added v k :: r) ->
  minv (gv ++ new) s'.
Proof.
  intros HM Et Ep Ee Hf Hf' Hnew Ha Hh Had.
  assert (Ev : forall v, val s' v = val s v) by (intros; unfold val; by rewrite Ep).
  assert (Ew : forall v, will s' v = will s v) by (intros; unfold will; by rewrite Ep).
  assert (Hok : forall v x, ok gv (aedges s) v x -> ok (gv ++ new) (aedges s) v x).
  { intros v x. apply ok_weaken; [|done]. intros y Hy. apply elem_of_app. by left. }
  constructor.
  - intros v. rewrite Ee, Ev. apply Hok, (m_vok _ _ HM).
  - intros v x H. rewrite Ee. destruct (Hf' v x H) as [?|Hn]; [by apply Hok, (m_fok _ _ HM)|]. left. apply walk_given, elem_of_app. by right.
  - intros u d e. rewrite Ee. apply (m_good _ _ HM).
  - intros v. rewrite Ev. apply (m_top _ _ HM).
  - intros v. rewrite Ew. intros Hw. destruct (m_will _ _ HM v Hw) as [H|(x & k & H)]; [by apply Ha|right].
    exists x, k. rewrite Et. destruct (decide (owner v = t)) as [Hv|Hv]; [|by us]. rewrite Hv in *. us. by apply Hh.
  - intros v x [H|H]%elem_of_app; [|right; by apply Hnew]. rewrite Ev. destruct (m_gv _ _ HM v x H) as [?|?]; [by left|right; by apply Hf].
  - intros u i d e. rewrite Ee. intros H. unfold covered. rewrite !Ev, Ew.
    destruct (m_cov _ _ HM u i d e H) as [?|[?|[?|[(x & ? & ?)|(st & r & ? & Hst)]]]]; [by left|by right; left|by do 2 right; left| |].
    + do 3 right; left. exists x. split; [done|]. by apply Hf.
    + do 4 right. rewrite Et. destruct (decide (owner u = t)) as [Hu|Hu]; [|us; by eauto]. rewrite Hu in Hst. by apply Had in Hst.
Qed.

(** What is on its way after thread [t]'s list and one queue have changed. *)
Lemma flying_step s s' t l : atodo s' = upd (atodo s) t l -> forall v x,
  (forall k, (v, x) ∈ aqueue s k -> (v, x) ∈ aqueue s' k \/ exists o, o ∈ l /\ note_of o = Some (v, x)) ->
  (forall o, o ∈ atodo s t -> note_of o = Some (v, x) -> (exists k, (v, x) ∈ aqueue s' k) \/ exists o, o ∈ l /\ note_of o = Some (v, x)) ->
  flying s v x -> flying s' v x.
Proof.
  intros Et v x Hq Ho (k & [H|(o & H & Hn)]).
  - destruct (Hq k H) as [H'|H']; [exists k; by left|exists t; right]. rewrite Et. by us.
  - destruct (decide (k = t)) as [->|Hk].
    + destruct (Ho o H Hn) as [[j H']|H']; [exists j; by left|exists t; right]. rewrite Et. by us.
    + exists k. right. exists o. rewrite Et. by us.
Qed.
Lemma flying_back s s' t l : atodo s' = upd (atodo s) t l -> forall v x (P : Prop),
  (forall k, (v, x) ∈ aqueue s' k -> flying s v x \/ P) ->
  (forall o, o ∈ l -> note_of o = Some (v, x) -> flying s v x \/ P) ->
  flying s' v x -> flying s v x \/ P.
Proof.
  intros Et v x P Hq Ho (k & [H|(o & H & Hn)]); [by eapply Hq|].
  rewrite Et in H. destruct (decide (k = t)) as [->|Hk]; us; [by eapply Ho|]. left. exists k. right. by exists o.
Qed.

(** The property of one vertex changes, and [l] is what its thread then sends. *)
Lemma minv_react gv s s' t v o rest p ms : minv gv s -> ainv A owner n s -> atodo s t = o :: rest -> owner v = t ->
  aqueue s' = aqueue s -> aedges s' = aedges s -> aact s' = aact s -> aprop s' = upd (aprop s) v p -> atodo s' = upd (atodo s) t (sends A ms ++ rest) ->
  (note_of o = None \/ exists x, note_of o = Some (v, x) /\ le (fst p) x) ->
  (forall w x k, Handle w x k ∈ o :: rest -> w = v) -> (forall w k r, o :: rest = Added w k :: r -> w = v) ->
  le (fst p) (val s v) -> ok gv (aedges s) v (fst p) ->
  (forall d x, (d, x) ∈ ms -> exists e, (d, e) ∈ aedges s v /\ x = ext e (fst p)) ->
  (snd p = true -> (0 < aact s v)%nat) ->
  (forall i d e, aedges s v !! i = Some (d, e) -> covered s v i d e ->
     le top (fst p) \/ snd p = true \/ (fst p = val s v /\ ~ le top (val s v) /\ will s v = false /\ forall st, o = Added v st -> (i < st)%nat) \/ (d, ext e (fst p)) ∈ ms) ->
  minv gv s'.
Proof.
  intros HM HI Ht Hv Eq Ee Ea Ep Et Ho Hh Had Hle Hok Hms Hw Hcov.
  assert (Evv : val s' v = fst p) by (unfold val; rewrite Ep; by us).
  assert (Ewv : will s' v = snd p) by (unfold will; rewrite Ep; by us).
  assert (Ev : forall w, w <> v -> val s' w = val s w) by (intros; unfold val; rewrite Ep; by us).
  assert (Ew : forall w, w <> v -> will s' w = will s w) by (intros; unfold will; rewrite Ep; by us).
  assert (Hdec : forall w, le (val s' w) (val s w)).
  { intros w. destruct (decide (w = v)) as [->|]; [by rewrite Evv|]. rewrite Ev by done. apply le_refl. }
  assert (Hfly : forall w x, flying s w x -> flying s' w x \/ le (val s' w) x).
  { intros w x Hf. assert (Hc : (exists k, (w, x) ∈ aqueue s k) \/ (exists k o', k <> t /\ o' ∈ atodo s k /\ note_of o' = Some (w, x)) \/ (exists o', o' ∈ rest /\ note_of o' = Some (w, x)) \/ note_of o = Some (w, x)).
    { destruct Hf as (k & [Hf|(o' & Hin & Hn)]); [left; eauto|]. destruct (decide (k = t)) as [->|Hk]; [|right; left; eauto].
      rewrite Ht in Hin. apply elem_of_cons in Hin. destruct Hin as [->|Hin]; [by do 3 right|by right; right; left; eauto]. }
    destruct Hc as [[k Hk]|[(k & o' & Hk & Hin & Hn)|[(o' & Hin & Hn)|Hn]]].
    - left. exists k. left. by rewrite Eq.
    - left. exists k. right. exists o'. rewrite Et. by us.
    - left. exists t. right. exists o'. rewrite Et. us. split; [|done]. apply elem_of_app. by right.
    - destruct Ho as [Ho|(y & Ho & Hy)]; [congruence|]. right. rewrite Ho in Hn. injection Hn as <- <-. by rewrite Evv. }
  assert (Hsent : forall d x, (d, x) ∈ ms -> flying s' d x).
  { intros d x Hin. exists t. right. exists (Inc (a := A) d x). split; [|done]. rewrite Et. us. apply elem_of_app. left.
    unfold sends. apply elem_of_list_fmap. by exists (d, x). }
  constructor.
  - intros w. rewrite Ee. destruct (decide (w = v)) as [->|Hne]; [by rewrite Evv|]. rewrite Ev by done. apply (m_vok _ _ HM).
  - intros w x Hf. rewrite Ee.
    assert (Hc : flying s w x \/ (w, x) ∈ ms).
    { revert Hf. apply (flying_back s s' t (sends A ms ++ rest) Et).
      - intros k Hk. left. exists k. left. by rewrite <- Eq.
      - intros o' [Hin|Hin]%elem_of_app Hn; [right|left; exists t; right; exists o'; split; [rewrite Ht; by apply elem_of_list_further|done]].
        unfold sends in Hin. apply elem_of_list_fmap in Hin. destruct Hin as ([d y] & -> & Hin). by injection Hn as <- <-. }
    destruct Hc as [Hc|Hc]; [by apply (m_fok _ _ HM)|]. destruct (Hms _ _ Hc) as (e & He & ->).
    apply (ok_ext gv (aedges s) v); [by eapply (m_good _ _ HM)|done|done].
  - intros u d e. rewrite Ee. apply (m_good _ _ HM).
  - intros w. eapply le_trans; [apply Hdec|apply (m_top _ _ HM)].
  - intros w Hww. destruct (decide (w = v)) as [->|Hne].
    + rewrite Ewv in Hww. rewrite Ea. left. by apply Hw.
    + rewrite Ew in Hww by done. rewrite Ea. destruct (m_will _ _ HM w Hww) as [?|(x & k & Hk)]; [by left|right].
      exists x, k. rewrite Et. destruct (decide (owner w = t)) as [Hwt|Hwt]; [|by us].
      rewrite Hwt, Ht in Hk. by apply Hh in Hk.
  - intros w x Hg. destruct (m_gv _ _ HM w x Hg) as [H|H]; [left; eapply le_trans; [apply Hdec|done]|]. destruct (Hfly w x H); [by right|by left].
  - intros u i d e. rewrite Ee. intros Hi. pose proof (m_cov _ _ HM u i d e Hi) as Hc. unfold covered.
    destruct (decide (u = v)) as [->|Hne].
    + rewrite Evv, Ewv. destruct (Hcov i d e Hi Hc) as [?|[?|[(E1 & Hnt & Hwf & Hst)|?]]]; [by left|by right; left| |].
      2: { do 3 right; left. eexists. split; [apply le_refl|by apply Hsent]. }
      rewrite E1. destruct Hc as [?|[?|[Hc|[(x & Hx & Hf)|(st & r & Hle' & Hst')]]]]; [done|congruence| | |].
      * do 2 right; left. eapply le_trans; [apply Hdec|done].
      * destruct (Hfly d x Hf) as [Hf'|Hf']; [do 3 right; left; eauto|]. do 2 right; left. eapply le_trans; [exact Hf'|done].
      * exfalso. rewrite Hv, Ht in Hst'. injection Hst' as -> _. specialize (Hst st eq_refl). lia.
    + rewrite (Ev u), (Ew u) by done. destruct Hc as [?|[?|[Hc|[(x & Hx & Hf)|(st & r & Hle' & Hst')]]]]; [by left|by right; left| | |].
      * do 2 right; left. eapply le_trans; [apply Hdec|done].
      * destruct (Hfly d x Hf) as [Hf'|Hf']; [do 3 right; left; eauto|]. do 2 right; left. eapply le_trans; [exact Hf'|done].
      * do 4 right. exists st, r. split; [done|]. rewrite Et. destruct (decide (owner u = t)) as [Hu|Hu]; [|by us].
        rewrite Hu, Ht in Hst'. by apply Had in Hst'.
Qed.

Lemma in_sent (v' : V) (l es : list (nat * E)) d x : (forall y, y ∈ l -> y ∈ es) -> (d, x) ∈ map (fun '(d, e) => (d, ext e v')) l -> exists e, (d, e) ∈ es /\ x = ext e v'.
Proof. intros Hs H. apply elem_of_list_fmap in H. destruct H as ([d' e] & [= -> ->] & Hin). exists e. by auto. Qed.
Lemma sent_in (v' : V) (l : list (nat * E)) d e : (d, e) ∈ l -> (d, ext e v') ∈ map (fun '(d, e) => (d, ext e v')) l.
Proof. intros H. apply elem_of_list_fmap. by exists (d, e). Qed.

Lemma minv_handle gv s t v x k rest : minv gv s -> ainv A owner n s -> atodo s t = Handle v x k :: rest -> minv gv (aexec A owner s t (Handle v x k) rest).
Proof.
  intros HM HI Ht.
  assert (Hin : Handle (a := A) v x k ∈ atodo s t) by (rewrite Ht; apply elem_of_list_here).
  destruct (i_mine _ _ _ _ HI t _ Hin) as [_ Hv]. cbn in Hv. pose proof (i_keep _ _ _ _ HI t v x k Hin) as Hk.
  assert (Hfx : flying s v x) by (exists t; right; eexists; split; [exact Hin|done]).
  assert (Hone : forall w y j, Handle w y j ∈ Handle (a := A) v x k :: rest -> w = v).
  { intros w y j [[= -> _ _]|Hr]%elem_of_cons; [done|]. exfalso. by eapply (i_one _ _ _ _ HI). }
  pose proof (m_vok _ _ HM v) as Hvo. pose proof (m_fok _ _ HM v x Hfx) as Hxo. unfold val in Hvo. cbn [aexec].
  destruct (aprop s v) as [y wl] eqn:Ep. cbn in Hvo.
  assert (Eval : val s v = y) by (unfold val; by rewrite Ep).
  assert (Ewill : will s v = wl) by (unfold will; by rewrite Ep).
  set (p := if leb y x then (y, wl) else (x, true)).
  assert (Hp : le (fst p) y /\ le (fst p) x /\ ok gv (aedges s) v (fst p) /\ (p = (y, wl) \/ snd p = true)).
  { unfold p. destruct (leb y x) eqn:El; cbn; split_and!; try done; try apply le_refl; [by left|by apply nle|by right]. }
  destruct Hp as (Hp1 & Hp2 & Hp3 & Hp4). 
  assert (HR : areact A v (KNote x) k (y, wl) (aedges s v) = let '(val, will) := p in
    if (0 <? k) || negb will then ((val, will), []) else ((val, false), map (fun '(d, e) => (d, ext e val)) (aedges s v))) by done.
  rewrite HR. clear HR. destruct p as [y' wl'] eqn:Epp. cbn [fst snd] in Hp1, Hp2, Hp3, Hp4.
  destruct ((0 <? k) || negb wl') eqn:Eb.
  - eapply (minv_react gv s _ t v (Handle (a := A) v x k) rest (y', wl') []); cbn; try done.
    + right. exists x. done.
    + rewrite Eval. done.
    + by intros d z Hd%elem_of_nil.
    + intros ->. rewrite orb_false_r in Eb. apply Nat.ltb_lt in Eb. lia.
    + intros i d e Hi Hc. destruct wl'; [by right; left|]. destruct Hp4 as [[= -> <-]|?]; [|done].
      destruct (leb top y) eqn:Et; [by left|]. do 2 right. left. rewrite Eval, Ewill. unfold le. rewrite Et. done.
  - apply orb_false_iff in Eb. destruct Eb as [_ Eb]. destruct wl'; [|done].
    eapply (minv_react gv s _ t v (Handle (a := A) v x k) rest (y', false) (map (fun '(d, e) => (d, ext e y')) (aedges s v))); cbn; try done.
    + right. exists x. done.
    + rewrite Eval. done.
    + intros d z. by apply in_sent.
    + intros i d e Hi Hc. do 3 right. apply sent_in. by eapply elem_of_list_lookup_2.
Qed.

Lemma minv_added gv s t v st rest : minv gv s -> ainv A owner n s -> atodo s t = Added v st :: rest -> minv gv (aexec A owner s t (Added v st) rest).
Proof.
  intros HM HI Ht.
  assert (Hin : Added (a := A) v st ∈ atodo s t) by (rewrite Ht; apply elem_of_list_here).
  destruct (i_mine _ _ _ _ HI t _ Hin) as [_ Hv]. cbn in Hv.
  assert (Hone : forall w y j, Handle w y j ∈ Added (a := A) v st :: rest -> w = v).
  { intros w y j [?|Hr]%elem_of_cons; [done|]. exfalso. by eapply (i_one _ _ _ _ HI). }
  pose proof (m_vok _ _ HM v) as Hvo. unfold val in Hvo.
  assert (Hact : will s v = true -> (0 < aact s v)%nat).
  { intros Hw. destruct (m_will _ _ HM v Hw) as [?|(x & k & Hk)]; [done|]. rewrite Hv, Ht in Hk. apply elem_of_cons in Hk. destruct Hk as [?|Hk]; [done|].
    exfalso. by eapply (i_one _ _ _ _ HI). }
  cbn [aexec areact msg_alg]. destruct (aprop s v) as [y wl] eqn:Ep. cbn in Hvo.
  assert (Eval : val s v = y) by (unfold val; by rewrite Ep).
  assert (Ewill : will s v = wl) by (unfold will; by rewrite Ep).
  assert (Had : forall w k r, Added v st :: rest = Added (a := A) w k :: r -> w = v) by (intros w k r [= -> _ _]; done).
  destruct (empty y) eqn:Ee.
  - eapply (minv_react gv s _ t v (Added (a := A) v st) rest (y, wl) []); cbn; try done.
    + by left.
    + rewrite Eval. apply le_refl.
    + by intros d z Hd%elem_of_nil.
    + intros Hw. apply Hact. congruence.
    + intros i d e Hi Hc. left. by apply empty_top.
  - eapply (minv_react gv s _ t v (Added (a := A) v st) rest (y, false) (map (fun '(d, e) => (d, ext e y)) (if wl then aedges s v else drop st (aedges s v)))); cbn; try done.
    + by left.
    + rewrite Eval. apply le_refl.
    + intros d z. apply in_sent. intros z' Hz. destruct wl; [done|]. rewrite <- (take_drop st (aedges s v)). apply elem_of_app. by right.
    + intros i d e Hi Hc. destruct wl; [do 3 right; apply sent_in; by eapply elem_of_list_lookup_2|].
      destruct (decide (st <= i)%nat) as [Hsi|Hsi].
      * do 3 right. apply sent_in. apply (elem_of_list_lookup_2 _ (i - st)). rewrite lookup_drop. by replace (st + (i - st)) with i by lia.
      * destruct (leb top y) eqn:Et; [by left|]. do 2 right. left. rewrite Eval, Ewill. unfold le. rewrite Et. split_and!; try done.
        intros st' [= <-]. lia.
Qed.

Lemma minv_astep gv s t c : minv gv s -> ainv A owner n s ->
  (forall u es d e, c = AAdd (a := A) u es -> (d, e) ∈ es -> good e) -> minv (gv ++ noted_at s t c) (astep A owner s t c).
Proof.
  intros HM HI Hg. unfold astep, noted_at. destruct (atodo s t) as [|o rest] eqn:Ht.
  - destruct c as [| |v es|v x|v u]; rewrite ?app_nil_r; try done.
    + destruct (aqueue s t) as [|[v x] q] eqn:Hq; [done|].
      rewrite <- (app_nil_r gv). apply (minv_frame gv [] s _ t [ADec (a := A) v x]); cbn; try done; try (by rewrite Ht).
      * intros w y. apply (flying_step s _ t [ADec (a := A) v x]); [done| |by rewrite Ht; intros ? ?%elem_of_nil].
        intros k Hk. cbn. destruct (decide (k = t)) as [->|]; us; [|by left]. rewrite Hq in Hk. apply elem_of_cons in Hk.
        destruct Hk as [[= -> ->]|?]; [right|by left]. eexists. split; [apply elem_of_list_here|done].
      * intros w y. apply (flying_back s _ t [ADec (a := A) v x]); [done| |].
        -- intros k Hk. left. exists k. left. cbn in Hk. destruct (decide (k = t)) as [->|]; us; [|done]. rewrite Hq. by apply elem_of_list_further.
        -- intros o ->%elem_of_list_singleton [= -> ->]. left. exists t. left. rewrite Hq. apply elem_of_list_here.
      * by intros w y ?%elem_of_nil.
      * by left.
      * rewrite Ht. by intros ? ? ? ?%elem_of_nil.
    + destruct (Nat.eqb_spec (owner v) t) as [Hv|]; [|done].
      assert (Hf : forall w y, flying (Ast (aact s) (aqueue s) (aprop s) (upd (aedges s) v (aedges s v ++ es)) (upd (atodo s) t [Added v (length (aedges s v))]) (alog s)) w y <-> flying s w y).
      { intros w y. split.
        - intros (k & [H|(o & H & Hn)]); [exists k; by left|]. cbn in H. destruct (decide (k = t)) as [->|]; us; [|exists k; right; eauto].
          apply elem_of_list_singleton in H as ->. done.
        - intros (k & [H|(o & H & Hn)]); [exists k; by left|]. exists k. right. exists o. cbn. destruct (decide (k = t)) as [->|]; us; [|done].
          rewrite Ht in H. by apply elem_of_nil in H. }
      assert (Hsub : forall u y, y ∈ aedges s u -> y ∈ upd (aedges s) v (aedges s v ++ es) u).
      { intros u y Hy. destruct (decide (u = v)) as [->|]; us; [|done]. apply elem_of_app. by left. }
      constructor; cbn.
      * intros w. eapply ok_weaken; [| |apply (m_vok _ _ HM)]; done.
      * intros w y Hy%Hf. eapply ok_weaken; [| |apply (m_fok _ _ HM _ _ Hy)]; done.
      * intros u d e Hin. destruct (decide (u = v)) as [->|]; us; [|by eapply (m_good _ _ HM)].
        apply elem_of_app in Hin. destruct Hin as [?|?]; [by eapply (m_good _ _ HM)|by eapply Hg].
      * apply (m_top _ _ HM).
      * intros w Hw. destruct (m_will _ _ HM w Hw) as [?|(x & k & H)]; [by left|right; exists x, k].
        destruct (decide (owner w = t)) as [Hwt|]; us; [|done]. rewrite Hwt, Ht in H. by apply elem_of_nil in H.
      * intros w y Hy. destruct (m_gv _ _ HM w y Hy) as [?|?]; [by left|right; by apply Hf].
      * intros u i d e Hi.
        assert (Hold : aedges s u !! i = Some (d, e) \/ (u = v /\ length (aedges s v) <= i)%nat).
        { destruct (decide (u = v)) as [->|]; us; [|by left]. apply lookup_app_Some in Hi. destruct Hi as [?|[? _]]; [by left|by right]. }
        unfold covered. destruct Hold as [Hold|[-> Hlen]].
        -- destruct (m_cov _ _ HM u i d e Hold) as [?|[?|[?|[(x & ? & ?)|(st & r & ? & Hst)]]]]; [by left|by right; left|by do 2 right; left| |].
           ++ do 3 right; left. exists x. split; [done|]. by apply Hf.
           ++ do 4 right. exists st, r. split; [done|]. cbn. destruct (decide (owner u = t)) as [Hu|]; us; [|done]. rewrite Hu, Ht in Hst. done.
        -- do 4 right. exists (length (aedges s v)), []. split; [done|]. cbn. rewrite Hv. by us.
    + apply (minv_frame gv [(v, x)] s _ t [Inc (a := A) v x]); cbn; try done; try (by rewrite Ht).
      * intros w y. apply (flying_step s _ t [Inc (a := A) v x]); [done| |by rewrite Ht; intros ? ?%elem_of_nil]. intros k Hk. by left.
      * intros w y. apply (flying_back s _ t [Inc (a := A) v x]); [done| |].
        -- intros k Hk. left. exists k. by left.
        -- intros o ->%elem_of_list_singleton [= -> ->]. right. apply elem_of_list_here.
      * intros w y [= -> ->]%elem_of_list_singleton. exists t. right. exists (Inc (a := A) v x). cbn. us. split; [apply elem_of_list_here|done].
      * by left.
      * rewrite Ht. by intros ? ? ? ?%elem_of_nil.
    + destruct (Nat.eqb_spec (owner v) t) as [Hv|]; [|done].
      assert (Eu : forall w, upd (aprop s) v (touch A u (aprop s v)) w = aprop s w) by (intros w; destruct (decide (w = v)) as [->|]; us; done).
      destruct HM as [H1 H2 H3 H4 H5 H6 H7].
      constructor; unfold covered, flying, val, will in *; cbn in *; intros; rewrite ?Eu in *; try done; eauto.
  - destruct c; rewrite ?app_nil_r; try done. destruct o as [d x|d x|v x|v x k|v st].
    + cbn [aexec]. rewrite <- (app_nil_r gv). apply (minv_frame gv [] s _ t (APut (a := A) d x :: rest)); cbn; try done; try (by rewrite Ht).
      * intros w y. apply (flying_step s _ t (APut (a := A) d x :: rest)); [done|by left|]. rewrite Ht. intros o [->|Hr]%elem_of_cons Hn; right.
        -- exists (APut (a := A) d x). split; [apply elem_of_list_here|done].
        -- exists o. split; [by apply elem_of_list_further|done].
      * intros w y. apply (flying_back s _ t (APut (a := A) d x :: rest)); [done| |].
        -- intros k Hk. left. exists k. by left.
        -- intros o [->|Hr]%elem_of_cons Hn; left; exists t; right; rewrite Ht.
           ++ exists (Inc (a := A) d x). split; [apply elem_of_list_here|done].
           ++ exists o. split; [by apply elem_of_list_further|done].
      * by intros w y ?%elem_of_nil.
      * intros w Hw. left. destruct (decide (w = d)) as [->|]; us; lia.
      * rewrite Ht. intros w y k [?|?]%elem_of_cons; [done|by apply elem_of_list_further].
    + cbn [aexec]. rewrite <- (app_nil_r gv). apply (minv_frame gv [] s _ t rest); cbn; try done; try (by rewrite Ht).
      * intros w y. apply (flying_step s _ t rest); [done| |].
        -- intros k Hk. left. cbn. destruct (decide (k = owner d)) as [->|]; us; [|done]. apply elem_of_app. by left.
        -- rewrite Ht. intros o [->|Hr]%elem_of_cons Hn; [left|right; eauto]. injection Hn as -> ->. exists (owner w). cbn. us. apply elem_of_app. right. apply elem_of_list_here.
      * intros w y. apply (flying_back s _ t rest); [done| |].
        -- intros k Hk. cbn in Hk. left. destruct (decide (k = owner d)) as [->|]; us; [|exists k; by left].
           apply elem_of_app in Hk. destruct Hk as [?|Hk%elem_of_list_singleton]; [exists (owner d); by left|]. injection Hk as -> ->.
           exists t. right. exists (APut (a := A) d x). rewrite Ht. split; [apply elem_of_list_here|done].
        -- intros o Hr Hn; left; exists t; right; rewrite Ht. exists o. split; [by apply elem_of_list_further|done].
      * by intros w y ?%elem_of_nil.
      * by left.
      * rewrite Ht. intros w y k [?|?]%elem_of_cons; done.
    + cbn [aexec]. rewrite <- (app_nil_r gv). set (k := (aact s v - 1)%nat).
      assert (Hv : owner v = t). { destruct (i_mine _ _ _ _ HI t (ADec (a := A) v x)) as [_ H]; [rewrite Ht; apply elem_of_list_here|exact H]. }
      apply (minv_frame gv [] s _ t (Handle (a := A) v x k :: rest)); cbn; try done; try (by rewrite Ht).
      * intros w y. apply (flying_step s _ t (Handle (a := A) v x k :: rest)); [done|by left|]. rewrite Ht. intros o [->|Hr]%elem_of_cons Hn; right.
        -- exists (Handle (a := A) v x k). split; [apply elem_of_list_here|done].
        -- exists o. split; [by apply elem_of_list_further|done].
      * intros w y. apply (flying_back s _ t (Handle (a := A) v x k :: rest)); [done| |].
        -- intros j Hj. left. exists j. by left.
        -- intros o [->|Hr]%elem_of_cons Hn; left; exists t; right; rewrite Ht.
           ++ exists (ADec (a := A) v x). split; [apply elem_of_list_here|done].
           ++ exists o. split; [by apply elem_of_list_further|done].
      * by intros w y ?%elem_of_nil.
      * intros w Hw. destruct (decide (w = v)) as [->|]; us; [right|by left]. exists x, k. rewrite Hv. us. apply elem_of_list_here.
      * rewrite Ht. intros w y j [?|?]%elem_of_cons; [done|by apply elem_of_list_further].
    + by apply minv_handle.
    + by apply minv_added.
Qed.

Lemma minv_arun sched : forall gv s, (forall v, owner v < n)%nat -> notes_by_threads A n sched -> minv gv s -> ainv A owner n s ->
  (forall t u es d e, (t, AAdd (a := A) u es) ∈ sched -> (d, e) ∈ es -> good e) -> minv (gv ++ noted owner s sched) (arun A owner s sched).
Proof.
  induction sched as [|[t c] l IH]; intros gv s Hown Hn HM HI Hg; [cbn; by rewrite app_nil_r|]. cbn [noted arun fold_left]. rewrite app_assoc. apply IH; [done| | | |].
  - intros t' v x Hin. apply (Hn t' v x). by apply elem_of_list_further.
  - apply minv_astep; [done|done|]. intros u es d e -> Hin. eapply (Hg t); [apply elem_of_list_here|done].
  - apply ainv_astep; [done| |done]. intros v x ->. apply (Hn t v x), elem_of_list_here.
  - intros t' u es d e Hin. apply (Hg t' u). by apply elem_of_list_further.
Qed.

Lemma msg_result es sched v : (forall v, owner v < n)%nat -> notes_by_threads A n sched ->
  (forall u d e, (d, e) ∈ es u -> good e) -> (forall t u es d e, (t, AAdd (a := A) u es) ∈ sched -> (d, e) ∈ es -> good e) ->
  let s0 := astart A (fun _ => (top, false)) es in let s := arun A owner s0 sched in
  (forall t, atodo s t = []) -> (forall t, aqueue s t = []) ->
  best le top (walk ext (noted owner s0 sched) (aedges s) v) (fst (aprop s v)).
Proof.
  intros Hown Hn Hg1 Hg2 s0 s Ht Hq.
  pose proof (ainv_arun A owner n sched _ Hown Hn (ainv_start A owner n (fun _ => (top, false)) es)) as HI. fold s0 s in HI.
  pose proof (minv_arun sched [] s0 Hown Hn (minv_start es Hg1) (ainv_start A owner n _ es) Hg2) as HM. fold s in HM. cbn [app] in HM.
  assert (Hnf : forall w x, ~ flying s w x). { intros w x (t & [H|(o & H & _)]); [rewrite Hq in H|rewrite Ht in H]; by apply elem_of_nil in H. }
  assert (Hact : forall w, aact s w = 0). { intros w. rewrite (i_act _ _ _ _ HI w), Hq, !sumt_zero; [done|by intros; rewrite Ht|by intros; rewrite Ht]. }
  assert (Hw : forall w, will s w = false).
  { intros w. destruct (will s w) eqn:Ew; [|done]. destruct (m_will _ _ HM w Ew) as [H|(x & k & H)]; [rewrite Hact in H; lia|]. rewrite Ht in H. by apply elem_of_nil in H. }
  split_and!.
  - apply (m_vok _ _ HM).
  - apply (m_top _ _ HM).
  - intros y Hy. change (le (val s v) y). induction Hy as [v x Hx|u v e x Hu IH He].
    + destruct (m_gv _ _ HM v x Hx) as [?|Hf]; [done|]. by apply Hnf in Hf.
    + pose proof (ext_mono e _ _ IH) as Hm. destruct (elem_of_list_lookup_1 _ _ He) as [i Hi].
      destruct (m_cov _ _ HM u i v e Hi) as [H|[H|[H|[(y & _ & Hf)|(st & r & _ & H)]]]].
      * eapply le_trans; [apply (m_top _ _ HM)|]. eapply le_trans; [|exact Hm]. apply ext_top; [|done]. by eapply (m_good _ _ HM).
      * by rewrite Hw in H.
      * by eapply le_trans.
      * by apply Hnf in Hf.
      * by rewrite Ht in H.
Qed.
End proofs.
