(** The value of every vertex is the best over all walks once everything is quiet. *)
From Verif Require Import Base Engine_Spec Engine_Model Engine_Proofs Engine_Shape Min_Spec Min_Model.
Open Scope nat_scope.

Section proofs.
Context {V E : Type} (leb : V -> V -> bool) (top : V) (ext : E -> V -> V) (below : bool) (owner : nat -> nat) (n : nat).
Definition le (x y : V) : Prop := leb x y = true.
Context (le_total : forall x y, le x y \/ le y x) (le_trans : forall x y z, le x y -> le y z -> le x z).
Context (ext_mono : forall e x y, le x y -> le (ext e x) (ext e y)) (good : E -> Prop) (ext_top : forall e x, good e -> le top x -> le top (ext e x)).
Notation A := (min_alg V E leb top ext below).
Implicit Types (s : est A) (gv : list (nat * V)).

Lemma le_refl x : le x x.
Proof. by destruct (le_total x x). Qed.
Lemma nle x y : leb x y = false -> le y x.
Proof. intros H. destruct (le_total x y) as [H'|H']; [|done]. unfold le in H'. congruence. Qed.

Definition bx s v : V := hd top (box s v).
Definition ok gv (es : nat -> list (nat * E)) v x : Prop := walk ext gv es v x \/ le top x.
Definition opok gv s (o : op A) : Prop :=
  match o with
  | Merge u d m => ok gv (edges s) d m
  | Begin _ (KDel _) | Scan _ (KDel _) _ _ => False
  | Scan v _ i got => got = [] \/ exists x, got = [x] /\ ok gv (edges s) v x /\ le (bx s v) x /\ (le x (bx s v) \/ unanswered (elog s) v)
  | Else l => forall u d m, (u, d, m) ∈ l -> ok gv (edges s) d m
  | Init v m => (v, m) ∈ gv
  | _ => True
  end.
(** The edge at position [i] of [u] was told the value of [u], or is about to be. *)
Definition covered s (u i d : nat) (e : E) : Prop :=
  le top (prop s u) \/ le (bx s d) (ext e (prop s u)) \/
  (exists m, le m (ext e (prop s u)) /\ Merge (a := A) u d m ∈ todo s (owner u)) \/
  (exists st, (st <= i)%nat /\ (todo s (owner u) = [Begin u (KAdd st)] \/ exists j got, todo s (owner u) = [Scan u (KAdd st) j got])) \/
  (exists l m, todo s (owner u) = [Else (a := A) l] /\ sent s (owner u) = 0%nat /\ (u, d, m) ∈ l /\ le m (ext e (prop s u))).

Record minv gv s : Prop := Minv {
  m_box : forall v, exists c, box s v = [c];
  m_bok : forall v, ok gv (edges s) v (bx s v);
  m_pok : forall v, ok gv (edges s) v (prop s v);
  m_ops : forall t o, o ∈ todo s t -> opok gv s o;
  m_good : forall u d e, (d, e) ∈ edges s u -> good e;
  m_top : forall v, le (bx s v) top;
  m_low : forall v, le (bx s v) (prop s v);
  m_wake : forall v, le (prop s v) (bx s v) \/ unanswered (elog s) v \/ exists k i got, Scan v k i got ∈ todo s (owner v);
  m_gv : forall v m, (v, m) ∈ gv -> le (bx s v) m \/ exists t, Init (a := A) v m ∈ todo s t;
  m_cov : forall u i d e, edges s u !! i = Some (d, e) -> covered s u i d e }.

Lemma walk_weaken gv gv' es es' v x : (forall y, y ∈ gv -> y ∈ gv') -> (forall u y, y ∈ es u -> y ∈ es' u) ->
  walk ext gv es v x -> walk ext gv' es' v x.
Proof. intros H1 H2. induction 1; [apply walk_given; auto|eapply walk_edge; eauto]. Qed.
Lemma ok_weaken gv gv' es es' v x : (forall y, y ∈ gv -> y ∈ gv') -> (forall u y, y ∈ es u -> y ∈ es' u) -> ok gv es v x -> ok gv' es' v x.
Proof. intros H1 H2 [H|H]; [left|by right]. by apply (walk_weaken gv gv' es). Qed.
Lemma ok_ext gv es u v e x : good e -> ok gv es u x -> (v, e) ∈ es u -> ok gv es v (ext e x).
Proof. intros Hg [H|H] He; [left; by eapply walk_edge|right; by apply ext_top]. Qed.

Lemma minv_start es : (forall u d e, (d, e) ∈ es u -> good e) -> minv [] (estart A (fun _ => [top]) (fun _ => top) es).
Proof.
  intros Hes. constructor; cbn; intros.
  - eauto.
  - right. apply le_refl.
  - right. apply le_refl.
  - by apply elem_of_nil in H.
  - by eapply Hes.
  - apply le_refl.
  - apply le_refl.
  - left. apply le_refl.
  - by apply elem_of_nil in H.
  - left. apply le_refl.
Qed.

(** Frame for steps that change neither mailboxes, properties nor edges. *)
Lemma opok_frame gv s s' o : box s' = box s -> edges s' = edges s -> (forall v, unanswered (elog s) v -> unanswered (elog s') v) ->
  opok gv s o -> opok gv s' o.
Proof.
  intros Hb He Hl. unfold opok, bx. rewrite Hb, He. destruct o as [| | | |? []|? [] ? ?| |]; try done.
  - intros [?|(x & ? & ? & ? & H)]; [by left|right]. exists x. split_and!; try done. destruct H; auto.
  - intros [?|(x & ? & ? & ? & H)]; [by left|right]. exists x. split_and!; try done. destruct H; auto.
Qed.

Lemma unanswered_told l v w : unanswered l v -> unanswered (l ++ [Told w]) v.
Proof.
  intros (l1 & l2 & -> & H). exists l1, (l2 ++ [Told w]). split; [by rewrite <- app_assoc|].
  rewrite elem_of_app, elem_of_list_singleton. intros [?|?]; [done|discriminate].
Qed.
Lemma unanswered_told_here l w : unanswered (l ++ [Told w]) w.
Proof. exists l, []. split; [done|]. by apply not_elem_of_nil. Qed.
Lemma unanswered_began l v w : v <> w -> unanswered l v -> unanswered (l ++ [Began w]) v.
Proof.
  intros Hne (l1 & l2 & -> & H). exists l1, (l2 ++ [Began w]). split; [by rewrite <- app_assoc|].
  rewrite elem_of_app, elem_of_list_singleton. intros [?|[= ?]]; done.
Qed.
(** A step that leaves mailboxes, properties and edges alone. *)
Lemma minv_frame gv s s' t o rest new : minv gv s -> todo s t = o :: rest ->
  box s' = box s -> prop s' = prop s -> edges s' = edges s -> todo s' = upd (todo s) t (new ++ rest) -> (forall k, k <> t -> sent s' k = sent s k) ->
  (forall v, unanswered (elog s) v -> unanswered (elog s') v) ->
  Forall (opok gv s') new ->
  (forall v k i got, o = Scan v k i got -> False) -> (forall v m, o = Init (a := A) v m -> False) ->
  (forall u i d e, owner u = t -> edges s u !! i = Some (d, e) -> covered s u i d e -> covered s' u i d e) ->
  minv gv s'.
Proof.
  intros HM Ht Eb Ep Ee Et Es Hl Hnew Hsc Hin Hcov.
  assert (Ebx : forall v, bx s' v = bx s v) by (intros; unfold bx; by rewrite Eb).
  constructor.
  - intros v. rewrite Eb. apply (m_box _ _ HM).
  - intros v. rewrite Ee, Ebx. apply (m_bok _ _ HM).
  - intros v. rewrite Ee, Ep. apply (m_pok _ _ HM).
  - intros k o' Ho'. rewrite Et in Ho'. destruct (decide (k = t)) as [->|Hne]; us.
    + apply elem_of_app in Ho'. destruct Ho' as [Ho'|Ho']; [by apply (proj1 (list.Forall_forall _ _) Hnew)|].
      apply (opok_frame gv s); [done..|]. apply (m_ops _ _ HM t). rewrite Ht. by apply elem_of_list_further.
    + apply (opok_frame gv s); [done..|]. by apply (m_ops _ _ HM k).
  - intros u d e. rewrite Ee. apply (m_good _ _ HM).
  - intros v. rewrite Ebx. apply (m_top _ _ HM).
  - intros v. rewrite Ebx, Ep. apply (m_low _ _ HM).
  - intros v. rewrite Ebx, Ep. destruct (m_wake _ _ HM v) as [?|[?|(k & i & got & H)]]; [by left|right; left; by apply Hl|].
    right; right. exists k, i, got. rewrite Et. destruct (decide (owner v = t)) as [Hv|Hne].
    + rewrite Hv in *. us. rewrite Ht in H. apply elem_of_cons in H. destruct H as [H|H]; [exfalso; by eapply Hsc|].
      apply elem_of_app. by right.
    + by us.
  - intros v m Hm. rewrite Ebx. destruct (m_gv _ _ HM v m Hm) as [?|(k & H)]; [by left|right]. exists k. rewrite Et.
    destruct (decide (k = t)) as [->|Hne]; us; [|done]. rewrite Ht in H. apply elem_of_cons in H. destruct H as [H|H]; [exfalso; by eapply Hin|].
    apply elem_of_app. by right.
  - intros u i d e He. rewrite Ee in He. pose proof (m_cov _ _ HM u i d e He) as Hc.
    destruct (decide (owner u = t)) as [Hu|Hu]; [by eapply Hcov|].
    unfold covered in *. rewrite Ebx, Ep, Et, Es by done. by us.
Qed.

(** A covered edge stays covered while its source sends, when no merge is taken off the list. *)
Lemma covered_send s s' t o rest new u i d e : todo s t = o :: rest -> owner u = t ->
  box s' = box s -> prop s' = prop s -> todo s' = upd (todo s) t (new ++ rest) ->
  (forall w x m, o = Merge (a := A) w x m -> False) -> (forall v k, o = Begin v k -> False) -> (forall v k j got, o = Scan v k j got -> False) ->
  (forall l, o = Else (a := A) l -> False) ->
  covered s u i d e -> covered s' u i d e.
Proof.
  intros Ht Hu Eb Ep Et Hm Hb Hs He. unfold covered, bx. rewrite Eb, Ep, Et, Hu, Ht, upd_eq. intros [?|[?|[(m & Hle & H)|[(st & Hst & [H|(j & got & H)])|(l & m & H & _)]]]].
  - by left.
  - right; by left.
  - right; right; left. exists m. split; [done|]. apply elem_of_cons in H. destruct H as [H|H]; [exfalso; by eapply Hm|].
    apply elem_of_app. by right.
  - injection H as H _. exfalso. by eapply Hb.
  - injection H as H _. exfalso. by eapply Hs.
  - injection H as H _. exfalso. by eapply He.
Qed.

Lemma sent_upd_ne {B} (f : nat -> B) t x : forall k, k <> t -> upd f t x k = f k.
Proof. intros k Hk. by us. Qed.

Lemma minv_cas gv s t d rest : minv gv s -> todo s t = Cas d :: rest -> minv gv (exec_op A owner s t (Cas d) rest).
Proof.
  intros HM Ht. cbn [exec_op]. destruct (act s d =? 0)%nat.
  - apply (minv_frame gv s _ t (Cas d) rest [Put d]); try done; [by repeat constructor|].
    intros u i x e Hu _. by apply (covered_send s _ t (Cas d) rest [Put d]).
  - apply (minv_frame gv s _ t (Cas d) rest []); try done.
    intros u i x e Hu _. by apply (covered_send s _ t (Cas d) rest []).
Qed.
Lemma minv_put gv s t d rest : minv gv s -> todo s t = Put d :: rest -> minv gv (exec_op A owner s t (Put d) rest).
Proof.
  intros HM Ht. cbn [exec_op]. apply (minv_frame gv s _ t (Put d) rest []); try done.
  - apply sent_upd_ne.
  - intros u i x e Hu _. by apply (covered_send s _ t (Put d) rest []).
Qed.
Lemma minv_dec gv s t d rest : minv gv s -> todo s t = Dec d :: rest -> minv gv (exec_op A owner s t (Dec d) rest).
Proof.
  intros HM Ht. cbn [exec_op]. apply (minv_frame gv s _ t (Dec d) rest []); try done.
  intros u i x e Hu _. by apply (covered_send s _ t (Dec d) rest []).
Qed.
Lemma minv_else gv s t v x : minv gv s -> owner v = t -> todo s t = [Else (tag A v x)] -> minv gv (exec_op A owner s t (Else (tag A v x)) []).
Proof.
  intros HM Hv Ht. cbn [exec_op]. destruct (Nat.eqb_spec (sent s t) 0) as [H0|H0].
  - rewrite map_tag, app_nil_r. pose proof (m_ops _ _ HM t (Else (tag A v x)) ltac:(rewrite Ht; apply elem_of_list_here)) as Hok.
    apply (minv_frame gv s _ t (Else (tag A v x)) [] (merges A v x)); try done.
    + cbn. by rewrite app_nil_r.
    + apply list.Forall_forall. intros o Ho. unfold merges in Ho. apply elem_of_list_fmap in Ho. destruct Ho as ([d m] & -> & Hin).
      cbn. apply (Hok v d m). apply elem_of_list_fmap. by exists (d, m).
    + intros u i d e Hu Hi. unfold covered. cbn [todo]. rewrite Hu, Ht, upd_eq.
      intros [?|[?|[(m & Hle & H)|[(st & Hst & [H|(j & got & H)])|(l & m & H & _ & Hin & Hle)]]]]; try discriminate.
      * by left.
      * right; by left.
      * apply elem_of_list_singleton in H. discriminate.
      * right; right; left. injection H as <-. exists m. split; [done|]. apply elem_of_list_fmap in Hin. destruct Hin as ([d' m'] & [= -> -> ->] & Hin).
        apply elem_of_list_fmap. by exists (d', m').
  - apply (minv_frame gv s _ t (Else (tag A v x)) [] []); try done.
    intros u i d e Hu Hi. unfold covered. cbn [todo]. rewrite Hu, Ht, upd_eq.
    intros [?|[?|[(m & Hle & H)|[(st & Hst & [H|(j & got & H)])|(l & m & H & Hs & _)]]]]; try discriminate.
    * by left.
    * right; by left.
    * apply elem_of_list_singleton in H. discriminate.
    * congruence.
Qed.

(** The scan begins.  [v] has no other scan, because only its owner scans it. *)
Lemma minv_begin gv s t v k : minv gv s -> owner v = t -> todo s t = [Begin v k] -> (forall t' k' i got, Scan v k' i got ∈ todo s t' -> t' = owner v) ->
  minv gv (exec_op A owner s t (Begin v k) []).
Proof.
  intros HM Hv Ht Hsc. cbn [exec_op]. set (s' := Est _ _ _ _ _ _ _ _).
  assert (Hun : forall w, w <> v -> unanswered (elog s) w -> unanswered (elog s') w) by (intros; by apply unanswered_began).
  constructor.
  - apply (m_box _ _ HM).
  - apply (m_bok _ _ HM).
  - apply (m_pok _ _ HM).
  - intros j o Ho. cbn in Ho. destruct (decide (j = t)) as [->|Hne]; us.
    + apply elem_of_list_singleton in Ho. subst o. pose proof (m_ops _ _ HM t (Begin v k) ltac:(rewrite Ht; apply elem_of_list_here)) as Hk.
      destruct k; cbn in *; [by left|by left|done].
    + pose proof (m_ops _ _ HM j o Ho) as H. destruct o as [| | | |? []|w [] ? ?| |]; try done; cbn in *.
      * destruct H as [?|(x & ? & ? & ? & H)]; [by left|right]. exists x. split_and!; try done. destruct H as [?|?]; [by left|right].
        apply Hun; [|done]. intros ->. apply Hsc in Ho. congruence.
      * destruct H as [?|(x & ? & ? & ? & H)]; [by left|right]. exists x. split_and!; try done. destruct H as [?|?]; [by left|right].
        apply Hun; [|done]. intros ->. apply Hsc in Ho. congruence.
  - apply (m_good _ _ HM).
  - apply (m_top _ _ HM).
  - apply (m_low _ _ HM).
  - intros w. destruct (decide (w = v)) as [->|Hne].
    + right; right. exists k, 0%nat, []. cbn. rewrite Hv, upd_eq. apply elem_of_list_here.
    + destruct (m_wake _ _ HM w) as [?|[?|(kk & i & got & H)]]; [by left|right; left; by apply Hun|]. right; right. exists kk, i, got.
      cbn. destruct (decide (owner w = t)) as [Hw|Hw]; us; [|done]. rewrite Hw, Ht in H. apply elem_of_list_singleton in H. discriminate.
  - intros w m Hm. destruct (m_gv _ _ HM w m Hm) as [?|(j & H)]; [by left|right]. exists j. cbn. destruct (decide (j = t)) as [->|Hne]; us; [|done].
    rewrite Ht in H. apply elem_of_list_singleton in H. discriminate.
  - intros u i d e He. pose proof (m_cov _ _ HM u i d e He) as Hc. unfold covered in *. cbn [todo s' prop sent]. change (bx s' d) with (bx s d).
    destruct (decide (owner u = t)) as [Hu|Hu]; [|by us]. rewrite Hu, Ht in Hc. rewrite Hu, upd_eq.
    destruct Hc as [?|[?|[(m & Hle & H)|[(st & Hst & [H|(j & got & H)])|(l & m & H & _)]]]]; try discriminate.
    + by left.
    + right; by left.
    + apply elem_of_list_singleton in H. discriminate.
    + right; right; right; left. injection H as <- ->. exists st. split; [done|]. right. by exists 0%nat, [].
Qed.

(** Mail is merged, by [Merge] or [Init]. *)
Lemma minv_mail gv s s' t o rest new d m : minv gv s -> todo s t = o :: rest ->
  ((exists u, owner u = t /\ o = Merge (a := A) u d m) \/ o = Init (a := A) d m) ->
  (forall o', o' ∈ new -> o' = Cas d \/ o' = Begin d KUpd) ->
  s' = (let '(b, isnew) := merge A m d d (box s d) in
        Est (upd (box s) d b) (act s) (queue s) (prop s) (edges s) (upd (todo s) t (if isnew then new ++ rest else rest))
            (sent s) (if isnew then elog s ++ [Told d] else elog s)) -> minv gv s'.
Proof.
  intros HM Ht Ho Hnew Hs'.
  assert (Hok : ok gv (edges s) d m).
  { pose proof (m_ops _ _ HM t o ltac:(rewrite Ht; apply elem_of_list_here)) as H.
    destruct Ho as [(u & _ & ->)| ->]; [exact H|]. left. by apply walk_given. }
  destruct (m_box _ _ HM d) as [c Hc]. assert (Hbd : bx s d = c) by (unfold bx; by rewrite Hc).
  assert (Hs : exists c' nw lg, le c' c /\ le c' m /\ (c' = c \/ c' = m) /\ (lg = elog s /\ c' = c \/ lg = elog s ++ [Told d]) /\ (forall o', o' ∈ nw -> o' = Cas d \/ o' = Begin d KUpd) /\
     s' = Est (upd (box s) d [c']) (act s) (queue s) (prop s) (edges s) (upd (todo s) t (nw ++ rest)) (sent s) lg).
  { rewrite Hc in Hs'. cbn in Hs'. destruct (leb c m) eqn:Hcm.
    - exists c, [], (elog s). split_and!; [apply le_refl|done|by left|by left|by intros ? ?%elem_of_nil|done].
    - exists m, new, (elog s ++ [Told d]). split_and!; [by apply nle|apply le_refl|by right|by right|done|done]. }
  clear Hs' Hnew new. destruct Hs as (c' & nw & lg & Hcc & Hcm & Hor & Hlg & Hnw & ->).
  set (s' := Est _ _ _ _ _ _ _ _).
  assert (Hbx : forall v, le (bx s' v) (bx s v)).
  { intros v. unfold bx. cbn. destruct (decide (v = d)) as [->|Hne]; us; [|apply le_refl]. by rewrite Hc. }
  assert (Hbd' : bx s' d = c') by (unfold bx; cbn; by us).
  assert (Hbne : forall v, v <> d -> bx s' v = bx s v) by (intros v Hne; unfold bx; cbn; by us).
  assert (Hun : forall v, unanswered (elog s) v -> unanswered (elog s') v).
  { intros v Hu. cbn. destruct Hlg as [[-> _]| ->]; [done|by apply unanswered_told]. }
  assert (Hud : c' = c \/ unanswered (elog s') d).
  { destruct Hlg as [[_ ->]|Hl]; [by left|right]. cbn. rewrite Hl. apply unanswered_told_here. }
  assert (Hkeep : forall j o', o' ∈ todo s j -> o' = o \/ o' ∈ todo s' j).
  { intros j o' Hin. cbn. destruct (decide (j = t)) as [->|]; us; [|by right]. rewrite Ht in Hin.
    apply elem_of_cons in Hin. destruct Hin as [?|Hin]; [by left|]. right. apply elem_of_app. by right. }
  constructor.
  - intros v. cbn. destruct (decide (v = d)) as [->|Hne]; us; [eauto|]. apply (m_box _ _ HM).
  - intros v. destruct (decide (v = d)) as [->|Hne]; [|rewrite Hbne by done; apply (m_bok _ _ HM)].
    rewrite Hbd'. destruct Hor as [->| ->]; [|done]. rewrite <- Hbd. apply (m_bok _ _ HM).
  - apply (m_pok _ _ HM).
  - intros j o' Hin.
    assert (Hin' : (o' = Cas d \/ o' = Begin d KUpd) \/ o' ∈ todo s j).
    { cbn in Hin. destruct (decide (j = t)) as [->|]; us; [|by right]. apply elem_of_app in Hin. destruct Hin as [Hin|Hin]; [by left; apply Hnw|].
      right. rewrite Ht. by apply elem_of_list_further. }
    destruct Hin' as [[-> | ->]|Hin']; [done|done|].
    assert (Hscan : forall v got, (got = [] \/ ∃ x, got = [x] /\ ok gv (edges s) v x /\ le (bx s v) x /\ (le x (bx s v) \/ unanswered (elog s) v)) ->
       got = [] \/ ∃ x, got = [x] /\ ok gv (edges s) v x /\ le (bx s' v) x /\ (le x (bx s' v) \/ unanswered (elog s') v)).
    { intros v got [?|(x & ? & ? & Hl & H)]; [by left|right]. exists x. split_and!; try done; [by eapply le_trans|].
      destruct (decide (v = d)) as [->|Hne]; [|rewrite Hbne by done; destruct H; auto].
      destruct Hud as [->|?]; [|by right]. rewrite Hbd', <- Hbd. destruct H; auto. }
    pose proof (m_ops _ _ HM j o' Hin') as H. destruct o' as [| | | |? []|w [] ? ?| |]; try done; by apply Hscan.
  - apply (m_good _ _ HM).
  - intros v. eapply le_trans; [apply Hbx|apply (m_top _ _ HM)].
  - intros v. eapply le_trans; [apply Hbx|apply (m_low _ _ HM)].
  - intros v. destruct (m_wake _ _ HM v) as [H|[H|(k & i & got & H)]].
    + destruct (decide (v = d)) as [->|Hne]; [|left; by rewrite Hbne].
      destruct Hud as [->|?]; [|by right; left]. left. by rewrite Hbd', <- Hbd.
    + right; left. by apply Hun.
    + right; right. exists k, i, got. destruct (Hkeep _ _ H) as [<-|?]; [|done]. destruct Ho as [(? & _ & ?)|?]; discriminate.
  - intros v x Hx. destruct (m_gv _ _ HM v x Hx) as [H|(j & H)]; [left; by eapply le_trans|].
    destruct (Hkeep _ _ H) as [He|?]; [|right; by exists j].
    left. destruct Ho as [(? & _ & ->)| ->]; [discriminate|]. injection He as -> ->. by rewrite Hbd'.
  - intros u i d' e He. pose proof (m_cov _ _ HM u i d' e He) as Hcv.
    destruct Hcv as [H|[H|[(x & Hle & H)|[(st & Hst & H)|(l & x & H & H0 & Hin & Hle)]]]].
    + by left.
    + right; left. eapply le_trans; [apply Hbx|done].
    + destruct (Hkeep _ _ H) as [Hx|Hx].
      * right; left. destruct Ho as [(? & _ & ->)| ->]; [|discriminate]. injection Hx as -> -> ->. rewrite Hbd'. by eapply le_trans.
      * right; right; left. exists x. done.
    + do 3 right; left. exists st. split; [done|]. cbn.
      destruct (decide (owner u = t)) as [Hu|Hu]; [|by us]. exfalso. rewrite Hu, Ht in H.
      destruct H as [H|(j & got & H)]; injection H as -> _; destruct Ho as [(? & _ & ?)|?]; discriminate.
    + do 4 right. exists l, x. split_and!; try done. cbn. destruct (decide (owner u = t)) as [Hu|Hu]; [|by us]. exfalso. rewrite Hu, Ht in H.
      injection H as -> _; destruct Ho as [(? & _ & ?)|?]; discriminate.
Qed.

Lemma minv_merge gv s t u d m rest : minv gv s -> owner u = t -> todo s t = Merge u d m :: rest -> minv gv (exec_op A owner s t (Merge u d m) rest).
Proof.
  intros HM Hu Ht. apply (minv_mail gv s _ t (Merge (a := A) u d m) rest [Cas d] d m); try done.
  - left. by exists u.
  - intros o' ->%elem_of_list_singleton. by left.
Qed.
Lemma minv_init gv s t v m : minv gv s -> todo s t = [Init v m] -> minv gv (exec_op A owner s t (Init v m) []).
Proof.
  intros HM Ht. apply (minv_mail gv s _ t (Init (a := A) v m) [] [Begin v KUpd] v m); try done.
  - by right.
  - intros o' ->%elem_of_list_singleton. by right.
Qed.

(** The mailbox is read. *)
Lemma minv_read gv s t v k i got : minv gv s -> owner v = t -> todo s t = [Scan v k i got] -> i = length got -> (i < length (box s v))%nat ->
  minv gv (exec_op A owner s t (Scan v k i got) []).
Proof.
  intros HM Hv Ht Hi Hlt. destruct (m_box _ _ HM v) as [c Hc]. rewrite Hc in Hlt. simpl in Hlt.
  destruct got as [|]; [|simpl in Hi; lia]. subst i. cbn [exec_op]. rewrite Hc. cbn.
  pose proof (m_ops _ _ HM t _ ltac:(rewrite Ht; apply elem_of_list_here)) as Hk.
  set (s' := Est _ _ _ _ _ _ _ _).
  assert (Hbx : forall w, bx s' w = bx s w).
  { intros w. unfold bx. cbn. destruct (decide (w = v)) as [->|Hne]; us; [by rewrite Hc|done]. }
  assert (Hbox : forall w, box s' w = box s w).
  { intros w. cbn. destruct (decide (w = v)) as [->|Hne]; us; done. }
  constructor.
  - intros w. rewrite Hbox. apply (m_box _ _ HM).
  - intros w. rewrite Hbx. apply (m_bok _ _ HM).
  - apply (m_pok _ _ HM).
  - intros j o Ho. cbn in Ho. destruct (decide (j = t)) as [->|Hne]; us.
    + apply elem_of_list_singleton in Ho. subst o.
      assert (H : ∃ x, [c] = [x] /\ ok gv (edges s) v x /\ le (bx s' v) x /\ (le x (bx s' v) \/ unanswered (elog s) v)).
      { exists c. assert (Hb : bx s v = c) by (unfold bx; by rewrite Hc). rewrite Hbx, Hb. split_and!; [done| |apply le_refl|left; apply le_refl].
        rewrite <- Hb. apply (m_bok _ _ HM). }
      destruct k; cbn in *; [by right|by right|done].
    + pose proof (m_ops _ _ HM j o Ho) as H. destruct o as [| | | |? []|w [] ? ?| |]; try done; cbn in *; rewrite Hbx; done.
  - apply (m_good _ _ HM).
  - intros w. rewrite Hbx. apply (m_top _ _ HM).
  - intros w. rewrite Hbx. apply (m_low _ _ HM).
  - intros w. rewrite Hbx. destruct (m_wake _ _ HM w) as [?|[?|(kk & i & got & H)]]; [by left|by right; left|]. right; right.
    cbn. destruct (decide (owner w = t)) as [Hw|Hw]; us; [|by exists kk, i, got]. rewrite Hw, Ht in H. apply elem_of_list_singleton in H.
    injection H as -> -> _ _. rewrite Hw. us. exists k, 1%nat, [c]. apply elem_of_list_here.
  - intros w m Hm. rewrite Hbx. destruct (m_gv _ _ HM w m Hm) as [?|(j & H)]; [by left|right]. exists j. cbn. destruct (decide (j = t)) as [->|Hne]; us; [|done].
    rewrite Ht in H. apply elem_of_list_singleton in H. discriminate.
  - intros u i d e He. pose proof (m_cov _ _ HM u i d e He) as Hcv. unfold covered in *. rewrite Hbx. cbn [todo s' prop sent].
    destruct (decide (owner u = t)) as [Hu|Hu]; [|by us]. rewrite Hu, Ht in Hcv. rewrite Hu, upd_eq.
    destruct Hcv as [?|[?|[(m & Hle & H)|[(st & Hst & [H|(j & got & H)])|(l & m & H & _)]]]]; try discriminate.
    + by left.
    + right; by left.
    + apply elem_of_list_singleton in H. discriminate.
    + right; right; right; left. injection H as <- -> _ _. exists st. split; [done|]. right. by exists 1%nat, [c].
Qed.

(** The update of the vertex. *)
Lemma minv_react gv s t v k got : minv gv s -> owner v = t -> todo s t = [Scan v k (length got) got] -> sent s t = 0%nat -> (length (box s v) <= length got)%nat ->
  minv gv (exec_op A owner s t (Scan v k (length got) got) []).
Proof.
  intros HM Hv Ht Hs0 Hlen. destruct (m_box _ _ HM v) as [c Hc]. pose proof Hlen as Hlen'. rewrite Hc in Hlen'. simpl in Hlen'.
  pose proof (m_ops _ _ HM t _ ltac:(rewrite Ht; apply elem_of_list_here)) as Hk.
  assert (Hx : (forall l, k <> KDel l) /\ exists x, got = [x] /\ ok gv (edges s) v x /\ le (bx s v) x /\ (le x (bx s v) \/ unanswered (elog s) v)).
  { destruct k; cbn in Hk; [split; [done|]|split; [done|]|done]; destruct Hk as [->|?]; simpl in Hlen'; [lia|done|lia|done]. }
  destruct Hx as (Hkd & x & -> & Hxok & Hxle & Hxun). cbn [exec_op length].
  rewrite Hc. cbn [lookup list_lookup react min_alg hd].
  set (p' := if leb (prop s v) x then prop s v else x).
  set (ms := if leb (prop s v) x then [] else map (fun '(d, e) => (d, ext e p')) (edges s v)).
  set (fb := match k with KAdd start => if below && leb top p' then [] else map (fun '(d, e) => (d, ext e p')) (drop start (edges s v)) | _ => [] end).
  set (s' := Est _ _ _ _ _ _ _ _).
  assert (Hp' : ok gv (edges s) v p' /\ le (bx s v) p' /\ (le p' (bx s v) \/ unanswered (elog s) v) /\ le p' (prop s v)).
  { unfold p'. destruct (leb (prop s v) x) eqn:Hcmp.
    - split_and!; [apply (m_pok _ _ HM)|apply (m_low _ _ HM)| |apply le_refl].
      destruct Hxun as [H|H]; [left|by right]. by eapply le_trans.
    - split_and!; try done. by apply nle. }
  destruct Hp' as (Hpok & Hplow & Hpun & Hpp).
  assert (Ht' : todo s' t = merges A v ms ++ [Else (tag A v fb)]) by (unfold s'; cbn [todo]; by us).
  assert (Hmsok : forall d m, (d, m) ∈ ms -> ok gv (edges s) d m).
  { intros d m Hin. unfold ms in Hin. destruct (leb (prop s v) x); [by apply elem_of_nil in Hin|].
    apply elem_of_list_fmap in Hin. destruct Hin as ([d' e'] & [= -> ->] & Hin). apply (ok_ext gv _ v); [by apply (m_good _ _ HM v d')|done..]. }
  assert (Hfbok : forall d m, (d, m) ∈ fb -> ok gv (edges s) d m).
  { intros d m Hin. unfold fb in Hin. destruct k; [by apply elem_of_nil in Hin| |by apply elem_of_nil in Hin]. destruct (below && leb top p'); [by apply elem_of_nil in Hin|].
    apply elem_of_list_fmap in Hin. destruct Hin as ([d' e'] & [= -> ->] & Hin). 
    assert (Hin' : (d', e') ∈ edges s v).
    { apply elem_of_list_lookup in Hin. destruct Hin as [j Hj]. rewrite lookup_drop in Hj. apply elem_of_list_lookup. eauto. }
    apply (ok_ext gv _ v); [by apply (m_good _ _ HM v d')|done..]. }
  constructor.
  - apply (m_box _ _ HM).
  - apply (m_bok _ _ HM).
  - intros w. cbn. destruct (decide (w = v)) as [->|Hne]; us; [done|apply (m_pok _ _ HM)].
  - intros j o Ho. destruct (decide (j = t)) as [->|Hne].
    + rewrite Ht' in Ho. apply elem_of_app in Ho. destruct Ho as [Ho|Ho].
      * apply elem_of_list_fmap in Ho. destruct Ho as ([d m] & -> & Hin). by apply Hmsok.
      * apply elem_of_list_singleton in Ho. subst o. cbn. intros u d m Hin. apply elem_of_list_fmap in Hin.
        destruct Hin as ([d' m'] & [= -> -> ->] & Hin). by apply Hfbok.
    + assert (Ho' : o ∈ todo s j) by (revert Ho; unfold s'; cbn [todo]; by us). exact (m_ops _ _ HM j o Ho').
  - apply (m_good _ _ HM).
  - apply (m_top _ _ HM).
  - intros w. cbn. destruct (decide (w = v)) as [->|Hne]; us; [done|apply (m_low _ _ HM)].
  - intros w. cbn [prop s' elog todo]. destruct (decide (w = v)) as [->|Hne]; us.
    + destruct Hpun as [?|?]; [by left|by right; left].
    + destruct (m_wake _ _ HM w) as [?|[?|(kk & i & got & H)]]; [by left|by right; left|]. right; right. exists kk, i, got.
      destruct (decide (owner w = t)) as [Hw|Hw]; us; [|done]. rewrite Hw, Ht in H. apply elem_of_list_singleton in H. congruence.
  - intros w m Hm. destruct (m_gv _ _ HM w m Hm) as [?|(j & H)]; [by left|right]. exists j.
    destruct (decide (j = t)) as [->|Hne]; [|unfold s'; cbn [todo]; by us].
    rewrite Ht in H. apply elem_of_list_singleton in H. discriminate.
  - intros u i d e He. change (edges s' u) with (edges s u) in He. pose proof (m_cov _ _ HM u i d e He) as Hcv.
    destruct (decide (u = v)) as [->|Hne].
    + unfold covered. change (bx s' d) with (bx s d). replace (prop s' v) with p' by (unfold s'; cbn [prop]; by us).
      rewrite Hv, Ht'. change (sent s' t) with (sent s t).
      unfold ms, p' in *. destruct (leb (prop s v) x) eqn:Hcmp.
      * unfold covered in Hcv. rewrite Hv, Ht in Hcv.
        destruct Hcv as [?|[?|[(m & Hle & H)|[(st & Hst & [H|(j & got & H)])|(l & m & H & _)]]]]; try discriminate.
        -- by left.
        -- right; by left.
        -- apply elem_of_list_singleton in H. discriminate.
        -- injection H as -> _ _. unfold fb. destruct (below && leb top (prop s v)) eqn:Hg.
           ++ left. apply andb_true_iff in Hg. destruct Hg as [_ Hg]. exact Hg.
           ++ do 4 right. eexists _, (ext e (prop s v)). split_and!; [reflexivity|done| |apply le_refl].
              apply elem_of_list_fmap. exists (d, ext e (prop s v)). split; [done|].
              apply elem_of_list_fmap. exists (d, e). split; [done|]. apply elem_of_list_lookup. exists (i - st)%nat.
              rewrite lookup_drop. rewrite <- He. f_equal. lia.
      * right; right; left. exists (ext e x). split; [apply le_refl|]. apply elem_of_app. left.
        apply elem_of_list_fmap. exists (d, ext e x). split; [done|]. apply elem_of_list_fmap. exists (d, e). split; [done|].
        apply elem_of_list_lookup. eauto.
    + unfold covered in *. change (bx s' d) with (bx s d). replace (prop s' u) with (prop s u) by (unfold s'; cbn [prop]; by us).
      destruct (decide (owner u = t)) as [Hu|Hu].
      * rewrite Hu, Ht in Hcv. destruct Hcv as [?|[?|[(m & Hle & H)|[(st & Hst & [H|(j & got & H)])|(l & m & H & _)]]]]; try discriminate.
        -- by left.
        -- right; by left.
        -- apply elem_of_list_singleton in H. discriminate.
        -- congruence.
      * replace (todo s' (owner u)) with (todo s (owner u)) by (unfold s'; cbn [todo]; by us). done.
Qed.

(** A thread with nothing to do starts a task. *)
Lemma minv_task gv gv' s s0 t l : minv gv s -> todo s t = [] -> box s0 = box s -> prop s0 = prop s -> todo s0 = todo s -> elog s0 = elog s -> sent s0 = sent s ->
  (forall u, exists x, edges s0 u = edges s u ++ x) -> (forall u d e, (d, e) ∈ edges s0 u -> good e) -> (forall y, y ∈ gv -> y ∈ gv') ->
  Forall (opok gv' s0) l ->
  (forall v m, (v, m) ∈ gv' -> (v, m) ∈ gv \/ Init (a := A) v m ∈ l) ->
  (forall u i d e, edges s0 u !! i = Some (d, e) -> edges s u !! i = Some (d, e) \/ owner u = t /\ exists st, (st <= i)%nat /\ l = [Begin u (KAdd st)]) ->
  minv gv' (start_task A s0 t l).
Proof.
  intros HM Ht Eb Ep Et El Es Hed Hgood Hgv Hl Hnew Hcov.
  assert (Hw : forall v x, ok gv (edges s) v x -> ok gv' (edges s0) v x).
  { intros v x. apply ok_weaken; [done|]. intros u y Hy. destruct (Hed u) as [z ->]. apply elem_of_app. by left. }
  assert (Hbx : forall v, bx s0 v = bx s v) by (intros; unfold bx; by rewrite Eb).
  constructor; cbn [start_task box prop edges todo elog].
  - intros v. rewrite Eb. apply (m_box _ _ HM).
  - intros v. change (bx (start_task A s0 t l) v) with (bx s0 v). rewrite Hbx. apply Hw, (m_bok _ _ HM).
  - intros v. rewrite Ep. apply Hw, (m_pok _ _ HM).
  - intros j o Ho. destruct (decide (j = t)) as [->|Hne]; us; [by apply (proj1 (list.Forall_forall _ _) Hl) in Ho|].
    rewrite Et in Ho. pose proof (m_ops _ _ HM j o Ho) as H. destruct o as [| | | |? []|w [] ? ?| |]; cbn in *; try done.
    + by apply Hw.
    + change (bx (start_task A s0 t l) w) with (bx s0 w). rewrite Hbx, El. destruct H as [?|(x & ? & ? & ?)]; [by left|right; exists x; auto].
    + change (bx (start_task A s0 t l) w) with (bx s0 w). rewrite Hbx, El. destruct H as [?|(x & ? & ? & ?)]; [by left|right; exists x; auto].
    + intros u d m Hin. by apply Hw, (H u).
    + by apply Hgv.
  - exact Hgood.
  - intros v. change (bx (start_task A s0 t l) v) with (bx s0 v). rewrite Hbx. apply (m_top _ _ HM).
  - intros v. change (bx (start_task A s0 t l) v) with (bx s0 v). rewrite Hbx, Ep. apply (m_low _ _ HM).
  - intros v. change (bx (start_task A s0 t l) v) with (bx s0 v). rewrite Hbx, Ep, El, Et. destruct (m_wake _ _ HM v) as [?|[?|(kk & i & got & H)]]; [by left|by right; left|].
    right; right. exists kk, i, got. destruct (decide (owner v = t)) as [Hv|Hv]; us; [|done]. rewrite Hv, Ht in H. by apply elem_of_nil in H.
  - intros v m Hm. change (bx (start_task A s0 t l) v) with (bx s0 v). rewrite Hbx, Et. destruct (Hnew v m Hm) as [Hm'|Hin].
    + destruct (m_gv _ _ HM v m Hm') as [?|(j & H)]; [by left|right]. exists j. destruct (decide (j = t)) as [->|Hne]; us; [|done].
      rewrite Ht in H. by apply elem_of_nil in H.
    + right. exists t. by us.
  - intros u i d e He. unfold covered. change (bx (start_task A s0 t l) d) with (bx s0 d). cbn [start_task prop todo sent]. rewrite Hbx, Ep, Et.
    destruct (Hcov u i d e He) as [He'|(Hu & st & Hst & ->)].
    + pose proof (m_cov _ _ HM u i d e He') as Hc. unfold covered in Hc.
      destruct (decide (owner u = t)) as [Hu|Hu].
      * rewrite Hu, Ht in Hc. destruct Hc as [?|[?|[(m & Hle & H)|[(st & Hst & [H|(j & got & H)])|(x & m & H & _)]]]]; try discriminate.
        -- by left.
        -- right; by left.
        -- by apply elem_of_nil in H.
      * us. rewrite Es. done.
    + do 3 right; left. exists st. split; [done|]. left. rewrite Hu. by us.
Qed.

Lemma minv_estep gv s t c : minv gv s -> wake A owner n s -> shaped A owner s -> (forall v gone, c <> DelEdges v gone) ->
  (forall v l d e, c = AddEdges (a := A) v l -> (d, e) ∈ l -> good e) ->
  minv (gv ++ given_at owner s t c) (estep A owner s t c).
Proof.
  intros HM HW HS Hc Hg. unfold estep, given_at. destruct (todo s t) as [|o rest] eqn:Ht.
  - destruct c as [| |v es|v gone|v m]; try (by rewrite app_nil_r).
    + rewrite app_nil_r. destruct (queue s t) as [|v q] eqn:Hq; [done|]. apply (minv_task gv gv s); try done.
      * intros u. exists []. by rewrite app_nil_r.
      * apply (m_good _ _ HM).
      * by repeat constructor.
      * intros; by left.
      * intros; by left.
    + rewrite app_nil_r. destruct (Nat.eqb_spec (owner v) t) as [Hv|]; [|done]. apply (minv_task gv gv s); try done.
      * intros u. cbn. destruct (decide (u = v)) as [->|Hne]; us; [by eexists|]. exists []. by rewrite app_nil_r.
      * intros u d e. cbn. destruct (decide (u = v)) as [->|Hne]; us; [|apply (m_good _ _ HM)]. rewrite elem_of_app.
        intros [?|?]; [by eapply (m_good _ _ HM)|by eapply Hg].
      * by repeat constructor.
      * intros; by left.
      * intros u i d e. cbn. destruct (decide (u = v)) as [->|Hne]; us; [|by left]. rewrite lookup_app_Some.
        intros [?|[Hle _]]; [by left|right]. split; [done|]. eexists. split; [|reflexivity]. done.
    + exfalso. by eapply Hc.
    + destruct (Nat.eqb_spec (owner v) t) as [Hv|]; [|by rewrite app_nil_r]. apply (minv_task gv _ s); try done.
      * intros u. exists []. by rewrite app_nil_r.
      * apply (m_good _ _ HM).
      * intros y Hy. apply elem_of_app. by left.
      * repeat constructor. cbn. apply elem_of_app. right. apply elem_of_list_here.
      * intros w x Hin. apply elem_of_app in Hin. destruct Hin as [?|Hin]; [by left|right]. apply elem_of_list_singleton in Hin. injection Hin as -> ->.
        apply elem_of_list_here.
      * intros; by left.
  - rewrite app_nil_r. destruct c; try done. pose proof (HS t) as Hsh. rewrite Ht in Hsh.
    destruct (shape_cons _ _ _ _ _ _ Hsh) as [(v & -> & -> & Hv & Hk)|[(v & m & -> & -> & Hv & Hk)|[(v & kd & -> & -> & Hv & Hk)|[(v & kd & i & got & -> & -> & Hv & Hk & Hi)|
      [(v & x & -> & -> & Hv)|(v & Hv & Ho & Hr)]]]]].
    + by apply minv_dec.
    + by apply minv_init.
    + apply minv_begin; try done. intros t' k' i got Hin. destruct (w_mine _ _ _ _ HW t' _ Hin) as [_ Hm]. done.
    + destruct (decide (i < length (box s v))%nat) as [Hlt|Hlt].
      * by apply minv_read.
      * subst i. apply minv_react; try done. lia.
    + by apply minv_else.
    + destruct o as [src d m|d|d|?|? ?|? ? ? ?|?|? ?]; try done.
      * apply minv_merge; [done| |done]. cbn in Ho. by subst.
      * by apply minv_cas.
      * by apply minv_put.
Qed.

Lemma minv_erun sched : forall gv s, (forall v, owner v < n)%nat -> wake A owner n s -> shaped A owner s -> minv gv s -> (forall t v gone, (t, DelEdges v gone) ∉ sched) ->
  (forall t v l d e, (t, AddEdges (a := A) v l) ∈ sched -> (d, e) ∈ l -> good e) ->
  minv (gv ++ given owner s sched) (erun A owner s sched).
Proof.
  induction sched as [|[t c] l IH]; intros gv s Hown HW HS HM Hdel Hg; cbn.
  - by rewrite app_nil_r.
  - rewrite app_assoc. apply IH; [done|by apply wake_estep| | | |].
    + apply shaped_estep; [done|]. apply (w_queue _ _ _ _ HW).
    + apply minv_estep; [done..| |]; [intros v gone ->; by apply (Hdel t v gone), elem_of_list_here|].
      intros v x d e ->. apply (Hg t v), elem_of_list_here.
    + intros t' v gone Hin. by apply (Hdel t' v gone), elem_of_list_further.
    + intros t' v x d e Hin. apply (Hg t' v). by apply elem_of_list_further.
Qed.

Theorem min_result es sched : (forall v, owner v < n)%nat -> (forall t v gone, (t, DelEdges v gone) ∉ sched) ->
  (forall u d e, (d, e) ∈ es u -> good e) -> (forall t v l d e, (t, AddEdges (a := A) v l) ∈ sched -> (d, e) ∈ l -> good e) ->
  let s0 := estart A (fun _ => [top]) (fun _ => top) es in let s := erun A owner s0 sched in
  (forall t, todo s t = [] /\ queue s t = []) ->
  forall v, best le top (walk ext (given owner s0 sched) (edges s) v) (prop s v).
Proof.
  intros Hown Hdel Hes Hg s0 s Hidle.
  pose proof (wake_erun A owner n sched s0 Hown (wake_start A owner n _ _ _)) as HW. fold s in HW.
  pose proof (minv_erun sched [] s0 Hown (wake_start A owner n _ _ _) (shaped_start A owner _ _ _) (minv_start es Hes) Hdel Hg) as HM. fold s in HM. cbn [app] in HM.
  assert (Hq : forall v, le (prop s v) (bx s v)).
  { intros v. destruct (m_wake _ _ HM v) as [?|[Hu|(k & i & got & H)]]; [done| |].
    - exfalso. destruct (w_told _ _ _ _ HW v Hu) as [Ha|(t & _ & Hw)].
      + rewrite (w_act _ _ _ _ HW v) in Ha. rewrite (proj2 (Hidle _)), sumt_zero in Ha; [simpl in Ha; lia|].
        intros k _. by rewrite (proj1 (Hidle k)).
      + rewrite (proj1 (Hidle t)) in Hw. destruct Hw as [Hw|[? Hw]]; by apply elem_of_nil in Hw.
    - rewrite (proj1 (Hidle _)) in H. by apply elem_of_nil in H. }
  intros v. split; [apply (m_pok _ _ HM)|]. split; [eapply le_trans; [apply Hq|apply (m_top _ _ HM)]|]. intros y Hy. induction Hy as [w x Hgx|u w e x Hy IH He].
  - destruct (m_gv _ _ HM w x Hgx) as [?|(t & H)]; [by eapply le_trans|].
    rewrite (proj1 (Hidle _)) in H. by apply elem_of_nil in H.
  - pose proof (m_good _ _ HM u w e He) as Hge. apply elem_of_list_lookup in He. destruct He as [i Hi]. pose proof (m_cov _ _ HM u i w e Hi) as Hc. unfold covered in Hc.
    rewrite (proj1 (Hidle _)) in Hc. destruct Hc as [H|[H|[(m & Hle & H)|[(st & Hst & [H|(j & got & H)])|(l & m & H & _)]]]]; try discriminate.
    + eapply le_trans; [apply Hq|]. eapply le_trans; [apply (m_top _ _ HM)|]. apply ext_top; [done|]. by eapply le_trans.
    + eapply le_trans; [apply Hq|]. eapply le_trans; [exact H|]. by apply ext_mono.
    + by apply elem_of_nil in H.
Qed.
End proofs.
