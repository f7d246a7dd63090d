(** What precedes an update cycle. *)
From Verif Require Import Base Engine_Spec Engine_Model Engine_Proofs Engine_Shape.

Section told.
Context (a : alg) (owner : nat -> nat).
(** An operation that is there because [v] was told something. *)
Definition wakes (v : nat) (o : op a) : Prop :=
  match o with Cas d | Put d | Dec d | Begin d _ | Scan d _ _ _ => d = v | _ => False end.
Definition told_first (s : est a) : Prop :=
  (forall t v, v ∈ queue s t -> Told v ∈ elog s) /\ forall t v o, o ∈ todo s t -> wakes v o -> Told v ∈ elog s.
Definition no_changes (c : choice a) : Prop := match c with AddEdges _ _ | DelEdges _ _ => False | _ => True end.

Lemma told_step s t c : no_changes c -> told_first s -> told_first (estep a owner s t c).
Proof.
  intros Hc [Hq Ho]. unfold estep. destruct (todo s t) as [|o rest] eqn:Et.
  - destruct c as [| |v es|v gone|v m]; try done.
    + destruct (queue s t) as [|v q] eqn:Eq; [done|].
      assert (Hv : Told v ∈ elog s) by (apply (Hq t); rewrite Eq; apply elem_of_list_here).
      split; cbn.
      * intros k w. destruct (decide (k = t)) as [->|Hk]; us; [|apply Hq]. intros Hw. apply (Hq t). rewrite Eq. by apply elem_of_list_further.
      * intros k w o. destruct (decide (k = t)) as [->|Hk]; us; [|apply Ho]. rewrite !elem_of_cons, elem_of_nil.
        intros [->|[->|[]]]; by intros ->.
    + destruct (owner v =? t); [|done]. split; cbn; [apply Hq|].
      intros k w o. destruct (decide (k = t)) as [->|Hk]; us; [|apply Ho]. by intros ->%elem_of_list_singleton.
  - destruct c; try done.
    assert (Hr : forall v o, o ∈ rest -> wakes v o -> Told v ∈ elog s).
    { intros v o' H. apply (Ho t). rewrite Et. by apply elem_of_list_further. }
    assert (Hhd : forall v, wakes v o -> Told v ∈ elog s).
    { intros v. apply (Ho t). rewrite Et. apply elem_of_list_here. }
    assert (Hgen : forall s' l l', elog s' = elog s ++ l' -> todo s' = upd (todo s) t (l ++ rest) ->
      (forall v o', o' ∈ l -> wakes v o' -> Told v ∈ elog s ++ l') ->
      (forall k v, v ∈ queue s' k -> Told v ∈ elog s ++ l') -> told_first s').
    { intros s' l l' E1 E2 H1 H2. split; rewrite E1; [done|]. rewrite E2. intros k v o'.
      destruct (decide (k = t)) as [->|Hk]; us.
      - rewrite elem_of_app. intros [H|H] Hw; [by eapply H1|]. apply elem_of_app. left. by eapply Hr.
      - intros H Hw. apply elem_of_app. left. by eapply Ho. }
    assert (Hq' : forall l' k v, v ∈ queue s k -> Told v ∈ elog s ++ l').
    { intros l' k v H. apply elem_of_app. left. by eapply Hq. }
    destruct o as [src d m|d|d|v|v k|v k i got|l|v m]; cbn [exec_op].
    + destruct (merge a m src d (box s d)) as [b []].
      * apply (Hgen _ [Cas d] [Told d]); cbn; try done; [|apply Hq'].
        intros v o' ->%elem_of_list_singleton ->. apply elem_of_app. right. by apply elem_of_list_singleton.
      * apply (Hgen _ [] []); cbn; try done; [by rewrite app_nil_r|intros ???; by apply elem_of_nil in H|apply Hq'].
    + destruct (act s d =? 0).
      * apply (Hgen _ [Put d] []); cbn; try done; [by rewrite app_nil_r| |apply Hq'].
        intros v o' ->%elem_of_list_singleton ->. rewrite app_nil_r. by apply Hhd.
      * apply (Hgen _ [] []); cbn; try done; [by rewrite app_nil_r|intros v ??; by apply elem_of_nil in H|apply Hq'].
    + apply (Hgen _ [] []); cbn; try done; [by rewrite app_nil_r|intros v ??; by apply elem_of_nil in H|].
      intros k v. destruct (decide (k = owner d)) as [->|Hk]; us; [|apply Hq']. rewrite elem_of_app, elem_of_list_singleton, app_nil_r.
      intros [H| ->]; [by eapply Hq|]. by apply Hhd.
    + apply (Hgen _ [] []); cbn; try done; [by rewrite app_nil_r|intros w ??; by apply elem_of_nil in H|apply Hq'].
    + apply (Hgen _ [Scan v k 0 []] [Began v]); cbn; try done; [|apply Hq'].
      intros w o' ->%elem_of_list_singleton ->. apply elem_of_app. left. by apply Hhd.
    + destruct (box s v !! i) as [c|]; [destruct (take a c) as [c' x]|destruct (react a v k (prop s v) (edges s v) got) as [[p ms] ms']].
      * apply (Hgen _ [Scan v k (S i) (got ++ [x])] []); cbn; try done; [by rewrite app_nil_r| |apply Hq'].
        intros w o' ->%elem_of_list_singleton ->. rewrite app_nil_r. by apply Hhd.
      * apply (Hgen _ (map (fun '(d, m) => Merge v d m) ms ++ [Else (map (fun '(d, m) => (v, d, m)) ms')]) []); cbn; try done;
          [by rewrite app_nil_r|by rewrite <- app_assoc| |apply Hq'].
        intros w o'. rewrite elem_of_app, elem_of_list_singleton. intros [H| ->]; [|done].
        apply elem_of_list_fmap in H. by destruct H as ([d m] & -> & _).
    + destruct (sent s t =? 0).
      * apply (Hgen _ (map (fun '(v, d, m) => Merge v d m) l) []); cbn; try done; [by rewrite app_nil_r| |apply Hq'].
        intros w o' H. apply elem_of_list_fmap in H. by destruct H as ([[v d] m] & -> & _).
      * apply (Hgen _ [] []); cbn; try done; [by rewrite app_nil_r|intros v ??; by apply elem_of_nil in H|apply Hq'].
    + destruct (merge a m v v (box s v)) as [b []].
      * apply (Hgen _ [Begin v KUpd] [Told v]); cbn; try done; [|apply Hq'].
        intros w o' ->%elem_of_list_singleton ->. apply elem_of_app. right. by apply elem_of_list_singleton.
      * apply (Hgen _ [] []); cbn; try done; [by rewrite app_nil_r|intros w ??; by apply elem_of_nil in H|apply Hq'].
Qed.

(** A property that every update establishes holds of all vertices that were updated. *)
Context (Q : prop_t a -> Prop).

Definition scans (s : est a) (v : nat) : Prop := exists k i got, Scan v k i got ∈ todo s (owner v).
Definition updated (s : est a) : Prop := forall v, Began v ∈ elog s -> scans s v \/ Q (prop s v).
Lemma updated_step s t c : shaped a owner s ->
  (forall v k i got rest, todo s t = Scan v k i got :: rest -> box s v !! i = None -> Q (fst (fst (react a v k (prop s v) (edges s v) got)))) ->
  updated s -> updated (estep a owner s t c).
Proof.
  intros Hsh HQ Hu. unfold estep. destruct (todo s t) as [|o rest] eqn:Et.
  - assert (Hst : forall s0 l, todo s0 = todo s -> elog s0 = elog s -> prop s0 = prop s -> updated (start_task a s0 t l)).
    { intros s0 l E1 E2 E3 v. cbn. rewrite E2, E3. intros H. destruct (Hu v H) as [(k & i & got & H')|?]; [left|by right].
      exists k, i, got. cbn. rewrite E1. rewrite upd_ne; [done|]. intros E. by rewrite E, Et in H'; apply elem_of_nil in H'. }
    destruct c as [| |v es|v gone|v m]; try done; [destruct (queue s t) as [|v q]; [done|]|destruct (owner v =? t); [|done]..]; by apply Hst.
  - destruct c; try done.
    assert (Hsame : forall s' l, elog s' = elog s -> prop s' = prop s -> todo s' = upd (todo s) t l ->
      (forall v k i got, Scan v k i got ∈ o :: rest -> exists k' i' got', Scan v k' i' got' ∈ l) -> updated s').
    { intros s' l E1 E2 E3 Hl v. rewrite E1, E2. intros H. destruct (Hu v H) as [(k & i & got & H')|?]; [left|by right].
      destruct (decide (owner v = t)) as [Ev|Ev].
      - rewrite Ev, Et in H'. destruct (Hl v k i got H') as (k' & i' & got' & H2). exists k', i', got'. rewrite E3, Ev. by us.
      - exists k, i, got. rewrite E3. by us. }
    assert (Hno : (forall v k i got, o <> Scan v k i got) -> forall v k i got, Scan v k i got ∉ o :: rest).
    { intros Hne v k i got [E|H]%elem_of_cons; [by apply (Hne v k i got)|]. pose proof (Hsh t) as Hs. rewrite Et in Hs.
      destruct (shape_cons _ _ _ _ _ _ Hs) as [(?&->&->&_)|[(?&?&->&->&_)|[(?&?&->&->&_)|[(?&?&?&?&->&->&_)|[(?&?&->&->&_)|(w & _ & Hso & [(l & x & -> & Hl)|Hl])]]]]].
      - by apply elem_of_list_singleton in H.
      - by apply elem_of_nil in H.
      - by apply elem_of_nil in H.
      - by apply elem_of_nil in H.
      - by apply elem_of_nil in H.
      - apply elem_of_app in H. destruct H as [H|H]; [|by apply elem_of_list_singleton in H].
        by apply (proj1 (list.Forall_forall _ _) Hl) in H.
      - by apply (proj1 (list.Forall_forall _ _) Hl) in H. }
    assert (Htold : forall s' l w, elog s' = elog s ++ [Told w] -> prop s' = prop s -> todo s' = upd (todo s) t l ->
      (forall v k i got, Scan v k i got ∈ o :: rest -> exists k' i' got', Scan v k' i' got' ∈ l) -> updated s').
    { intros s' l w E1 E2 E3 Hl v. rewrite E1. rewrite elem_of_app, elem_of_list_singleton. intros [H|H]; [|done].
      destruct (Hu v H) as [(k & i & got & H')|?]; [left|right; by rewrite E2].
      destruct (decide (owner v = t)) as [Ev|Ev].
      - rewrite Ev, Et in H'. destruct (Hl v k i got H') as (k' & i' & got' & H2). exists k', i', got'. rewrite E3, Ev. by us.
      - exists k, i, got. rewrite E3. by us. }
    destruct o as [src d m|d|d|v|v k|v k i got|l|v m]; cbn [exec_op].
    + destruct (merge a m src d (box s d)) as [b []].
      * eapply Htold; try done. intros v k i got H. by apply Hno in H.
      * eapply Hsame; try done. intros v k i got H. by apply Hno in H.
    + destruct (act s d =? 0); (eapply Hsame; try done; intros v k i got H; by apply Hno in H).
    + eapply Hsame; try done; intros v k i got H; by apply Hno in H.
    + eapply Hsame; try done; intros w k i got H; by apply Hno in H.
    + intros w. cbn. rewrite elem_of_app, elem_of_list_singleton. pose proof (Hsh t) as Hs. rewrite Et in Hs.
      destruct (shape_cons _ _ _ _ _ _ Hs) as [(?&?&_)|[(?&?&?&_)|[(v'&?&E&_&Hv&_)|[(?&?&?&?&?&_)|[(?&?&?&_)|(w' & _ & Hso & _)]]]]]; try done.
      injection E as <- <-. destruct (decide (w = v)) as [->|Hw].
      * intros _. left. exists k, 0, []. cbn. rewrite Hv. us. apply elem_of_list_here.
      * intros [H|[= ->] ]; [|done]. destruct (Hu w H) as [(k1 & i1 & got1 & H')|?]; [left|by right].
        exists k1, i1, got1. cbn. destruct (decide (owner w = t)) as [Ew|Ew]; [|by us].
        rewrite Ew, Et in H'. by apply Hno in H'.
    + pose proof (Hsh t) as Hs. rewrite Et in Hs.
      destruct (shape_cons _ _ _ _ _ _ Hs) as [(?&?&_)|[(?&?&?&_)|[(?&?&?&_)|[(v'&?&?&?&E&->&Hv&_)|[(?&?&?&_)|(w' & _ & Hso & _)]]]]]; try done.
      injection E as <- _ _ _. destruct (box s v !! i) as [c|] eqn:Eb; [destruct (take a c) as [c1 xx]|].
      * eapply Hsame; try done. cbn. intros w k1 i1 got1 [= -> -> -> ->]%elem_of_list_singleton.
        exists k, (S i), (got ++ [xx]). apply elem_of_list_here.
      * pose proof (HQ v k i got [] eq_refl Eb) as H1. destruct (react a v k (prop s v) (edges s v) got) as [[p ms] ms'].
        intros w. cbn. intros H. destruct (decide (w = v)) as [->|Hw]; us; [by right|].
        destruct (Hu w H) as [(k1 & i1 & got1 & H')|?]; [left|by right]. exists k1, i1, got1. cbn.
        destruct (decide (owner w = t)) as [Ew|Ew]; [|by us]. rewrite Ew, Et in H'. apply elem_of_list_singleton in H'. congruence.
    + destruct (sent s t =? 0); (eapply Hsame; try done; intros v k i got H; by apply Hno in H).
    + destruct (merge a m v v (box s v)) as [b []].
      * eapply Htold; try done. intros w k i got H. by apply Hno in H.
      * eapply Hsame; try done. intros w k i got H. by apply Hno in H.
Qed.
End told.
