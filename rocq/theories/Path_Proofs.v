(** The invariant of temporal paths on the asynchronous engine. *)
From Verif Require Import Base Engine_Spec Engine_Model Engine_Proofs Engine_Shape Window_Spec Window_Model Window_Proofs
  Path_Spec Path_Model Path_Local.
Open Scope nat_scope.

Lemma sub_in {A} (l1 l2 : list A) x : sublist l1 l2 -> x ∈ l1 -> x ∈ l2.
Proof. intros H Hx. eapply elem_of_submseteq; [exact Hx|]. by apply sublist_submseteq. Qed.
Lemma sub_NoDup {A} (l1 l2 : list A) : sublist l1 l2 -> NoDup l2 -> NoDup l1.
Proof.
  induction 1 as [|x l1 l2 H IH|x l1 l2 H IH]; intros Hd; [done|..]; apply list.NoDup_cons in Hd; destruct Hd as [H1 H2]; [|by apply IH].
  apply list.NoDup_cons. split; [|by apply IH]. intros Hx. apply H1. by eapply sub_in.
Qed.
Lemma sub_sorted {A} (R : A -> A -> Prop) (l1 l2 : list A) : sublist l1 l2 -> StronglySorted R l2 -> StronglySorted R l1.
Proof.
  induction 1 as [|x l1 l2 H IH|x l1 l2 H IH]; intros Hd; [done|..]; apply StronglySorted_inv in Hd; destruct Hd as [H1 H2]; [|by apply IH].
  constructor; [by apply IH|]. rewrite list.Forall_forall in *. intros y Hy. apply H2. by eapply sub_in.
Qed.
Lemma unans_told l v w : unanswered l v -> unanswered (l ++ [Told w]) v.
Proof. intros (l1 & l2 & -> & H). exists l1, (l2 ++ [Told w]). split; [by rewrite <- app_assoc|]. intros [?|?%elem_of_list_singleton]%elem_of_app; done. Qed.
Lemma unans_new l v : unanswered (l ++ [Told v]) v.
Proof. exists l, []. split; [done|]. by intros ?%elem_of_nil. Qed.
Lemma unans_began l v w : w <> v -> unanswered l v -> unanswered (l ++ [Began w]) v.
Proof.
  intros Hne (l1 & l2 & -> & H). exists l1, (l2 ++ [Began w]). split; [by rewrite <- app_assoc|].
  intros [?|E%elem_of_list_singleton]%elem_of_app; [done|]. by injection E as ->.
Qed.

Lemma map_at {A B} (f : A -> B) l j x : l !! j = Some x -> map f l !! j = Some (f x).
Proof. intros H. change (map f l) with (f <$> l). by rewrite list_lookup_fmap, H. Qed.

Section tp.
Context (owner : nat -> nat) (n : nat) (Hown : forall v, owner v < n) (src : nat).
Notation est := (est tpaths).
Notation op := (op tpaths).
Definition winof (s : est) (v : nat) : list path := match (prop s v : option tprop) with Some p => wins p | None => [] end.
Definition bx (s : est) (v : nat) : list path := box s v.

Definition scanning (s : est) (v : nat) : Prop := exists k i got, todo s (owner v) = [Scan (a := tpaths) v k i got].
Definition has_msg (l : list op) (u v : nat) (m : tmsg) : Prop :=
  Merge (a := tpaths) u v m ∈ l \/ exists x, Else (a := tpaths) x ∈ l /\ (u, v, m) ∈ x.
Definition ending (l : list op) (u : nat) (gone : list (nat * tedge)) : Prop :=
  Begin (a := tpaths) u (KDel gone) ∈ l \/ exists i got, Scan (a := tpaths) u (KDel gone) i got ∈ l.
(** Vertex [u] will tell the slot of edge [e]. *)
Definition will_tell (l : list op) (k : nat) (es : list (nat * tedge)) (u : nat) (e : nat * tedge) : Prop :=
  let '(v, (ts, en, p)) := e in
  (exists x, Merge (a := tpaths) u v (MOffer p x) ∈ l) \/
  (k = 0 /\ exists y x, l = [Else (a := tpaths) y] /\ (u, v, MOffer p x) ∈ y) \/
  (exists st, (l = [Begin (a := tpaths) u (KAdd st)] \/ exists i got, l = [Scan (a := tpaths) u (KAdd st) i got]) /\ e ∈ skipn st es) \/
  (exists gone, (l = [Begin (a := tpaths) u (KDel gone)] \/ exists i got, l = [Scan (a := tpaths) u (KDel gone) i got]) /\ e ∈ gone).
(** A value that a slot may hold. *)
Definition okslot (s : est) (v p : nat) (x : path) : Prop :=
  p_start x = INFINITY \/ ((exists u en, (v, (p_start x, en, p)) ∈ (edges s u : list (nat * tedge))) /\ (p_start x <= p_end x)%N).

Record pinv (past : nat -> list (nat * (N * nat))) (s : est) : Prop := {
  p_shape : shaped tpaths owner s;
  p_wake : wake tpaths owner n s;
  p_past : forall u, sublist (map stat (edges s u)) (past u);
  p_ends : forall u d ts en p, (d, (ts, en, p)) ∈ (edges s u : list (nat * tedge)) -> (ts <= extent en)%N;
  p_some : forall v, exists p : tprop, prop s v = Some p /\ good (wins p);
  p_head : forall v, exists new slots, (bx s v) = new :: slots /\ (new = no_path \/ (v = src /\ new = whole));
  p_slot : forall v p x, (bx s v) !! S p = Some x -> okslot s v p x;
  p_scan : forall v k i got, todo s (owner v) = [Scan (a := tpaths) v k i got] ->
     length (got : list path) <= length ((bx s v)) /\ (forall p x, (got : list path) !! S p = Some x -> okslot s v p x) /\
     (forall x, (got : list path) !! 0 = Some x -> (bx s v) !! 0 = Some x) /\ (got = firstn (length (got : list path)) ((bx s v)) \/ unanswered (elog s) v);
  p_msg : forall t u v m, has_msg (todo s t) u v m -> owner u = t /\
     exists p x ts en, m = MOffer p x /\ (v, (ts, en, p)) ∈ (edges s u : list (nat * tedge)) /\ se x = offer_se (winof s u) ts en;
  p_ending : forall t u gone, ending (todo s t) u gone -> owner u = t /\ forall e, e ∈ gone -> e ∈ (edges s u : list (nat * tedge));
  p_init : forall t v m, Init (a := tpaths) v m ∈ todo s t -> v = src /\ m = MInit;
  p_fresh : forall v, unanswered (elog s) v \/ scanning s v \/ ses (winof s v) = box_times ((bx s v));
  p_tell : forall u v ts en p, (v, (ts, en, p)) ∈ (edges s u : list (nat * tedge)) ->
     se (slotval ((bx s v)) p) = offer_se (winof s u) ts en \/ will_tell (todo s (owner u)) (sent s (owner u)) (edges s u) u (v, (ts, en, p));
  p_src : exists q : tprop, prop s src = Some q /\ (wins q = [] \/ wins q = [whole]) /\ (nexts q = [] \/ nexts q = [whole]);
  p_dead : (bx s src) !! 0 = Some no_path ->
     (forall v, winof s v = []) /\ (exists q : tprop, prop s src = Some q /\ nexts q = []) /\ (forall v p x, (bx s v) !! S p = Some x -> p_start x = INFINITY) /\
     (forall v k i got p x, todo s (owner v) = [Scan (a := tpaths) v k i got] -> (got : list path) !! S p = Some x -> p_start x = INFINITY) }.

Lemma okslot_edges (s s' : est) v p x : okslot s v p x ->
  (forall u e, e ∈ (edges s u : list (nat * tedge)) -> exists e', e' ∈ (edges s' u : list (nat * tedge)) /\ stat e' = stat e) -> okslot s' v p x.
Proof.
  intros [H|[(u & en & H) H2]] He; [by left|]. right. split; [|done].
  destruct (He u _ H) as ([d [[ts en'] p']] & H' & E). cbn in E. injection E as -> -> ->. by exists u, en'.
Qed.

(** A step that changes neither mailboxes, nor properties, nor edges. *)
Lemma quiet past (s s' : est) t l' : pinv past s -> shaped tpaths owner s' -> wake tpaths owner n s' ->
  (forall v, box s' v = box s v) -> (forall v, prop s' v = prop s v) -> (forall v, edges s' v = edges s v) ->
  todo s' = upd (todo s) t l' -> (forall k, k <> t -> sent s' k = sent s k) ->
  (forall v k i got, todo s t <> [Scan (a := tpaths) v k i got]) ->
  ((elog s' = elog s /\ forall v k i got, l' <> [Scan (a := tpaths) v k i got]) \/
   (exists w, elog s' = elog s ++ [Told w] /\ forall v k i got, l' <> [Scan (a := tpaths) v k i got]) \/
   (exists w kd, owner w = t /\ elog s' = elog s ++ [Began w] /\ l' = [Scan (a := tpaths) w kd 0 []])) ->
  (forall u v m, has_msg l' u v m -> has_msg (todo s t) u v m) ->
  (forall u gone, ending l' u gone -> ending (todo s t) u gone) ->
  (forall v m, Init (a := tpaths) v m ∈ l' -> v = src /\ m = MInit) ->
  (forall u e, owner u = t -> will_tell (todo s t) (sent s t) (edges s u) u e -> will_tell l' (sent s' t) (edges s u) u e) ->
  pinv past s'.
Proof.
  intros Hs Hsh Hw Eb Ep Ee Et Es Hns Hlog Hmsg Hend Hinit Htell.
  assert (Hscan : forall v, scanning s v -> scanning s' v).
  { intros v (k & i & got & E). exists k, i, got. rewrite Et. destruct (decide (owner v = t)) as [Ev|Ev]; us; [|done].
    rewrite Ev in E. by apply Hns in E. }
  assert (Hun : forall v, unanswered (elog s) v -> unanswered (elog s') v \/
    (exists kd, owner v = t /\ l' = [Scan (a := tpaths) v kd 0 []])).
  { intros v Hv. destruct Hlog as [[-> _]|[(w & -> & _)|(w & kd & Hw' & -> & El)]]; [by left|left; by apply unans_told|].
    destruct (decide (w = v)) as [->|Hne]; [right; by exists kd|left; by apply unans_began]. }
  assert (Hnew : forall v kd, owner v = t -> l' = [Scan (a := tpaths) v kd 0 []] -> scanning s' v).
  { intros v kd Ev El. exists kd, 0, []. by rewrite Et, Ev, upd_eq. }
  assert (Hwin : forall v, winof s' v = winof s v). { intros v. unfold winof. by rewrite Ep. }
  assert (Hok : forall v p x, okslot s v p x -> okslot s' v p x).
  { intros v p x H. eapply okslot_edges; [exact H|]. intros u e He. exists e. by rewrite Ee. }
  assert (Hsc : forall v k i got, todo s' (owner v) = [Scan (a := tpaths) v k i got] ->
    got = [] \/ (owner v <> t /\ todo s (owner v) = [Scan (a := tpaths) v k i got])).
  { intros v k i got E. rewrite Et in E. destruct (decide (owner v = t)) as [Ev|Ev].
    - rewrite Ev, upd_eq in E. destruct Hlog as [[_ Hl]|[(w & _ & Hl)|(w & kd & _ & _ & El)]]; [by apply Hl in E..|].
      rewrite El in E. injection E as -> <- <- <-. by left.
    - rewrite upd_ne in E by done. by right. }
  destruct Hs as [A1 A2 A3 A4 A5 A6 A7 A8 A9 A10 A11 A12 A13 A14 A15].
  constructor; try done.
  - intros u. rewrite Ee. apply A3.
  - intros u. rewrite Ee. apply A4.
  - intros v. rewrite Ep. apply A5.
  - intros v. rewrite Eb. apply A6.
  - intros v p x. rewrite Eb. intros H. by apply Hok, A7.
  - intros v k i got E. rewrite Eb. destruct (Hsc v k i got E) as [->|[Ev E0]].
    + split_and!; [cbn; lia|by intros p x ?|by intros x ?|by left].
    + destruct (A8 v k i got E0) as (H1 & H2 & H3 & H4). split_and!; try done.
      * intros p x H. by apply Hok, H2.
      * destruct H4 as [?|Hu]; [by left|]. destruct (Hun v Hu) as [?|(kd & H5 & _)]; [by right|done].
  - intros k u v m H. rewrite Hwin, Ee. apply A9. rewrite Et in H. destruct (decide (k = t)) as [->|Hne]; us; [by apply Hmsg|done].
  - intros k u gone H. rewrite Ee. apply A10. rewrite Et in H. destruct (decide (k = t)) as [->|Hne]; us; [by apply Hend|done].
  - intros k v m H. rewrite Et in H. destruct (decide (k = t)) as [->|Hne]; us; [by apply Hinit|by eapply A11].
  - intros v. rewrite Hwin, Eb. destruct (A12 v) as [Hu|[?|?]]; [|by right; left; apply Hscan|by right; right].
    destruct (Hun v Hu) as [?|(kd & H4 & H5)]; [by left|right; left; by eapply Hnew].
  - intros u v ts en p H. rewrite Ee in H. rewrite Eb, Hwin, Ee, Et. destruct (A13 u v ts en p H) as [?|H4]; [by left|right].
    destruct (decide (owner u = t)) as [Eu|Eu].
    + rewrite Eu in *. rewrite upd_eq. by apply Htell.
    + us. by rewrite Es.
  - rewrite Ep. apply A14.
  - rewrite Eb. intros H. destruct (A15 H) as (H1 & H2 & H3 & H4). rewrite Ep. split_and!.
    + intros v. by rewrite Hwin.
    + done.
    + intros v p x. rewrite Eb. apply H3.
    + intros v k i got p x E Hx. destruct (Hsc v k i got E) as [->|[_ E0]]; [done|]. by eapply H4.
Qed.

Context (past : nat -> list (nat * (N * nat))).
Hypothesis HU : slots_once past.
Hypothesis HS : by_time past.
Hypothesis HT : slots_by_time past.
Hypothesis HI : times_below INFINITY past.

Lemma edge_past s u d ts en p : pinv past s -> (d, (ts, en, p)) ∈ (edges s u : list (nat * tedge)) -> (d, (ts, p)) ∈ past u.
Proof. intros Hs H. eapply sub_in; [apply Hs|]. apply elem_of_list_fmap. by exists (d, (ts, en, p)). Qed.
Lemma past_NoDup u : NoDup (past u).
Proof. apply list.NoDup_alt. intros i j [d [ts p]] H1 H2. by destruct (HU u u i j d ts ts p H1 H2). Qed.
Lemma edge_one s u1 u2 d ts1 en1 ts2 en2 p : pinv past s -> (d, (ts1, en1, p)) ∈ (edges s u1 : list (nat * tedge)) ->
  (d, (ts2, en2, p)) ∈ (edges s u2 : list (nat * tedge)) -> u1 = u2 /\ ts1 = ts2 /\ en1 = en2.
Proof.
  intros Hs H1 H2. pose proof (edge_past _ _ _ _ _ _ Hs H1) as P1. pose proof (edge_past _ _ _ _ _ _ Hs H2) as P2.
  apply elem_of_list_lookup in P1, P2. destruct P1 as [i1 P1], P2 as [i2 P2]. destruct (HU _ _ _ _ _ _ _ _ P1 P2) as [<- <-].
  rewrite P1 in P2. injection P2 as <-. split; [done|]. split; [done|].
  apply elem_of_list_lookup in H1, H2. destruct H1 as [j1 H1], H2 as [j2 H2].
  assert (Hd : NoDup (map stat (edges s u1))) by (eapply sub_NoDup; [apply Hs|apply past_NoDup]).
  rewrite list.NoDup_alt in Hd. assert (j1 = j2) as <-.
  { apply (Hd j1 j2 (d, (ts1, p))); [exact (map_at stat _ _ _ H1)|exact (map_at stat _ _ _ H2)]. }
  congruence.
Qed.
Lemma edges_in_time s u : pinv past s -> in_time (edges s u).
Proof.
  intros Hs. pose proof (p_past _ _ Hs u) as Hsub. split.
  - pose proof (sub_sorted _ _ _ Hsub (HS u)) as S. clear -S. induction (edges s u : list (nat * tedge)) as [|[d [[ts en] p]] l IH]; [constructor|].
    cbn [map] in S. apply StronglySorted_inv in S. destruct S as [S S1]. constructor; [by apply IH|].
    rewrite list.Forall_forall in S1. apply list.Forall_forall. intros [d' [[ts' en'] p']] H. apply (S1 (d', (ts', p'))). apply elem_of_list_fmap. by exists (d', (ts', en', p')).
  - apply list.Forall_forall. intros [d [[ts en] p]] H. apply (edge_past _ _ _ _ _ _ Hs) in H. apply HI in H. cbn. lia.
Qed.
Lemma slot_times s v : pinv past s -> forall p p' ts ts', p <= p' ->
  (exists u en, (v, (ts, en, p)) ∈ (edges s u : list (nat * tedge))) -> (exists u en, (v, (ts', en, p')) ∈ (edges s u : list (nat * tedge))) -> (ts <= ts')%N.
Proof.
  intros Hs p p' ts ts' Hp (u & en & H) (u' & en' & H'). eapply HT; [by eapply edge_past|by eapply edge_past|done].
Qed.
Lemma offer_ok s u v ts en p x : pinv past s -> (v, (ts, en, p)) ∈ (edges s u : list (nat * tedge)) -> se x = offer_se (winof s u) ts en -> okslot s v p x.
Proof.
  intros Hs H E. unfold offer_se in E. destruct (open_at ts (winof s u)).
  - injection E as E1 E2. right. rewrite E1, E2. split; [by exists u, en|]. by eapply Hs.
  - injection E as E1 E2. by left.
Qed.

Lemma no_scan (s : est) t o rest : todo s t = o :: rest -> (forall v k i got, o <> Scan (a := tpaths) v k i got) ->
  forall v k i got, todo s t <> [Scan (a := tpaths) v k i got].
Proof. intros E H v k i got E'. rewrite E in E'. injection E' as E1 _. by apply H in E1. Qed.

(** What remains of a list of operations that lost its first one. *)
Definition small (l0 : list op) : Prop := forall o', o' ∈ l0 -> match o' with Cas _ | Put _ | Dec _ | Begin _ KUpd => True | _ => False end.
Lemma has_msg_tail o l0 rest u v m : small l0 -> has_msg (l0 ++ rest) u v m -> has_msg (o :: rest) u v m.
Proof.
  intros Hl [H|(x & H & Hx)].
  - left. apply elem_of_app in H. destruct H as [H|H]; [by apply Hl in H|by apply elem_of_list_further].
  - right. exists x. split; [|done]. apply elem_of_app in H. destruct H as [H|H]; [by apply Hl in H|by apply elem_of_list_further].
Qed.
Lemma ending_tail o l0 rest u gone : small l0 -> ending (l0 ++ rest) u gone -> ending (o :: rest) u gone.
Proof.
  intros Hl [H|(i & got & H)].
  - left. apply elem_of_app in H. destruct H as [H|H]; [by apply Hl in H|by apply elem_of_list_further].
  - right. exists i, got. apply elem_of_app in H. destruct H as [H|H]; [by apply Hl in H|by apply elem_of_list_further].
Qed.
Lemma init_tail s t o l0 rest v m : pinv past s -> todo s t = o :: rest -> small l0 -> Init (a := tpaths) v m ∈ l0 ++ rest -> v = src /\ m = MInit.
Proof.
  intros Hs Et Hl H. eapply Hs. rewrite Et. apply elem_of_app in H. destruct H as [H|H]; [by apply Hl in H|]. apply elem_of_list_further. exact H.
Qed.
Lemma will_tell_tail o l0 rest k k' es u e : (forall x, o <> Merge (a := tpaths) u (fst e) (MOffer (snd (snd e)) x)) ->
  match o with Begin _ _ | Scan _ _ _ _ | Else _ => False | _ => True end ->
  will_tell (o :: rest) k es u e -> will_tell (l0 ++ rest) k' es u e.
Proof.
  destruct e as [v [[ts en] p]]. cbn [fst snd].
  intros Ho Hk [(x & H)|[(_ & y & x & H & _)|[(st & [H|(i & got & H)] & _)|(g & [H|(i & got & H)] & _)]]]; [|injection H as H _; by subst o..].
  left. exists x. apply elem_of_cons in H. destruct H as [H|H]; [by destruct (Ho x)|]. apply elem_of_app. by right.
Qed.
Lemma small_nil : small [].
Proof. by intros o' ?%elem_of_nil. Qed.
Lemma small_one o : match o with Cas _ | Put _ | Dec _ | Begin _ KUpd => True | _ => False end -> small [o].
Proof. by intros H o' ->%elem_of_list_singleton. Qed.

Lemma rest_shape s t o rest : pinv past s -> todo s t = o :: rest ->
  match o with Merge _ _ _ | Cas _ | Put _ => forall v k i got, rest <> [Scan (a := tpaths) v k i got]
  | Dec v => rest = [Begin v KUpd] /\ owner v = t
  | Begin v _ | Init v _ => rest = [] /\ owner v = t
  | Scan v _ i got => rest = [] /\ owner v = t /\ i = length (got : list path) /\ sent s t = 0
  | Else _ => rest = [] end.
Proof.
  intros Hs E. pose proof (p_shape past s Hs t) as Hsh. rewrite E in Hsh.
  destruct (shape_cons _ _ _ _ _ _ Hsh) as [(?&->&?&?&?)|[(?&?&->&?&?&?)|[(?&?&->&?&?&?)|[(?&?&?&?&->&?&?&?&?)|[(?&?&->&?&?)|(w & Ho & Hsop & [(l & x & H & _)|H])]]]]]; try done.
  - destruct o; try done; intros v k i got E'; subst rest; destruct l as [|? [|]]; done.
  - destruct o; try done; intros v k i got E'; subst rest; by inversion H.
Qed.

Lemma step_merge s t u d m rest : pinv past s -> todo s t = Merge (a := tpaths) u d m :: rest ->
  let s' := exec_op tpaths owner s t (Merge (a := tpaths) u d m) rest in
  shaped tpaths owner s' -> wake tpaths owner n s' -> pinv past s'.
Proof.
  intros Hs Et s' Hsh Hw. subst s'. cbn [exec_op] in *.
  destruct (p_msg past s Hs t u d m) as (Hu & p & x & ts & en & -> & Hed & Hx). { rewrite Et. left. apply elem_of_list_here. }
  destruct (merge tpaths (MOffer p x) u d (box s d)) as [b new] eqn:Em. change (tp_merge (MOffer p x) (bx s d) = (b, new)) in Em.
  change (cell_t tpaths) with path in b.
  assert (Hns : forall v k i got, todo s t <> [Scan (a := tpaths) v k i got]) by (by eapply no_scan).
  assert (Hrest := rest_shape s t _ _ Hs Et). cbn in Hrest.
  set (l' := if new then Cas (a := tpaths) d :: rest else rest) in *.
  assert (El : l' = (if new then [Cas (a := tpaths) d] else []) ++ rest) by (by destruct new).
  assert (Hl0 : small (if new then [Cas (a := tpaths) d] else [])). { destruct new; [by apply small_one|apply small_nil]. }
  assert (Hnl : forall v k i got, l' <> [Scan (a := tpaths) v k i got]). { intros v k i got E. destruct new; [done|]. by apply Hrest in E. }
  assert (Hbne : (bx s d) <> []). { destruct (p_head past s Hs d) as (? & ? & -> & _). done. }
  destruct (merge_offer _ _ _ _ _ Em Hbne) as (M1 & M2 & M3 & M4 & M5 & M6).
  pose proof (offer_ok s u d ts en p x Hs Hed Hx) as Hokx.
  set (s' := Est _ _ _ _ _ _ _ _) in *.
  assert (Hun : forall v, unanswered (elog s) v -> unanswered (elog s') v).
  { intros v Hv. cbn. destruct new; [by apply unans_told|done]. }
  assert (Hund : new = true -> unanswered (elog s') d). { intros ->. cbn. apply unans_new. }
  assert (Hscan : forall v, scanning s v -> scanning s' v).
  { intros v (k & i & got & E). exists k, i, got. cbn. destruct (decide (owner v = t)) as [Ev|Ev]; us; [|done].
    rewrite Ev in E. by apply Hns in E. }
  assert (Hsc : forall v k i got, todo s' (owner v) = [Scan (a := tpaths) v k i got] -> owner v <> t /\ todo s (owner v) = [Scan (a := tpaths) v k i got]).
  { intros v k i got E. cbn in E. destruct (decide (owner v = t)) as [Ev|Ev]; us; [|done]. rewrite Ev, upd_eq in E. by apply Hnl in E. }
  assert (Hbox : forall v, v <> d -> (bx s' v) = (bx s v)). { intros v Hv. cbn. by us. }
  assert (Hboxd : (bx s' d) = b). { cbn. by us. }
  assert (Hwin : forall v, winof s' v = winof s v) by done.
  destruct Hs as [A1 A2 A3 A4 A5 A6 A7 A8 A9 A10 A11 A12 A13 A14 A15].
  constructor; try done.
  - intros v. destruct (decide (v = d)) as [->|Hv]; [|rewrite Hbox by done; apply A6]. rewrite Hboxd.
    destruct (A6 d) as (h & sl & E & Hh). rewrite E in M2. destruct b as [|h' sl']; [done|]. injection M2 as ->. by exists h, sl'.
  - intros v q y H. destruct (decide (v = d)) as [->|Hv]; [|rewrite Hbox in H by done; by apply A7]. rewrite Hboxd in H.
    destruct (M4 q y H) as [H'|[->|[-> ->]]]; [by apply A7|by left|done].
  - intros v k i got E. destruct (Hsc v k i got E) as [_ E0]. destruct (A8 v k i got E0) as (H1 & H2 & H3 & H4).
    destruct (decide (v = d)) as [->|Hv]; [|rewrite Hbox by done; split_and!; try done; destruct H4; auto].
    rewrite Hboxd. split_and!; [by etransitivity|done| |].
    + intros y Hy. rewrite M2. by apply H3.
    + destruct new; [by right; apply Hund|]. rewrite M6 by done. destruct H4; auto.
  - intros k w v m H. cbn in H. apply (A9 k w v m). destruct (decide (k = t)) as [->|Hk]; us; [|done]. rewrite Et. rewrite El in H. by eapply has_msg_tail.
  - intros k w gone H. cbn in H. apply (A10 k w gone). destruct (decide (k = t)) as [->|Hk]; us; [|done]. rewrite Et. rewrite El in H. by eapply ending_tail.
  - intros k v m H. cbn in H. destruct (decide (k = t)) as [->|Hk]; us; [|by eapply A11]. rewrite El in H.
    apply (A11 t). rewrite Et. apply elem_of_app in H. destruct H as [H|H]; [by apply Hl0 in H|]. by apply elem_of_list_further.
  - intros v. rewrite Hwin. destruct (A12 v) as [H|[H|H]]; [by left; apply Hun|by right; left; apply Hscan|].
    destruct (decide (v = d)) as [->|Hv]; [|right; right; by rewrite Hbox].
    destruct new; [by left; apply Hund|]. right; right. rewrite Hboxd, M6; done.
  - intros w v ts' en' q H. change (edges s' w) with (edges s w) in H |- *. rewrite Hwin.
    destruct (decide (v = d /\ q = p)) as [[-> ->]|Hslot].
    { left. rewrite Hboxd, M3, Hx. destruct (edge_one s u w d ts en ts' en' p) as (-> & -> & ->); [by constructor|done..]. }
    destruct (A13 w v ts' en' q H) as [H'|H'].
    + left. rewrite <- H'. destruct (decide (v = d)) as [->|Hv]; [|by rewrite Hbox]. rewrite Hboxd, M5; [done|]. intros ->. by apply Hslot.
    + right. change (todo s') with (upd (todo s) t l'). change (sent s') with (sent s).
      destruct (decide (owner w = t)) as [Ew|Ew]; us; [|done]. rewrite Ew, upd_eq. rewrite Ew, Et in H'. rewrite El.
      eapply will_tell_tail; [| |exact H']; [|done]. cbn. intros y [= -> -> -> _]. by apply Hslot.
  - intros H. assert (H0 : (bx s src) !! 0 = Some no_path).
    { destruct (decide (src = d)) as [E|E]; [|by rewrite <- Hbox]. rewrite E in *. by rewrite Hboxd, M2 in H. }
    destruct (A15 H0) as (H1 & H2 & H3 & H4). split_and!; try done.
    + intros v q y Hy. destruct (decide (v = d)) as [->|Hv]; [|rewrite Hbox in Hy by done; by eapply H3]. rewrite Hboxd in Hy.
      destruct (M4 q y Hy) as [H'|[->|[-> ->]]]; [by eapply H3|done|].
      rewrite H1 in Hx. unfold offer_se in Hx. cbn in Hx. by injection Hx.
    + intros v k i got q y E Hy. destruct (Hsc v k i got E) as [_ E0]. by eapply H4.
Qed.

Lemma set_whole (s s' : est) : pinv past s -> shaped tpaths owner s' -> wake tpaths owner n s' -> unanswered (elog s) src ->
  (forall k i got, todo s (owner src) <> [Scan (a := tpaths) src k i got]) ->
  (forall v, v <> src -> bx s' v = bx s v) -> (exists new slots, bx s src = new :: slots /\ bx s' src = whole :: slots) ->
  (forall v, prop s' v = prop s v) -> (forall v, edges s' v = edges s v) -> todo s' = todo s -> sent s' = sent s -> elog s' = elog s ->
  pinv past s'.
Proof.
  intros Hs Hsh Hw Hun Hns Eb (new & slots & Es & Es') Ep Ee Et Esn El.
  assert (Hwin : forall v, winof s' v = winof s v). { intros v. unfold winof. by rewrite Ep. }
  assert (Hlk : forall v p, bx s' v !! S p = bx s v !! S p).
  { intros v p. destruct (decide (v = src)) as [->|Hv]; [by rewrite Es, Es'|by rewrite Eb]. }
  assert (Hsv : forall v p, slotval (bx s' v) p = slotval (bx s v) p). { intros v p. unfold slotval. by rewrite Hlk. }
  assert (Hok : forall v p x, okslot s v p x -> okslot s' v p x).
  { intros v p x H. eapply okslot_edges; [exact H|]. intros u e He. exists e. by rewrite Ee. }
  destruct Hs as [A1 A2 A3 A4 A5 A6 A7 A8 A9 A10 A11 A12 A13 A14 A15].
  constructor; try done.
  - intros u. rewrite Ee. apply A3.
  - intros u. rewrite Ee. apply A4.
  - intros v. rewrite Ep. apply A5.
  - intros v. destruct (decide (v = src)) as [->|Hv]; [|rewrite Eb by done; apply A6]. exists whole, slots. split; [done|]. by right.
  - intros v p x. rewrite Hlk. intros H. by apply Hok, A7.
  - intros v k i got E. rewrite Et in E. destruct (decide (v = src)) as [->|Hv]; [by apply Hns in E|]. rewrite El, Eb by done.
    destruct (A8 v k i got E) as (H1 & H2 & H3 & H4). split_and!; try done. intros p x H. by apply Hok, H2.
  - intros t u v m H. rewrite Hwin, Ee. apply A9. by rewrite Et in H.
  - intros t u g H. rewrite Ee. apply A10. by rewrite Et in H.
  - intros t v m H. apply (A11 t). by rewrite Et in H.
  - intros v. rewrite Hwin, El. destruct (decide (v = src)) as [->|Hv]; [by left|]. rewrite Eb by done. unfold scanning. rewrite Et. apply A12.
  - intros u v ts en p H. rewrite Ee in H. rewrite Hsv, Hwin, Ee, Et, Esn. by apply A13.
  - rewrite Ep. apply A14.
  - rewrite Es'. discriminate.
Qed.

Lemma step_other s t o rest : pinv past s -> todo s t = o :: rest ->
  match o with Merge _ _ _ | Scan _ _ _ _ => False | _ => True end ->
  let s' := exec_op tpaths owner s t o rest in
  shaped tpaths owner s' -> wake tpaths owner n s' -> pinv past s'.
Proof.
  intros Hs Et Hk s' Hsh Hw. pose proof (rest_shape s t o rest Hs Et) as Hr.
  assert (Hns : forall v k i got, todo s t <> [Scan (a := tpaths) v k i got]).
  { eapply no_scan; [exact Et|]. intros v k i got ->. done. }
  subst s'. destruct o as [u0 d m|d|d|v|v k|v k i got|l|v m]; try done; cbn [exec_op] in *.
  - destruct (act s d =? 0)%nat.
    + eapply (quiet past s); try done; cbn [todo sent box elog edges prop].
      * left. split; [done|]. intros v k i got. discriminate.
      * rewrite Et. intros u v m. apply (has_msg_tail _ [Put d]). by apply small_one.
      * rewrite Et. intros u gone. apply (ending_tail _ [Put d]). by apply small_one.
      * intros v m. apply (init_tail s t _ [Put d] _ v m Hs Et). by apply small_one.
      * rewrite Et. intros u e _. by apply (will_tell_tail _ [Put d]).
    + eapply (quiet past s); try done; cbn [todo sent box elog edges prop].
      * by left.
      * rewrite Et. intros u v m. apply (has_msg_tail _ []). by apply small_nil.
      * rewrite Et. intros u gone. apply (ending_tail _ []). by apply small_nil.
      * intros v m. apply (init_tail s t _ [] _ v m Hs Et). by apply small_nil.
      * rewrite Et. intros u e _. by apply (will_tell_tail _ []).
  - eapply (quiet past s); try done; cbn [todo sent box elog edges prop].
    + intros j Hj. by us.
    + by left.
    + rewrite Et. intros u v m. apply (has_msg_tail _ []). by apply small_nil.
    + rewrite Et. intros u gone. apply (ending_tail _ []). by apply small_nil.
    + intros v m. apply (init_tail s t _ [] _ v m Hs Et). by apply small_nil.
    + rewrite Et. intros u e _. by apply (will_tell_tail _ []).
  - destruct Hr as [-> Hv]. eapply (quiet past s); try done; cbn [todo sent box elog edges prop].
    + left. split; [done|]. intros w k i got. discriminate.
    + rewrite Et. intros u w m. apply (has_msg_tail _ []). by apply small_nil.
    + rewrite Et. intros u gone. apply (ending_tail _ []). by apply small_nil.
    + intros w m. apply (init_tail s t _ [] _ w m Hs Et). by apply small_nil.
    + rewrite Et. intros u e _. by apply (will_tell_tail _ []).
  - destruct Hr as [-> Hv]. eapply (quiet past s); try done; cbn [todo sent box elog edges prop].
    + right; right. by exists v, k.
    + intros u w m [H|(x & H & _)]; apply elem_of_list_singleton in H; done.
    + rewrite Et. intros u gone [H|(i & got & H)]; apply elem_of_list_singleton in H; [done|]. injection H as -> <- _ _.
      left. apply elem_of_list_here.
    + by intros w m H%elem_of_list_singleton.
    + rewrite Et. intros u [w [[ts en] p]] _ [(x & H)|[(_ & y & x & H & _)|[(st & [H|(i & got & H)] & Hin)|(g & [H|(i & got & H)] & Hin)]]];
        [by apply elem_of_list_singleton in H|done| |done| |done]; injection H as -> ->.
      * right; right; left. exists st. split; [|done]. right. by eexists _, _.
      * right; right; right. exists g. split; [|done]. right. by eexists _, _.
  - rewrite Hr in *. eapply (quiet past s); try done; cbn [todo sent box elog edges prop].
    + left. split; [done|]. intros w k i got. destruct (sent s t =? 0)%nat; [|done]. rewrite app_nil_r.
      destruct l as [|[[? ?] ?] l]; done.
    + rewrite Et. intros u w m H. destruct (sent s t =? 0)%nat.
      2:{ destruct H as [H|(x & H & _)]; by apply elem_of_nil in H. }
      rewrite app_nil_r in H. right. exists l. split; [apply elem_of_list_here|]. destruct H as [H|(x & H & _)].
      * apply elem_of_list_fmap in H. destruct H as ([[? ?] ?] & E & H). by injection E as -> -> ->.
      * apply elem_of_list_fmap in H. destruct H as ([[? ?] ?] & E & H). done.
    + intros u gone H. exfalso. destruct (sent s t =? 0)%nat.
      2:{ destruct H as [H|(? & ? & H)]; by apply elem_of_nil in H. }
      rewrite app_nil_r in H. destruct H as [H|(? & ? & H)]; apply elem_of_list_fmap in H; by destruct H as ([[? ?] ?] & E & H).
    + intros w m H. exfalso. destruct (sent s t =? 0)%nat; [|by apply elem_of_nil in H].
      rewrite app_nil_r in H. apply elem_of_list_fmap in H; by destruct H as ([[? ?] ?] & E & H).
    + rewrite Et. intros u [w [[ts en] p]] _ [(x & H)|[(Hk0 & y & x & H & Hin)|[(st & [H|(i & got & H)] & Hin)|(g & [H|(i & got & H)] & Hin)]]]; 
        [by apply elem_of_list_singleton in H| |done..].
      injection H as ->. rewrite Hk0. left. exists x. cbn [Nat.eqb]. rewrite app_nil_r. apply elem_of_list_fmap. by exists (u, w, MOffer p x).
  - destruct Hr as [-> Hv]. destruct (p_init past s Hs t v m) as [-> ->]. { rewrite Et. apply elem_of_list_here. }
    destruct (p_head past s Hs src) as (h & sl & Eh & _). change (box s src) with (bx s src) in *. rewrite Eh in *. cbn [merge tpaths tp_merge] in *.
    set (s1 := Est (a := tpaths) (box s) (act s) (queue s) (prop s) (edges s) (upd (todo s) t [Begin src KUpd]) (sent s) (elog s ++ [Told src])).
    assert (Hw1 : wake tpaths owner n s1). { destruct Hw as [B1 B2 B3 B4 B5 B6]. by constructor. }
    apply (set_whole s1); try done.
    + eapply (quiet past s); try done; cbn [todo sent box elog edges prop s1].
      * right; left. by exists src.
      * rewrite Et. intros u w m. apply (has_msg_tail _ [Begin src KUpd] []). by apply small_one.
      * rewrite Et. intros u gone. apply (ending_tail _ [Begin src KUpd] []). by apply small_one.
      * intros w m. apply (init_tail s t _ [Begin src KUpd] [] w m Hs Et). by apply small_one.
      * rewrite Et. intros u e _. by apply (will_tell_tail _ [Begin src KUpd] []).
    + apply unans_new.
    + intros k i got. cbn [todo s1]. rewrite Hv, upd_eq. discriminate.
    + intros w Hw'. unfold bx. cbn. by us.
    + exists h, sl. split; [done|]. unfold bx. cbn. by us.
Qed.

Lemma step_read s t v k i got rest c : pinv past s -> todo s t = Scan (a := tpaths) v k i got :: rest ->
  box s v !! i = Some c ->
  let s' := exec_op tpaths owner s t (Scan (a := tpaths) v k i got) rest in
  shaped tpaths owner s' -> wake tpaths owner n s' -> pinv past s'.
Proof.
  intros Hs Et Ec s' Hsh Hw. pose proof (rest_shape s t _ rest Hs Et) as (-> & Hv & Hi & _). subst s'.
  cbn [exec_op] in *. rewrite Ec in *. cbn [take tpaths] in *.
  set (s' := Est _ _ _ _ _ _ _ _) in *. change (bx s v !! i = Some c) in Ec.
  assert (Eb : forall w, bx s' w = bx s w).
  { intros w. unfold bx. cbn. unfold upd. destruct (Nat.eqb_spec w v) as [->|]; [|done]. by apply list_insert_id. }
  change (cell_t tpaths) with path in *.
  assert (Hsc : forall w, scanning s w -> scanning s' w).
  { intros w (k1 & i1 & got1 & E). unfold scanning. cbn. destruct (decide (owner w = t)) as [Ew|Ew]; us; [|by exists k1, i1, got1].
    rewrite Ew, upd_eq. rewrite Ew, Et in E. injection E as <- _ _ _. by eexists _, _, _. }
  destruct (p_scan past s Hs v k i got) as (G1 & G2 & G3 & G4); [by rewrite Hv|].
  assert (Hgot : forall q x, (got ++ [c]) !! q = Some x -> got !! q = Some x \/ (q = i /\ x = c)).
  { intros q x H. apply lookup_app_Some in H. destruct H as [H|[Hq H]]; [by left|]. right.
    apply list_lookup_singleton_Some in H. destruct H as [H <-]. split; [|done]. lia. }
  assert (Hsc' : forall w k1 i1 got1, todo s' (owner w) = [Scan (a := tpaths) w k1 i1 got1] ->
    (w = v /\ got1 = got ++ [c]) \/ (owner w <> t /\ todo s (owner w) = [Scan (a := tpaths) w k1 i1 got1])).
  { intros w k1 i1 got1 E. cbn in E. destruct (decide (owner w = t)) as [Ew|Ew]; us; [|by right].
    rewrite Ew, upd_eq in E. injection E as <- <- <- <-. by left. }
  destruct Hs as [A1 A2 A3 A4 A5 A6 A7 A8 A9 A10 A11 A12 A13 A14 A15].
  assert (Hwin : forall w, winof s' w = winof s w) by done.
  constructor; try done.
  - intros w. rewrite Eb. apply A6.
  - intros w p x. rewrite Eb. apply A7.
  - intros w k1 i1 got1 E. rewrite Eb. change (elog s') with (elog s).
    destruct (Hsc' w k1 i1 got1 E) as [[-> ->]|[_ E0]]; [|by apply (A8 w k1 i1 got1)].
    apply lookup_lt_Some in Ec as Hlt. rewrite app_length. cbn [length]. split_and!; [lia| | |].
    + intros p x Hx. destruct (Hgot _ _ Hx) as [?|[E1 ->]]; [by apply G2|]. subst i. rewrite <- E1 in Ec. by apply A7.
    + intros x Hx. destruct (Hgot _ _ Hx) as [?|[E1 ->]]; [by apply G3|]. subst i. by rewrite <- E1 in Ec.
    + destruct G4 as [G4|?]; [left|by right]. subst i. rewrite Nat.add_1_r, (take_S_r _ _ _ Ec). congruence.
  - intros j u w m H. cbn in H. destruct (decide (j = t)) as [->|Hne]; us; [|by apply (A9 j)].
    destruct H as [H|(x & H & _)]; by apply elem_of_list_singleton in H.
  - intros j u gone H. cbn in H. destruct (decide (j = t)) as [->|Hne]; us; [|by apply A10].
    apply A10. rewrite Et. destruct H as [H|(i1 & got1 & H)]; apply elem_of_list_singleton in H; [done|].
    injection H as -> <- _ _. right. eexists _, _. apply elem_of_list_here.
  - intros j w m H. cbn in H. destruct (decide (j = t)) as [->|Hne]; us; [by apply elem_of_list_singleton in H|by eapply A11].
  - intros w. rewrite Eb, Hwin. destruct (A12 w) as [?|[?|?]]; auto.
  - intros u w ts en p H. rewrite Eb, Hwin. change (edges s' u) with (edges s u) in *. destruct (A13 u w ts en p H) as [H'|H']; [by left|right].
    change (todo s') with (upd (todo s) t [Scan (a := tpaths) v k (S i) (got ++ [c])]). change (sent s') with (sent s).
    destruct (decide (owner u = t)) as [Eu|Eu]; us; [|done]. rewrite Eu, upd_eq. rewrite Eu, Et in H'.
    destruct H' as [(x & H')|[(_ & y & x & H' & _)|[(st & [H'|(i1 & got1 & H')] & Hin)|(g & [H'|(i1 & got1 & H')] & Hin)]]];
      [by apply elem_of_list_singleton in H'|done|done| |done|]; injection H' as -> -> _ _.
    + right; right; left. exists st. split; [|done]. right. by eexists _, _.
    + right; right; right. exists g. split; [|done]. right. by eexists _, _.
  - rewrite Eb. intros H. destruct (A15 H) as (H1 & H2 & H3 & H4). split_and!; try done.
    + intros w p x. rewrite Eb. apply H3.
    + intros w k1 i1 got1 p x E Hx. destruct (Hsc' w k1 i1 got1 E) as [[-> ->]|[_ E0]]; [|by eapply H4].
      destruct (Hgot _ _ Hx) as [Hx'|[E1 ->]]; [eapply (H4 v k i got); [by rewrite Hv|done]|]. subst i. rewrite <- E1 in Ec. by eapply H3.
Qed.

Lemma step_react s t v k i got rest : pinv past s -> todo s t = Scan (a := tpaths) v k i got :: rest ->
  box s v !! i = None ->
  let s' := exec_op tpaths owner s t (Scan (a := tpaths) v k i got) rest in
  shaped tpaths owner s' -> wake tpaths owner n s' -> pinv past s'.
Proof.
  intros Hs Et Ec s' Hsh Hw. pose proof (rest_shape s t _ rest Hs Et) as (-> & Hv & Hi & Hsent). subst s'.
  cbn [exec_op] in *. rewrite Ec in *. cbn [react tpaths] in *. change (bx s v !! i = None) in Ec.
  destruct (p_scan past s Hs v k i got) as (G1 & G2 & G3 & G4); [by rewrite Hv|].
  change (cell_t tpaths) with path in *. apply lookup_ge_None in Ec. assert (Hl : length got = length (bx s v)) by lia.
  destruct (p_head past s Hs v) as (h & sl & Eh & Hh). destruct got as [|new slots]; [by rewrite Eh in Hl|].
  assert (new = h) as ->. { specialize (G3 new eq_refl). rewrite Eh in G3. by injection G3. }
  destruct (p_some past s Hs v) as (p0 & Ep0 & Hgood).
  pose proof (edges_in_time s v Hs) as Htime.
  assert (Hgone : forall gone, k = KDel gone -> forall e, e ∈ gone -> e ∈ (edges s v : list (nat * tedge))).
  { intros gone -> e He. destruct (p_ending past s Hs t v gone) as [_ H]; [|by apply H]. rewrite Et. right. eexists _, _. apply elem_of_list_here. }
  assert (Hgt : forall gone, k = KDel gone -> Forall (fun e => ts_of e <> INFINITY) gone).
  { intros gone E. apply list.Forall_forall. intros e He. apply (Hgone gone E) in He. destruct Htime as [_ Ht]. rewrite list.Forall_forall in Ht. by apply Ht. }
  assert (R : exists q ms ms', tp_react k (Some p0) (edges s v) (h :: slots) = (Some q, ms, ms') /\ good (wins q) /\
    ses (wins q) = times_of h slots /\
    ((wins q = wins p0 /\ ms = []) \/ Forall2 (told (wins q)) (edges s v) ms) /\
    match k with KUpd => ms' = [] | KAdd st => Forall2 (told (wins q)) (skipn st (edges s v)) ms' | KDel gone => Forall2 (told (wins q)) gone ms' end /\
    (bx s src !! 0 = Some no_path -> wins q = [] /\ (v = src -> nexts q = [])) /\
    (v = src -> (wins q = [] \/ wins q = [whole]) /\ (nexts q = [] \/ nexts q = [whole]))).
  { destruct Hh as [-> |[-> ->]].
    - destruct (react_other k p0 (edges s v) no_path slots (fun p ts => exists u en, (v, (ts, en, p)) ∈ (edges s u : list (nat * tedge)))) as (q & ms & ms' & R1 & R2 & R3 & R4 & R5 & R6);
        [done|done|by apply slot_times|intros p x Hx; by apply G2|done|done|].
      assert (Hdead : bx s src !! 0 = Some no_path -> wins q = [] /\ nexts q = []).
      { intros Hd. destruct (p_dead past s Hs Hd) as (D1 & _ & _ & D4). apply R6.
        - intros p x Hx. eapply (D4 v k i (no_path :: slots)); [by rewrite Hv|exact Hx].
        - specialize (D1 v). unfold winof in D1. by rewrite Ep0 in D1. }
      exists q, ms, ms'. split_and!; try done.
      + intros Hd. destruct (Hdead Hd) as [H1 H2]. done.
      + intros ->. destruct Hdead as [-> ->]; [by rewrite Eh|]. auto.
    - destruct (p_src past s Hs) as (p1 & Ep1 & W1 & W2). rewrite Ep0 in Ep1. injection Ep1 as <-.
      destruct (react_source k p0 (edges s src) whole slots) as (q & ms & ms' & R1 & R2 & R3 & R4 & R5 & R6 & R7); try done.
      exists q, ms, ms'. split_and!; try done; [by right| |by intros _; auto]. rewrite Eh. discriminate. }
  destruct R as (q & ms & ms' & R1 & R2 & R3 & R4 & R5 & R6 & R7). 
  change (react tpaths v k (prop s v) (edges s v) (h :: slots)) with (tp_react k (prop s v) (edges s v) (h :: slots)) in *.
  rewrite Ep0, R1 in *.
  set (s' := Est _ _ _ _ _ _ _ _) in *.
  assert (Hmsgs : forall d m, (d, m) ∈ ms \/ (d, m) ∈ ms' ->
    exists p x ts en, m = MOffer p x /\ (d, (ts, en, p)) ∈ (edges s v : list (nat * tedge)) /\ se x = offer_se (wins q) ts en).
  { intros d m [H|H].
    - destruct R4 as [[_ ->]|R4]; [by apply elem_of_nil in H|]. destruct (told_in _ _ _ _ _ R4 H) as (ts & en & p & x & H1 & H2 & H3).
      by exists p, x, ts, en.
    - destruct k as [|st|gone]; [subst ms'; by apply elem_of_nil in H|..]; destruct (told_in _ _ _ _ _ R5 H) as (ts & en & p & x & H1 & H2 & H3);
        exists p, x, ts, en; (split; [done|]); (split; [|done]).
      + rewrite <- (take_drop st (edges s v)). apply elem_of_app. by right.
      + by eapply Hgone. }
  assert (Hsc : forall w, w <> v -> scanning s w -> scanning s' w).
  { intros w Hwv (k1 & i1 & got1 & E). unfold scanning. cbn. destruct (decide (owner w = t)) as [Ew|Ew]; us; [|by exists k1, i1, got1].
    rewrite Ew, Et in E. by injection E as <- _ _ _. }
  assert (Htodo : todo s' t = merges tpaths v ms ++ [Else (a := tpaths) (tag tpaths v ms')]) by (cbn; by rewrite upd_eq).
  assert (Hsc' : forall w k1 i1 got1, todo s' (owner w) = [Scan (a := tpaths) w k1 i1 got1] -> owner w <> t /\ todo s (owner w) = [Scan (a := tpaths) w k1 i1 got1]).
  { intros w k1 i1 got1 E. destruct (decide (owner w = t)) as [Ew|Ew].
    - rewrite Ew, Htodo in E. destruct ms as [|[? ?] [|]]; done.
    - cbn in E. us. done. }
  assert (Ewin : forall u, u <> v -> winof s' u = winof s u) by (intros u Hu; unfold winof; cbn; by us).
  assert (Ewinv : winof s' v = wins q) by (unfold winof; cbn; by us).
  assert (Ewin0 : winof s v = wins p0) by (unfold winof; by rewrite Ep0).
  assert (Ep : forall u, u <> v -> prop s' u = prop s u) by (intros u Hu; cbn; by us).
  assert (Epv : prop s' v = Some q) by (cbn; by us).
  destruct Hs as [A1 A2 A3 A4 A5 A6 A7 A8 A9 A10 A11 A12 A13 A14 A15].
  constructor; try done.
  - intros u. destruct (decide (u = v)) as [->|Hu]; [rewrite Epv; eauto|rewrite Ep by done; apply A5].
  - intros w k1 i1 got1 E. destruct (Hsc' w k1 i1 got1 E) as [_ E0]. by apply (A8 w k1 i1 got1).
  - intros j u w m H. destruct (decide (j = t)) as [->|Hj].
    + rewrite Htodo in H. assert (u = v /\ ((w, m) ∈ ms \/ (w, m) ∈ ms')) as [-> Hin].
      { destruct H as [H|(x & H & Hx)].
        - apply elem_of_app in H. destruct H as [H|H%elem_of_list_singleton]; [|done].
          apply elem_of_list_fmap in H. destruct H as ([d1 m1] & E & Hin). injection E as -> -> <-. auto.
        - apply elem_of_app in H. destruct H as [H|H].
          + apply elem_of_list_fmap in H. by destruct H as ([d1 m1] & E & Hin).
          + apply elem_of_list_singleton in H. injection H as ->.
            apply elem_of_list_fmap in Hx. destruct Hx as ([d1 m1] & E & Hin). injection E as -> -> <-. auto. }
      rewrite Ewinv. split; [done|]. by apply Hmsgs.
    + cbn in H. us. destruct (A9 j u w m H) as (H1 & H2). rewrite Ewin; [done|]. congruence.
  - intros j u gone H. destruct (decide (j = t)) as [->|Hj].
    + exfalso. rewrite Htodo in H. destruct H as [H|(i1 & got1 & H)]; apply elem_of_app in H; destruct H as [H|H%elem_of_list_singleton]; try done;
        apply elem_of_list_fmap in H; by destruct H as ([d1 m1] & E & Hin).
    + cbn in H. us. by apply A10.
  - intros j w m H. destruct (decide (j = t)) as [->|Hj]; [|cbn in H; us; by eapply A11].
    exfalso. rewrite Htodo in H. apply elem_of_app in H; destruct H as [H|H%elem_of_list_singleton]; [|done].
    apply elem_of_list_fmap in H; by destruct H as ([d1 m1] & E & Hin).
  - intros u. change (elog s') with (elog s). change (bx s' u) with (bx s u). destruct (decide (u = v)) as [->|Hu].
    + destruct G4 as [G4|?]; [right; right|by left]. rewrite Ewinv, R3. rewrite Hl, firstn_all in G4. by rewrite <- G4.
    + rewrite Ewin by done. destruct (A12 u) as [?|[?|?]]; auto.
  - intros u w ts en p H. change (edges s' u) with (edges s u) in *. change (bx s' w) with (bx s w). change (sent s') with (sent s).
    destruct (decide (u = v)) as [->|Huv].
    + rewrite Ewinv, Hv, Htodo. destruct R4 as [[Esame Ems]|R4].
      2:{ right. destruct (told_all _ _ _ _ _ _ _ R4 H) as (x & Hx). left. exists x. apply elem_of_app. left. apply elem_of_list_fmap. by exists (w, MOffer p x). }
      destruct (A13 v w ts en p H) as [H'|H']; [left; by rewrite Esame, <- Ewin0|right].
      rewrite Hv, Et in H'. 
      destruct H' as [(x & H')|[(_ & y & x & H' & _)|[(st & [H'|(i1 & got1 & H')] & Hin)|(g & [H'|(i1 & got1 & H')] & Hin)]]];
        [by apply elem_of_list_singleton in H'|done|done| |done|]; injection H' as -> _ _;
        destruct (told_all _ _ _ _ _ _ _ R5 Hin) as (x & Hx); right; left; (split; [done|]); rewrite Ems; eexists _, x; (split; [reflexivity|]);
        apply elem_of_list_fmap; by exists (w, MOffer p x).
    + rewrite Ewin by done. destruct (A13 u w ts en p H) as [H'|H']; [by left|right].
      destruct (decide (owner u = t)) as [Ew|Ew].
      * exfalso. rewrite Ew, Et in H'.
        destruct H' as [(x & H')|[(_ & y & x & H' & _)|[(st & [H'|(i1 & got1 & H')] & Hin)|(g & [H'|(i1 & got1 & H')] & Hin)]]];
        [by apply elem_of_list_singleton in H'|done|done| |done|]; by injection H' as <- _ _ _.
      * change (todo s') with (upd (todo s) t (merges tpaths v ms ++ [Else (a := tpaths) (tag tpaths v ms')])).
        by us.
  - destruct (decide (src = v)) as [->|Hne]; [rewrite Epv; exists q; split; [done|by apply R7]|rewrite Ep by done; apply A14].
  - intros H. change (bx s' src) with (bx s src) in H. destruct (A15 H) as (H1 & H2 & H3 & H4). destruct (R6 H) as [D1 D2]. split_and!.
    + intros u. destruct (decide (u = v)) as [->|Hu]; [by rewrite Ewinv|by rewrite Ewin].
    + destruct (decide (src = v)) as [<-|Hne]; [rewrite Epv; exists q; split; [done|by apply D2]|by rewrite Ep].
    + done.
    + intros w k1 i1 got1 p x E Hx. destruct (Hsc' w k1 i1 got1 E) as [_ E0]. by eapply H4.
Qed.
End tp.
