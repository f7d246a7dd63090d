(** Invariants of the wait-count colouring. *)
From Verif Require Import Base Bitmap_Spec Bitmap_Model Bitmap_Proofs Vertex_Model Engine_Spec Engine_Model Engine_Proofs Engine_Shape Engine_Told
  Colour_Spec Colour_Model Colour_Best Colour_Proofs Colour_Run Wait_Spec Wait_Model.
Open Scope nat_scope.

(** ** Counting *)
Lemma filter_sum {A} (key : A -> nat) (P : nat -> bool) (l : list A) (D : list nat) :
  NoDup D -> (forall x, x ∈ l -> P (key x) = true -> key x ∈ D) -> (forall u, u ∈ D -> P u = true) ->
  length (List.filter (fun x => P (key x)) l) = list_sum (map (fun u => length (List.filter (fun x => key x =? u) l)) D).
Proof.
  intros HD HP HPD. induction l as [|x l IH]; cbn.
  - clear. unfold list_sum. induction D; cbn; auto.
  - assert (Hstep : list_sum (map (fun u => length (if key x =? u then x :: List.filter (fun x => key x =? u) l else List.filter (fun x => key x =? u) l)) D)
      = (if P (key x) then 1 else 0) + list_sum (map (fun u => length (List.filter (fun x => key x =? u) l)) D)).
    { assert (Hcount : forall D', NoDup D' -> list_sum (map (fun u => length (if key x =? u then x :: List.filter (fun x => key x =? u) l else List.filter (fun x => key x =? u) l)) D')
        = (if decide (key x ∈ D') then 1 else 0) + list_sum (map (fun u => length (List.filter (fun x => key x =? u) l)) D')).
      { clear. unfold list_sum. induction D' as [|u D' IH]; intros HD; cbn; [done|]. apply list.NoDup_cons in HD. destruct HD as [Hu HD]. rewrite IH by done.
        destruct (Nat.eqb_spec (key x) u) as [E|E]; cbn.
        - destruct (decide (key x ∈ D')) as [H|H]; [by subst|]. destruct (decide (key x ∈ u :: D')) as [H'|H']; [lia|].
          exfalso. apply H'. rewrite E. apply elem_of_list_here.
        - destruct (decide (key x ∈ D')) as [H|H]; destruct (decide (key x ∈ u :: D')) as [H'|H']; try lia; exfalso.
          + apply H'. by apply elem_of_list_further.
          + apply elem_of_cons in H'. tauto. }
      rewrite (Hcount D HD). destruct (decide (key x ∈ D)) as [H|H]; [by rewrite (HPD _ H)|].
      destruct (P (key x)) eqn:E; [|done]. exfalso. apply H, HP; [apply elem_of_list_here|done]. }
    rewrite Hstep. rewrite <- IH by (intros y Hy; apply HP; by apply elem_of_list_further). by destruct (P (key x)).
Qed.
Lemma concat_len {A B} (f : A -> list B) l : length (concat (map f l)) = list_sum (map (fun x => length (f x)) l).
Proof. induction l as [|x l IH]; cbn; [done|]. by rewrite app_length, IH. Qed.
Lemma NoDup_concat_map {A B} (f : A -> list B) l : NoDup l -> (forall x, x ∈ l -> NoDup (f x)) ->
  (forall x y z, x ∈ l -> y ∈ l -> z ∈ f x -> z ∈ f y -> x = y) -> NoDup (concat (map f l)).
Proof.
  induction l as [|x l IH]; cbn; intros Hl Hf Hd; [constructor|]. apply list.NoDup_cons in Hl. destruct Hl as [Hx Hl].
  apply list.NoDup_app. split_and!.
  - apply Hf, elem_of_list_here.
  - intros z Hz Hz'. apply elem_of_list_In, in_concat in Hz'. destruct Hz' as (l' & Hin & Hz').
    apply in_map_iff in Hin. destruct Hin as (y & <- & Hy). apply elem_of_list_In in Hy, Hz'.
    assert (x = y) as ->; [|done]. apply (Hd x y z); [apply elem_of_list_here|by apply elem_of_list_further|done|done].
  - apply IH; [done|..].
    + intros y Hy. apply Hf. by apply elem_of_list_further.
    + intros y y' z Hy Hy'. apply Hd; by apply elem_of_list_further.
Qed.
Lemma elem_filter {A} (f : A -> bool) l x : x ∈ List.filter f l <-> x ∈ l /\ f x = true.
Proof. rewrite !elem_of_list_In. apply filter_In. Qed.
Lemma NoDup_filter' {A} (f : A -> bool) l : NoDup l -> NoDup (List.filter f l).
Proof.
  induction l as [|x l IH]; intros H; cbn; [done|]. apply list.NoDup_cons in H. destruct H as [H1 H2].
  destruct (f x); [|by apply IH]. apply list.NoDup_cons. split; [|by apply IH]. rewrite elem_filter. tauto.
Qed.
Lemma count_none {A} (f : A -> bool) l : length (List.filter f l) = 0 <-> forall x, x ∈ l -> f x = false.
Proof.
  induction l as [|x l IH]; cbn; [split; [by intros _ x ?%elem_of_nil|done]|].
  destruct (f x) eqn:E; cbn.
  - split; [done|]. intros H. rewrite (H x) in E; [done|apply elem_of_list_here].
  - rewrite IH. split; [intros H y [->|Hy]%elem_of_cons; auto|]. intros H y Hy. apply H. by apply elem_of_list_further.
Qed.
Lemma count_ext {A} (f g : A -> bool) l : (forall x, x ∈ l -> f x = g x) -> length (List.filter f l) = length (List.filter g l).
Proof.
  induction l as [|x l IH]; intros H; cbn; [done|]. rewrite (H x) by apply elem_of_list_here.
  assert (E : length (List.filter f l) = length (List.filter g l)). { apply IH. intros y Hy. apply H. by apply elem_of_list_further. }
  by destruct (g x); cbn; rewrite E.
Qed.
Lemma count_drop {A} (f g : A -> bool) l x : NoDup l -> x ∈ l -> f x = true -> g x = false ->
  (forall y, y ∈ l -> y <> x -> g y = f y) -> length (List.filter f l) = S (length (List.filter g l)).
Proof.
  induction l as [|y l IH]; intros Hd Hx Hf Hg Hs; [by apply elem_of_nil in Hx|]. apply list.NoDup_cons in Hd. destruct Hd as [Hy Hd].
  cbn. apply elem_of_cons in Hx. destruct Hx as [<-|Hx].
  - rewrite Hf, Hg. cbn. f_equal. apply count_ext. intros z Hz. symmetry. apply Hs; [by apply elem_of_list_further|]. congruence.
  - rewrite (Hs y) by (try apply elem_of_list_here; congruence).
    assert (E : length (List.filter f l) = S (length (List.filter g l))).
    { apply IH; try done. intros z Hz. apply Hs. by apply elem_of_list_further. }
    destruct (f y); cbn; lia.
Qed.

Lemma prio_irrefl v : prio v v = false.
Proof. unfold prio, compare_priority. rewrite N.ltb_irrefl, N.eqb_refl, Nat.ltb_irrefl. done. Qed.

(** ** The slots of the neighbours that go first *)
Section graph.
Context (es : nat -> list (nat * nat)) (HU : slots_unique es) (HB : balanced es).
Definition firsts (v : nat) : list nat := List.filter (fun u => prio u v) (remove_dups (map fst (es v))).
Definition slots_of (u v : nat) : list (nat * nat) := map (fun x => (u, snd x)) (List.filter (fun x => fst x =? v) (es u)).
Definition higher (v : nat) : list (nat * nat) := concat (map (fun u => slots_of u v) (firsts v)).

Lemma in_slots u v w p : (w, p) ∈ slots_of u v <-> w = u /\ (v, p) ∈ es u.
Proof.
  unfold slots_of. rewrite elem_of_list_fmap. split.
  - intros ([v' p'] & [= -> ->] & H). apply elem_filter in H. destruct H as [H E]. apply Nat.eqb_eq in E. cbn in E. by subst.
  - intros [-> H]. exists (v, p). split; [done|]. apply elem_filter. cbn. by rewrite Nat.eqb_refl.
Qed.
Lemma in_higher u v p : (u, p) ∈ higher v <-> (v, p) ∈ es u /\ prio u v = true.
Proof.
  unfold higher. rewrite elem_of_list_In, in_concat. split.
  - intros (l & Hl & Hp). apply in_map_iff in Hl. destruct Hl as (w & <- & Hw). apply elem_of_list_In, in_slots in Hp.
    destruct Hp as [<- Hp]. split; [done|]. apply elem_of_list_In, elem_filter in Hw. tauto.
  - intros [H Hpr]. exists (slots_of u v). split; [|by apply elem_of_list_In, in_slots].
    apply in_map_iff. exists u. split; [done|]. apply elem_of_list_In, elem_filter. split; [|done].
    apply elem_of_remove_dups. assert (Hm : mult es v u <> 0).
    { rewrite <- HB. unfold mult. intros E. rewrite count_none in E. specialize (E (v, p) H). cbn in E. by rewrite Nat.eqb_refl in E. }
    unfold mult in Hm. destruct (List.filter (fun x => fst x =? u) (es v)) as [|[u' q] l] eqn:Ef; [done|].
    assert (Hin : (u', q) ∈ List.filter (fun x => fst x =? u) (es v)) by (rewrite Ef; apply elem_of_list_here).
    apply elem_filter in Hin. destruct Hin as [Hin E]. apply Nat.eqb_eq in E. cbn in E. subst.
    apply elem_of_list_fmap. by exists (u, q).
Qed.
Lemma higher_NoDup v : NoDup (higher v).
Proof.
  unfold higher. apply NoDup_concat_map.
  - apply NoDup_filter', NoDup_remove_dups.
  - intros u _. unfold slots_of. assert (Hd : NoDup (List.filter (fun x => fst x =? v) (es u))) by (by apply NoDup_filter', unique_NoDup).
    revert Hd. set (l := List.filter _ _). assert (Hl : forall x, x ∈ l -> fst x = v).
    { intros x Hx. apply elem_filter in Hx. destruct Hx as [_ E]. by apply Nat.eqb_eq. }
    clearbody l. induction l as [|x l IH]; intros Hd; cbn; [constructor|]. apply list.NoDup_cons in Hd. destruct Hd as [Hx Hd].
    apply list.NoDup_cons. split; [|apply IH; [intros y Hy; apply Hl; by apply elem_of_list_further|done]].
    intros H. apply elem_of_list_fmap in H. destruct H as (y & [= E] & Hy). apply Hx.
    assert (x = y) as ->; [|done]. destruct x, y. cbn in *. f_equal; [|done].
    pose proof (Hl (n, n0) ltac:(apply elem_of_list_here)). pose proof (Hl (n1, n2) ltac:(by apply elem_of_list_further)). cbn in *. congruence.
  - intros u w [x p] _ _ H1 H2. apply in_slots in H1, H2. destruct H1, H2. congruence.
Qed.
Lemma higher_len v : length (higher v) = wait_count es v.
Proof.
  unfold higher. rewrite concat_len. unfold wait_count.
  rewrite (filter_sum fst (fun u => prio u v) (es v) (firsts v)).
  - f_equal. apply map_ext. intros u. unfold slots_of. rewrite map_length. apply HB.
  - apply NoDup_filter', NoDup_remove_dups.
  - intros x Hx Hp. apply elem_filter. split; [|done]. apply elem_of_remove_dups, elem_of_list_fmap. by exists x.
  - intros u Hu. apply elem_filter in Hu. tauto.
Qed.
End graph.

(** ** What is still to be sent for a slot *)
Definition slot_msg (u v p : nat) (o : op waiting) : option wmsg :=
  match o with Merge s d m => if (s =? u) && (d =? v) && (m_pos m =? p) then Some m else None | _ => None end.
Lemma slot_msg_other u v p s d m : (s, d, m_pos m) <> (u, v, p) -> slot_msg u v p (Merge (a := waiting) s d m) = None.
Proof.
  intros H. cbn. destruct (Nat.eqb_spec s u), (Nat.eqb_spec d v), (Nat.eqb_spec (m_pos m) p); cbn; congruence.
Qed.
Lemma slot_msg_same s d m : slot_msg s d (m_pos m) (Merge (a := waiting) s d m) = Some m.
Proof. cbn. by rewrite !Nat.eqb_refl. Qed.
Lemma script_pos s d c p m : m ∈ script s d c p -> m_pos m = p.
Proof. unfold script. destruct (_ || _); rewrite ?elem_of_cons, ?elem_of_nil; intros H; destruct_or?; by subst. Qed.

Definition told_all (u : nat) (c : N) (l : list (nat * nat)) : list (op waiting) :=
  map (fun '(d, m) => Merge (a := waiting) u d m)
    (flat_map (fun '(d, (c, pos)) => map (pair d) (script u d c pos)) (map (fun '(d, pos) => (d, (c, pos))) l)).
Lemma told_all_cons u c d pos l : told_all u c ((d, pos) :: l) = map (fun m => Merge (a := waiting) u d m) (script u d c pos) ++ told_all u c l.
Proof. unfold told_all. cbn. rewrite map_app, map_map. done. Qed.
Lemma told_all_in u c l s d m : Merge (a := waiting) s d m ∈ told_all u c l -> s = u /\ (d, m_pos m) ∈ l.
Proof.
  induction l as [|[d' p'] l IH]; [by intros ?%elem_of_nil|]. rewrite told_all_cons, elem_of_app. intros [H|H].
  - apply elem_of_list_fmap in H. destruct H as (m' & [= -> -> ->] & H). apply script_pos in H. rewrite H. split; [done|apply elem_of_list_here].
  - destruct (IH H). split; [done|]. by apply elem_of_list_further.
Qed.
Lemma told_all_none u c l v p : (v, p) ∉ l -> omap (slot_msg u v p) (told_all u c l) = [].
Proof.
  intros Hn. assert (H : forall o, o ∈ told_all u c l -> slot_msg u v p o = None).
  { intros o Ho. unfold told_all in Ho. apply elem_of_list_fmap in Ho as Ho'. destruct Ho' as ([d m] & -> & _).
    fold (told_all u c l) in Ho. apply told_all_in in Ho. apply slot_msg_other. intros [= -> <-]. tauto. }
  clear Hn. induction (told_all u c l) as [|o l' IH]; [done|]. cbn. rewrite (H o) by apply elem_of_list_here. apply IH.
  intros o' Ho. apply H. by apply elem_of_list_further.
Qed.
Lemma told_all_slot u c l v p : NoDup l -> (v, p) ∈ l -> omap (slot_msg u v p) (told_all u c l) = script u v c p.
Proof.
  induction l as [|[d pos] l IH]; intros Hd Hin; [by apply elem_of_nil in Hin|]. apply list.NoDup_cons in Hd. destruct Hd as [Hx Hd].
  rewrite told_all_cons, omap_app. apply elem_of_cons in Hin. destruct Hin as [[= <- <-]|Hin].
  - rewrite told_all_none by done. rewrite app_nil_r. assert (H : forall m, m ∈ script u v c p -> m_pos m = p) by apply script_pos.
    revert H. generalize (script u v c p). intros l'. induction l' as [|m l' IH']; intros H; [done|]. cbn [map omap list_omap].
    assert (E : slot_msg u v p (Merge (a := waiting) u v m) = Some m). { rewrite <- (H m) by apply elem_of_list_here. apply slot_msg_same. }
    rewrite E. f_equal. apply IH'. intros m' Hm. apply H. by apply elem_of_list_further.
  - rewrite (IH Hd Hin). assert (Hne : (d, pos) <> (v, p)) by congruence.
    assert (H : forall m, m ∈ script u d c pos -> m_pos m = pos) by apply script_pos. revert H. generalize (script u d c pos).
    intros l' H. replace (omap (slot_msg u v p) (map _ l')) with (@nil wmsg); [done|]. symmetry.
    induction l' as [|m l' IH']; [done|]. cbn [map omap list_omap]. rewrite slot_msg_other.
    + apply IH'. intros m' Hm. apply H. by apply elem_of_list_further.
    + rewrite (H m) by apply elem_of_list_here. congruence.
Qed.

(** ** The invariant *)
Section inv.
Context (owner : nat -> nat) (n : nat) (Hown : forall v, owner v < n).
Context (es : nat -> list (nat * nat)) (b : nat -> nat).
Notation est := (est waiting).
Notation colr s v := (fst (prop s v)).
Definition pend (s : est) (u v p : nat) : list wmsg := omap (slot_msg u v p) (todo s (owner u)).
Definition undone (s : est) (v : nat) (x : nat * nat) : bool :=
  (colr s (fst x) =? EMPTY_VAL)%N || (2 <=? length (pend s (fst x) v (snd x))).
Definition cnt (s : est) (v : nat) : nat := length (List.filter (undone s v) (higher es v)).
Definition cell_ok (s : est) (v p : nat) (c : N) : Prop :=
  c = EMPTY_VAL \/ exists u, (v, p) ∈ es u /\ u <> v /\ colr s u <> EMPTY_VAL /\ c = (if prio v u then colr s u else N.lor (colr s u) MSB).
Definition op_ok (t : nat) (o : op waiting) : Prop :=
  match o with Merge u v m => owner u = t /\ (v, m_pos m) ∈ es u | Else l => l = [] | _ => True end.
(** The cell of a neighbour that goes first. *)
Definition slot_ok (s : est) (u v p : nat) : Prop :=
  exists c r, box s v !! S p = Some (c, r) /\ (colr s u <> EMPTY_VAL -> length (pend s u v p) <= 3 -> c = N.lor (colr s u) MSB) /\
    (r = RZero -> pend s u v p = [Fi p] /\ cnt s v = 0) /\ (pend s u v p = [De p; Fi p] -> r = RPos).
Definition count_ok (s : est) (v : nat) : Prop :=
  exists w r, box s v !! 0 = Some (w, r) /\ (w = N.of_nat (cnt s v) \/ (w = W32_MAX /\ cnt s v = 0)).
Definition zero_ok (s : est) (v : nat) : Prop :=
  cnt s v = 0 -> higher es v <> [] -> Told v ∈ elog s \/ exists u p c, (u, p) ∈ higher es v /\ box s v !! S p = Some (c, RZero).

Record winv (s : est) : Prop := {
  v_shape : shaped waiting owner s;
  v_wake : wake waiting owner n s;
  v_told : told_first waiting s;
  v_edges : forall u, edges s u = es u;
  v_upd : updated waiting owner (fun p => fst p <> EMPTY_VAL) s;
  v_ops : forall t o, o ∈ todo s t -> op_ok t o;
  v_pend : forall u v p, (v, p) ∈ es u -> u <> v ->
    (exists l, script u v (colr s u) p = l ++ pend s u v p) /\ (colr s u = EMPTY_VAL -> pend s u v p = []);
  v_len : forall v, length (box s v) = S (b v);
  v_slot : forall u v p, (u, p) ∈ higher es v -> slot_ok s u v p;
  v_cell : forall v p c r, box s v !! S p = Some (c, r) -> cell_ok s v p c;
  v_count : forall v, count_ok s v;
  v_done : forall v, Told v ∈ elog s -> cnt s v = 0;
  v_zero : forall v, zero_ok s v;
  v_prop : forall v, colr s v <> EMPTY_VAL ->
    cnt s v = 0 /\ smallest_unused (before prio es (fun u => colr s u) v) (colr s v) /\ (colr s v < 2 ^ 31 - 1)%N;
  v_bm : forall v, exists S, bm_inv (snd (prop s v)) S;
  v_scan : forall v k i got, todo s (owner v) = [Scan (a := waiting) v k i got] ->
    length got <= S (b v) /\ forall p c r, got !! S p = Some (c, r) -> cell_ok s v p c /\
      forall u, (u, p) ∈ higher es v -> colr s u <> EMPTY_VAL /\ c = N.lor (colr s u) MSB }.

Lemma cnt_zero s v : cnt s v = 0 <-> forall u p, (u, p) ∈ higher es v -> colr s u <> EMPTY_VAL /\ length (pend s u v p) <= 1.
Proof.
  unfold cnt. rewrite count_none. split.
  - intros H u p Hin. specialize (H (u, p) Hin). unfold undone in H. cbn [fst snd] in H. apply orb_false_iff in H. destruct H as [H1 H2].
    apply N.eqb_neq in H1. apply Nat.leb_gt in H2. split; [done|lia].
  - intros H [u p] Hin. destruct (H u p Hin) as [H1 H2]. unfold undone. cbn [fst snd]. apply orb_false_iff. split; [by apply N.eqb_neq|apply Nat.leb_gt; lia].
Qed.

(** Steps that change neither cells nor colours nor what is to be sent. *)
Context (HU : slots_unique es) (HB : balanced es).
Lemma higher_ne u v p : (u, p) ∈ higher es v -> (v, p) ∈ es u /\ prio u v = true /\ u <> v.
Proof.
  intros H. apply in_higher in H; [|done]. destruct H as [H1 H2]. split_and!; [done..|]. intros ->. by rewrite prio_irrefl in H2.
Qed.
Lemma frame s s' : winv s -> shaped waiting owner s' -> wake waiting owner n s' -> told_first waiting s' ->
  updated waiting owner (fun p => fst p <> EMPTY_VAL) s' -> (forall v, box s' v = box s v) -> (forall v, colr s' v = colr s v) ->
  (forall v, exists S, bm_inv (snd (prop s' v)) S) -> (forall v, edges s' v = edges s v) ->
  (forall u v p, u <> v -> pend s' u v p = pend s u v p) -> (forall t o, o ∈ todo s' t -> op_ok t o) ->
  (forall v, Told v ∈ elog s -> Told v ∈ elog s') -> (forall v, Told v ∈ elog s' -> cnt s v = 0) ->
  (forall v k i got, todo s' (owner v) = [Scan (a := waiting) v k i got] -> got = [] \/ exists k' i', todo s (owner v) = [Scan (a := waiting) v k' i' got]) ->
  winv s'.
Proof.
  intros [A1 A2 A3 A4 A5 A6 A7 A8 A9 A10 A11 A12 A13 A14 A15 A16] B1 B2 B3 B4 Eb Ec Hbm Ee Ep Hop Ht1 Ht2 Hsc.
  assert (Ecnt : forall v, cnt s' v = cnt s v).
  { intros v. unfold cnt. apply count_ext. intros [u p] H. unfold undone. cbn [fst snd]. rewrite Ec, Ep; [done|]. by apply (higher_ne u v p). }
  assert (Eok : forall v p c, cell_ok s v p c -> cell_ok s' v p c).
  { intros v p c [?|(u & H1 & H2 & H3 & H4)]; [by left|right]. exists u. by rewrite Ec. }
  constructor; try done.
  - intros u. by rewrite Ee.
  - intros u v p H Hne. rewrite Ec, (Ep u v p Hne). by apply A7.
  - intros v. by rewrite Eb.
  - intros u v p H. destruct (A9 u v p H) as (c & r & H1 & H2 & H3). exists c, r. rewrite Eb, Ec, Ecnt, Ep; [done|]. by apply (higher_ne u v p).
  - intros v p c r. rewrite Eb. intros H. by eapply Eok, A10.
  - intros v. destruct (A11 v) as (w & r & H1 & H2). exists w, r. by rewrite Eb, Ecnt.
  - intros v H. rewrite Ecnt. by apply Ht2.
  - intros v. unfold zero_ok. rewrite Ecnt. intros H1 H2. destruct (A13 v H1 H2) as [H|(u & p & c & H)]; [left; by apply Ht1|right].
    exists u, p, c. by rewrite Eb.
  - intros v. rewrite Ec, Ecnt. intros H. destruct (A14 v H) as (H1 & [H2 H3] & H4). split_and!; try done.
    split; [intros (u & p & G1 & G2 & G3)|intros d Hd].
    + apply H2. exists u, p. cbn in G3 |- *. by rewrite Ec in G3.
    + destruct (H3 d Hd) as (u & p & G1 & G2 & G3). exists u, p. by rewrite Ec.
  - intros v k i got H. destruct (Hsc v k i got H) as [->|(k' & i' & H')]; [split; [apply Nat.le_0_l|done]|].
    destruct (A16 v k' i' got H') as [G0 G3]. split; [done|]. intros p c r Hg. destruct (G3 p c r Hg) as [G1 G2]. split; [by apply Eok|]. intros u Hu. rewrite Ec. by apply G2.
Qed.

(** A step that works on one slot. *)
Lemma local s s' u v p m : winv s -> shaped waiting owner s' -> wake waiting owner n s' -> told_first waiting s' ->
  updated waiting owner (fun p => fst p <> EMPTY_VAL) s' -> (forall w, w <> v -> box s' w = box s w) ->
  (forall v, prop s' v = prop s v) -> (forall v, edges s' v = edges s v) -> (v, p) ∈ es u -> u <> v ->
  pend s u v p = m :: pend s' u v p ->
  (forall u' v' p', (u', v', p') <> (u, v, p) -> pend s' u' v' p' = pend s u' v' p') -> (forall t o, o ∈ todo s' t -> op_ok t o) ->
  (forall v, Told v ∈ elog s -> Told v ∈ elog s') -> (forall w, Told w ∈ elog s' -> Told w ∈ elog s \/ w = v /\ cnt s' v = 0) ->
  (forall v k i got, todo s' (owner v) = [Scan (a := waiting) v k i got] -> todo s (owner v) = [Scan (a := waiting) v k i got]) ->
  length (box s' v) = length (box s v) ->
  (cnt s' v <= cnt s v -> (forall u p, (u, p) ∈ higher es v -> slot_ok s' u v p) /\ (forall p c r, box s' v !! S p = Some (c, r) -> cell_ok s' v p c) /\
    count_ok s' v /\ zero_ok s' v) ->
  winv s'.
Proof.
  intros [A1 A2 A3 A4 A5 A6 A7 A8 A9 A10 A11 A12 A13 A14 A15 A16] B1 B2 B3 B4 Eb Ec Ee Hin Hne Ep1 Ep2 Hop Ht1 Ht2 Hsc Hlen Hloc.
  assert (Ecnt : forall w, w <> v -> cnt s' w = cnt s w).
  { intros w Hw. unfold cnt. apply count_ext. intros [x q] H. unfold undone. cbn [fst snd]. rewrite Ec, Ep2; [done|]. congruence. }
  assert (Hle : forall x w q, length (pend s' x w q) <= length (pend s x w q)).
  { intros x w q. destruct (decide ((x, w, q) = (u, v, p))) as [[= -> -> ->]|Hx]; [|by rewrite Ep2]. rewrite Ep1. cbn. lia. }
  assert (Hz : forall w, cnt s w = 0 -> cnt s' w = 0).
  { intros w. rewrite !cnt_zero. intros H x q Hx. destruct (H x q Hx) as [H1 H2]. rewrite Ec. split; [done|]. etransitivity; [apply Hle|done]. }
  assert (Hcle : cnt s' v <= cnt s v).
  { unfold cnt. clear -Hle Ec. induction (higher es v) as [|[x q] l IH]; cbn; [done|].
    assert (Hu : undone s' v (x, q) = true -> undone s v (x, q) = true).
    { unfold undone. cbn [fst snd]. rewrite Ec. intros H. apply orb_true_iff in H. apply orb_true_iff. destruct H as [H|H]; [by left|right].
      apply Nat.leb_le in H. apply Nat.leb_le. etransitivity; [exact H|apply Hle]. }
    destruct (undone s' v (x, q)); [rewrite Hu by done|destruct (undone s v (x, q))]; cbn; lia. }
  destruct (Hloc Hcle) as (L1 & L2 & L3 & L4).
  assert (Eok : forall v p c, cell_ok s v p c -> cell_ok s' v p c).
  { intros w q c [?|(x & H1 & H2 & H3 & H4)]; [by left|right]. exists x. by rewrite Ec. }
  constructor; try done.
  - intros x. by rewrite Ee.
  - intros x w q H Hx. rewrite Ec. destruct (A7 x w q H Hx) as [(l & El) H0].
    destruct (decide ((x, w, q) = (u, v, p))) as [[= -> -> ->]|Hd].
    + rewrite Ep1 in El, H0. split; [exists (l ++ [m]); by rewrite <- app_assoc|]. intros E. by specialize (H0 E).
    + rewrite (Ep2 x w q Hd). split; [by exists l|done].
  - intros w. destruct (decide (w = v)) as [->|Hw]; [by rewrite Hlen|by rewrite Eb].
  - intros x w q H. destruct (decide (w = v)) as [->|Hw]; [by apply L1|].
    destruct (A9 x w q H) as (c & r & H1 & H2 & H3). exists c, r. rewrite Eb, Ec, Ecnt, Ep2 by congruence. done.
  - intros w q c r H. destruct (decide (w = v)) as [->|Hw]; [by eapply L2|]. rewrite Eb in H by done. by eapply Eok, A10.
  - intros w. destruct (decide (w = v)) as [->|Hw]; [done|]. destruct (A11 w) as (x & r & H1 & H2). exists x, r. by rewrite Eb, Ecnt.
  - intros w H. destruct (Ht2 w H) as [H'|[-> H']]; [|done]. apply Hz. by apply A12.
  - intros w. destruct (decide (w = v)) as [->|Hw]; [done|]. unfold zero_ok. rewrite (Ecnt w Hw). intros H1 H2.
    destruct (A13 w H1 H2) as [H|(x & q & c & H)]; [left; by apply Ht1|right]. exists x, q, c. by rewrite Eb.
  - intros w. rewrite Ec. intros H. destruct (A14 w H) as (H1 & [H2 H3] & H4). split_and!; [by apply Hz| |done].
    split; [intros (x & q & G1 & G2 & G3)|intros d Hd].
    + apply H2. exists x, q. cbn in G3 |- *. by rewrite Ec in G3.
    + destruct (H3 d Hd) as (x & q & G1 & G2 & G3). exists x, q. by rewrite Ec.
  - intros w. rewrite Ec. apply A15.
  - intros w k i got H. destruct (A16 w k i got (Hsc w k i got H)) as [G0 G3]. split; [done|]. intros q c r Hg. destruct (G3 q c r Hg) as [G1 G2]. split; [by apply Eok|].
    intros x Hx. rewrite Ec. by apply G2.
Qed.
End inv.
