(** Invariant of the colouring algorithm. *)
From Verif Require Import Base Bitmap_Spec Bitmap_Model Bitmap_Proofs Engine_Spec Engine_Model Engine_Proofs Engine_Shape
  Colour_Spec Colour_Model Colour_Best.
Open Scope nat_scope.

Lemma unans_told l v w : unanswered l v -> unanswered (l ++ [Told w]) v.
Proof.
  intros (l1 & l2 & -> & H). exists l1, (l2 ++ [Told w]). split; [by rewrite <- app_assoc|].
  intros [?|?%elem_of_list_singleton]%elem_of_app; done.
Qed.
Lemma unans_new l v : unanswered (l ++ [Told v]) v.
Proof. exists l, []. split; [done|]. by intros ?%elem_of_nil. Qed.
Lemma unans_began l v w : unanswered l v -> w <> v -> unanswered (l ++ [Began w]) v.
Proof.
  intros (l1 & l2 & -> & H) Hne. exists l1, (l2 ++ [Began w]). split; [by rewrite <- app_assoc|].
  intros [?|E%elem_of_list_singleton]%elem_of_app; [done|]. by injection E.
Qed.

Lemma prio_total u v : u <> v -> prio u v = negb (prio v u).
Proof.
  intros H. unfold prio, compare_priority. generalize (hash u), (hash v). intros x y.
  destruct (N.ltb_spec x y), (N.ltb_spec y x), (N.eqb_spec x y), (N.eqb_spec y x), (Nat.ltb_spec u v), (Nat.ltb_spec v u); cbn; lia.
Qed.

(** Positions and lengths. *)
Lemma merge_len m s d l l' b : mail_merge m s d l = (l', b) -> length l <= length l' /\ length l' <= Nat.max (length l) (S (snd m)).
Proof.
  unfold mail_merge, grow_slots. destruct (s =? d)%nat; [intros [= <- _]; lia|].
  destruct (Nat.leb_spec (length l) (snd m)).
  - intros [= <- _]. rewrite insert_length, app_length, replicate_length. lia.
  - destruct (l !! snd m) as [c|]; [|intros [= <- _]; lia]. destruct (c =? _)%N; intros [= <- _]; rewrite ?insert_length; lia.
Qed.
(** What a merge does to the cells of a mailbox. *)
Lemma merge_cells m s d l l' b : mail_merge m s d l = (l', b) -> s <> d ->
  let c := if prio d s then fst m else N.lor (fst m) MSB in
  l' !! snd m = Some c /\
  (forall j x, j <> snd m -> l' !! j = Some x -> l !! j = Some x \/ (length l <= j /\ x = EMPTY_VAL)) /\
  (forall j x, j <> snd m -> l !! j = Some x -> l' !! j = Some x) /\
  (b = negb (prio d s) \/ l' = l).
Proof.
  intros H Hne c. unfold mail_merge in H. destruct (Nat.eqb_spec s d); [done|]. fold c in H.
  unfold grow_slots in H. destruct (Nat.leb_spec (length l) (snd m)) as [Hl|Hl].
  - injection H as <- <-. split_and!; [| | |by left].
    + apply list_lookup_insert. rewrite app_length, replicate_length. lia.
    + intros j x Hj Hx. rewrite list_lookup_insert_ne in Hx by done.
      destruct (decide (j < length l)) as [Hlt|Hge].
      * rewrite lookup_app_l in Hx by done. by left.
      * rewrite lookup_app_r in Hx by lia. apply lookup_replicate in Hx. right. split; [lia|tauto].
    + intros j x Hj Hx. rewrite list_lookup_insert_ne by done. rewrite lookup_app_l; [done|].
      by apply lookup_lt_Some in Hx.
  - destruct (l !! snd m) as [c0|] eqn:E.
    2:{ apply lookup_ge_None in E. lia. }
    destruct (N.eqb_spec c0 c) as [->|Hc]; injection H as <- <-.
    + split_and!; try done; [|by right]. intros j x _ ?. by left.
    + split_and!; [by apply list_lookup_insert| | |by left].
      * intros j x Hj Hx. rewrite list_lookup_insert_ne in Hx by done. by left.
      * intros j x Hj Hx. by rewrite list_lookup_insert_ne.
Qed.
Lemma merge_self m s l l' b : mail_merge m s s l = (l', b) -> l' = l /\ b = true.
Proof. unfold mail_merge. rewrite Nat.eqb_refl. by intros [= <- <-]. Qed.

Section col.
Context (owner : nat -> nat) (n : nat) (Hown : forall v, owner v < n) (K : nat) (HK : (N.of_nat K < 2 ^ 31 - 1)%N).
Notation est := (est colouring).
Notation colr s v := (fst (prop s v)).

Definition scanning (s : est) (v : nat) : Prop := exists k i got, todo s (owner v) = [Scan (a := colouring) v k i got].
Definition has_msg (l : list (op colouring)) (u v : nat) (c : N) (p : nat) : Prop :=
  Merge (a := colouring) u v (c, p) ∈ l \/ exists x, Else (a := colouring) x ∈ l /\ (u, v, (c, p)) ∈ x.
Definition deleting (l : list (op colouring)) (u : nat) (gone : list (nat * nat)) : Prop :=
  Begin (a := colouring) u (KDel gone) ∈ l \/ exists i got, Scan (a := colouring) u (KDel gone) i got ∈ l.
(** Vertex [u] will tell [c] to position [p] of [v]. *)
Definition will_tell (l : list (op colouring)) (k : nat) (es : list (nat * nat)) (u v : nat) (c : N) (p : nat) : Prop :=
  Merge (a := colouring) u v (c, p) ∈ l \/
  (k = 0 /\ exists x, l = [Else (a := colouring) x] /\ (u, v, (c, p)) ∈ x) \/
  (exists st, (l = [Begin (a := colouring) u (KAdd st)] \/ exists i got, l = [Scan (a := colouring) u (KAdd st) i got]) /\
     (v, p) ∈ skipn st es).

Record cinv (past : nat -> list (nat * nat)) (s : est) : Prop := {
  c_shape : shaped colouring owner s;
  c_wake : wake colouring owner n s;
  c_past : forall u, sublist (edges s u) (past u);
  c_bm : forall u, exists S, bm_inv (snd (prop s u)) S;
  c_small : forall u, colr s u = EMPTY_VAL \/ (colr s u <= N.of_nat (length (box s u)))%N;
  c_len : forall u, length (box s u) <= K;
  c_fresh : forall u, colr s u = EMPTY_VAL -> Began u ∉ elog s \/ scanning s u;
  c_seen : forall v j c, box s v !! j = Some c -> has_msb c = true -> colour_of c = colr s v ->
     unanswered (elog s) v \/ scanning s v;
  c_scan : forall v k i got, todo s (owner v) = [Scan (a := colouring) v k i got] ->
     length got <= length (box s v) /\
     forall j c, j < length got -> box s v !! j = Some c -> has_msb c = true -> got !! j = Some c \/ unanswered (elog s) v;
  c_msg : forall t u v c p, has_msg (todo s t) u v c p ->
     owner u = t /\ (v, p) ∈ past u /\ (c < 2 ^ 31)%N /\ ((v, p) ∈ edges s u -> c = colr s u);
  c_del : forall t u gone, deleting (todo s t) u gone -> owner u = t /\ (forall x, x ∈ gone -> x ∈ past u /\ x ∉ edges s u);
  c_tell : forall u v p, (v, p) ∈ edges s u -> u <> v -> prio u v = true ->
     colr s u = EMPTY_VAL \/ box s v !! p = Some (N.lor (colr s u) MSB) \/
     will_tell (todo s (owner u)) (sent s (owner u)) (edges s u) u v (colr s u) p }.

Lemma colr_lt past s u : cinv past s -> (colr s u < 2 ^ 31)%N.
Proof.
  intros Hs. destruct (c_small past s Hs u) as [->|H]; [done|]. pose proof (c_len past s Hs u). lia.
Qed.

(** A step that changes neither mailboxes, nor properties, nor edges. *)
Lemma quiet past (s s' : est) t l' : cinv past s -> shaped colouring owner s' -> wake colouring owner n s' ->
  (forall v, box s' v = box s v) -> (forall v, prop s' v = prop s v) -> (forall v, edges s' v = edges s v) ->
  todo s' = upd (todo s) t l' -> (forall k, k <> t -> sent s' k = sent s k) ->
  (forall v k i got, todo s t <> [Scan (a := colouring) v k i got]) ->
  ((elog s' = elog s /\ forall v k i got, l' <> [Scan (a := colouring) v k i got]) \/
   (exists w, elog s' = elog s ++ [Told w] /\ forall v k i got, l' <> [Scan (a := colouring) v k i got]) \/
   (exists w kd, owner w = t /\ elog s' = elog s ++ [Began w] /\ l' = [Scan (a := colouring) w kd 0 []])) ->
  (forall u v c p, has_msg l' u v c p -> has_msg (todo s t) u v c p) ->
  (forall u gone, deleting l' u gone -> deleting (todo s t) u gone) ->
  (forall u v c p, owner u = t -> u <> v -> will_tell (todo s t) (sent s t) (edges s u) u v c p ->
     will_tell l' (sent s' t) (edges s u) u v c p) ->
  cinv past s'.
Proof.
  intros Hs Hsh Hw Eb Ep Ee Et Es Hns Hlog Hmsg Hdel Htell.
  assert (Hscan : forall v, scanning s v -> scanning s' v).
  { intros v (k & i & got & E). exists k, i, got. rewrite Et. destruct (decide (owner v = t)) as [Ev|Ev]; us; [|done].
    rewrite Ev in E. by apply Hns in E. }
  assert (Hun : forall v, unanswered (elog s) v -> unanswered (elog s') v \/
    (exists kd, owner v = t /\ l' = [Scan (a := colouring) v kd 0 []])).
  { intros v Hv. destruct Hlog as [[-> _]|[(w & -> & _)|(w & kd & Hw' & -> & El)]]; [by left|left; by apply unans_told|].
    destruct (decide (w = v)) as [->|Hne]; [right; by exists kd|left; by apply unans_began]. }
  assert (Hnew : forall v kd, owner v = t -> l' = [Scan (a := colouring) v kd 0 []] -> scanning s' v).
  { intros v kd Ev El. exists kd, 0, []. by rewrite Et, Ev, upd_eq. }
  destruct Hs as [A1 A2 A3 A4 A5 A6 A7 A8 A9 A10 A11 A12].
  constructor; try setoid_rewrite Eb; try setoid_rewrite Ep; try setoid_rewrite Ee; try done.
  - intros u Hu. destruct (A7 u Hu) as [Hb|Hb]; [|right; auto].
    destruct Hlog as [[-> _]|[(w & -> & _)|(w & kd & Hw' & -> & El)]]; [by left| |].
    + left. intros [?|?%elem_of_list_singleton]%elem_of_app; done.
    + destruct (decide (w = u)) as [->|Hne]; [right; by eapply Hnew|]. left.
      intros [?|E%elem_of_list_singleton]%elem_of_app; [done|]. by injection E.
  - intros v j c H1 H2 H3. destruct (A8 v j c H1 H2 H3) as [Hu|?]; [|auto].
    destruct (Hun v Hu) as [?|(kd & H4 & H5)]; [by left|right; by eapply Hnew].
  - intros v k i got E. rewrite Et in E. destruct (decide (owner v = t)) as [Ev|Ev]; us.
    + rewrite Ev, upd_eq in E. destruct Hlog as [[_ Hl]|[(w & _ & Hl)|(w & kd & _ & _ & El)]]; [by apply Hl in E..|].
      rewrite El in E. injection E as -> <- <- <-. split; [cbn; lia|]. intros j c Hj. cbn in Hj. lia.
    + destruct (A9 v k i got E) as [H1 H2]. split; [done|]. intros j c Hj H3 H4.
      destruct (H2 j c Hj H3 H4) as [?|Hu]; [by left|]. destruct (Hun v Hu) as [?|(kd & H5 & _)]; [by right|done].
  - intros k u v c p H. rewrite Et in H. destruct (decide (k = t)) as [->|Hne]; us; [|by apply A10].
    by apply A10, Hmsg.
  - intros k u gone H. rewrite Et in H. destruct (decide (k = t)) as [->|Hne]; us; [|by apply A11].
    by apply A11, Hdel.
  - intros u v p H1 H2 H3. destruct (A12 u v p H1 H2 H3) as [?|[?|H4]]; [by left|by right; left|].
    right; right. rewrite Et. destruct (decide (owner u = t)) as [Eu|Eu].
    + rewrite Eu in *. rewrite upd_eq. by apply Htell.
    + us. by rewrite Es.
Qed.

Context (past : nat -> list (nat * nat)) (HU : slots_unique past) (HP : forall u v p, (v, p) ∈ past u -> p < K).

Lemma past_one u1 u2 x : x ∈ past u1 -> x ∈ past u2 -> u1 = u2.
Proof. intros [i1 H1]%elem_of_list_lookup [i2 H2]%elem_of_list_lookup. by destruct (HU _ _ _ _ _ H1 H2). Qed.
Lemma edge_past s u x : cinv past s -> x ∈ edges s u -> x ∈ past u.
Proof. intros Hs H. eapply elem_of_submseteq; [exact H|]. apply sublist_submseteq, Hs. Qed.

Lemma no_scan s t o rest : todo s t = o :: rest -> (forall v k i got, o <> Scan (a := colouring) v k i got) ->
  forall v k i got, todo s t <> [Scan (a := colouring) v k i got].
Proof. intros E H v k i got E'. rewrite E in E'. injection E' as E1 _. by apply H in E1. Qed.


(** Messages and deletions of a list of operations that lost its first one. *)
Lemma has_msg_tail o l0 rest u v c p : (forall o', o' ∈ l0 -> match o' with Cas _ | Put _ | Dec _ | Begin _ KUpd => True | _ => False end) ->
  has_msg (l0 ++ rest) u v c p -> has_msg (o :: rest) u v c p.
Proof.
  intros Hl [H|(x & H & Hx)].
  - left. apply elem_of_app in H. destruct H as [H|H]; [by apply Hl in H|by apply elem_of_list_further].
  - right. exists x. split; [|done]. apply elem_of_app in H. destruct H as [H|H]; [by apply Hl in H|by apply elem_of_list_further].
Qed.
Lemma deleting_tail o l0 rest u gone : (forall o', o' ∈ l0 -> match o' with Cas _ | Put _ | Dec _ | Begin _ KUpd => True | _ => False end) ->
  deleting (l0 ++ rest) u gone -> deleting (o :: rest) u gone.
Proof.
  intros Hl [H|(i & got & H)].
  - left. apply elem_of_app in H. destruct H as [H|H]; [by apply Hl in H|by apply elem_of_list_further].
  - right. exists i, got. apply elem_of_app in H. destruct H as [H|H]; [by apply Hl in H|by apply elem_of_list_further].
Qed.
Lemma will_tell_tail o l0 rest k k' es u v c p : o <> Merge (a := colouring) u v (c, p) ->
  match o with Begin _ _ | Scan _ _ _ _ | Else _ => False | _ => True end ->
  will_tell (o :: rest) k es u v c p -> will_tell (l0 ++ rest) k' es u v c p.
Proof.
  intros Ho Hk [H|[(_ & x & H & _)|(st & [H|(i & got & H)] & _)]]; [|injection H as H _; by subst o..].
  left. apply elem_of_cons in H. destruct H as [H|H]; [by subst|]. apply elem_of_app. by right.
Qed.

Lemma step_merge s t src d m rest : cinv past s -> todo s t = Merge (a := colouring) src d m :: rest ->
  let s' := exec_op colouring owner s t (Merge (a := colouring) src d m) rest in
  shaped colouring owner s' -> wake colouring owner n s' -> cinv past s'.
Proof.
  intros Hs Et s' Hsh Hw. subst s'. cbn [exec_op] in *. destruct m as [c p].
  destruct (merge colouring (c, p) src d (box s d)) as [b new] eqn:Em. cbn [merge colouring] in Em.
  assert (Hns : forall v k i got, todo s t <> [Scan (a := colouring) v k i got]) by (by eapply no_scan).
  set (l' := if new then Cas (a := colouring) d :: rest else rest) in *.
  assert (El : l' = (if new then [Cas (a := colouring) d] else []) ++ rest) by (by destruct new).
  assert (Hl0 : forall o', o' ∈ (if new then [Cas (a := colouring) d] else []) ->
    match o' with Cas _ | Put _ | Dec _ | Begin _ KUpd => True | _ => False end).
  { intros o' H. destruct new; [apply elem_of_list_singleton in H; by subst|by apply elem_of_nil in H]. }
  assert (Hnl : forall v k i got, l' <> [Scan (a := colouring) v k i got]).
  { intros v k i got E. pose proof (c_shape past s Hs t) as Hsh0. rewrite Et in Hsh0.
    destruct new; [done|]. subst l'. rewrite E in Hsh0. 
    destruct (shape_cons _ _ _ _ _ _ Hsh0) as [(?&?&?&?)|[(?&?&?&?&?)|[(?&?&?&?)|[(?&?&?&?&?&?&?)|[(?&?&?&?)|(w & _ & _ & [(l & x & H & _)|H])]]]]]; try done.
    - destruct l as [|? [|]]; done.
    - by inversion H. }
  destruct (decide (src = d)) as [->|Hne].
  { apply merge_self in Em. destruct Em as [-> ->].
    eapply (quiet past s); try done; cbn.
    - intros v. unfold upd. destruct (Nat.eqb_spec v d); congruence.
    - right; left. by exists d.
    - rewrite Et, El. intros u v c' p'. by apply has_msg_tail.
    - rewrite Et, El. intros u gone. by apply deleting_tail.
    - rewrite Et, El. intros u v c' p' Hu Huv. apply will_tell_tail; [|done]. intros [= -> ->]. done. }
  destruct (merge_cells _ _ _ _ _ _ Em Hne) as (M1 & M2 & M3 & M4). cbn [fst snd] in *.
  destruct (merge_len _ _ _ _ _ _ Em) as [L1 L2]. cbn [snd] in L2.
  destruct (c_msg past s Hs t src d c p) as (Ho & Hp & Hc & Hlive). { rewrite Et. left. apply elem_of_list_here. }
  set (s' := Est _ _ _ _ _ _ _ _) in *.
  assert (Hun : forall v, unanswered (elog s) v -> unanswered (elog s') v).
  { intros v Hv. cbn. destruct new; [by apply unans_told|done]. }
  assert (Hsc : forall v, scanning s v -> scanning s' v).
  { intros v (k & i & got & E). exists k, i, got. cbn. destruct (decide (owner v = t)) as [Ev|Ev]; us; [|done].
    rewrite Ev in E. by apply Hns in E. }
  assert (Hcell : forall v j x, box s' v !! j = Some x -> has_msb x = true ->
    box s v !! j = Some x \/ unanswered (elog s') v).
  { intros v j x Hx Hm. cbn in Hx. destruct (decide (v = d)) as [->|Hv]; us; [|by left].
    destruct (decide (j = p)) as [->|Hj].
    - rewrite M1 in Hx. injection Hx as <-. destruct M4 as [E4|E4]; [|rewrite E4 in *].
      + destruct (prio d src) eqn:Epr; [by rewrite has_msb_plain in Hm|]. right. cbn. rewrite E4. apply unans_new.
      + by left.
    - destruct (M2 j x Hj Hx) as [?|[_ ->]]; [by left|done]. }
  destruct Hs as [A1 A2 A3 A4 A5 A6 A7 A8 A9 A10 A11 A12].
  constructor; try done.
  - intros u. destruct (A5 u) as [?|H]; [by left|right]. cbn. unfold upd. destruct (Nat.eqb_spec u d) as [->|]; [|done].
    etransitivity; [exact H|]. clear -L1. apply (Nat2Z.inj_le _ _) in L1. zify. exact L1.
  - intros u. cbn. unfold upd. destruct (Nat.eqb_spec u d) as [->|]; [|done]. pose proof (A6 d). pose proof (HP _ _ _ Hp).
    etransitivity; [exact L2|]. apply Nat.max_lub; [done|lia].
  - intros u Hu. destruct (A7 u Hu) as [H|H]; [|auto]. left. cbn. destruct new; [|done].
    intros [?|?%elem_of_list_singleton]%elem_of_app; done.
  - intros v j x H1 H2 H3. destruct (Hcell v j x H1 H2) as [H|H]; [|by left].
    destruct (A8 v j x H H2 H3) as [?|?]; auto.
  - intros v k i got E. cbn in E. destruct (decide (owner v = t)) as [Ev|Ev]; us.
    { rewrite Ev, upd_eq in E. by apply Hnl in E. }
    destruct (A9 v k i got E) as [H1 H2]. split.
    + cbn. unfold upd. destruct (Nat.eqb_spec v d) as [->|]; [|done]. etransitivity; [exact H1|exact L1].
    + intros j x Hj H3 H4. destruct (Hcell v j x H3 H4) as [H|H]; [|by right]. destruct (H2 j x Hj H H4); auto.
  - intros k u v c' p' H. cbn in H. destruct (decide (k = t)) as [->|Hk]; us; [|by apply A10].
    apply A10. rewrite Et. rewrite El in H. by eapply has_msg_tail.
  - intros k u gone H. cbn in H. destruct (decide (k = t)) as [->|Hk]; us; [|by apply A11].
    apply A11. rewrite Et. rewrite El in H. by eapply deleting_tail.
  - intros u v p' H1 H2 H3. destruct (A12 u v p' H1 H2 H3) as [H|H]; [by left|right].
    destruct (decide (v = d /\ p' = p)) as [[-> ->]|Hslot].
    { left. cbn. rewrite upd_eq. assert (u = src) as ->.
      { eapply past_one; [|exact Hp]. eapply elem_of_submseteq; [exact H1|]. apply sublist_submseteq, A3. }
      rewrite M1. rewrite (prio_total src d) in H3 by done. destruct (prio d src); [done|]. f_equal. f_equal. by apply Hlive. }
    destruct H as [H|H].
    + left. cbn. destruct (decide (v = d)) as [->|Hv]; us; [|done]. apply M3; [|done]. intros ->. by apply Hslot.
    + right. cbn. destruct (decide (owner u = t)) as [Eu|Eu]; us; [|done]. rewrite Eu, upd_eq. rewrite Eu, Et in H. rewrite El.
      eapply will_tell_tail; [| |exact H]; [|done]. intros [= -> -> -> ->]. by apply Hslot.
Qed.

Lemma rest_shape s t o rest : cinv past s -> todo s t = o :: rest ->
  match o with Cas _ | Put _ => forall v k i got, rest <> [Scan (a := colouring) v k i got]
  | Dec v => rest = [Begin v KUpd] /\ owner v = t
  | Begin v _ | Init v _ => rest = [] /\ owner v = t
  | Scan v _ i got => rest = [] /\ owner v = t /\ i = length got
  | Else _ => rest = []
  | _ => True end.
Proof.
  intros Hs E. pose proof (c_shape past s Hs t) as Hsh. rewrite E in Hsh.
  destruct (shape_cons _ _ _ _ _ _ Hsh) as [(?&->&?&?&?)|[(?&?&->&?&?&?)|[(?&?&->&?&?&?)|[(?&?&?&?&->&?&?&?&?)|[(?&?&->&?&?)|(w & _ & Ho & [(l & x & H & _)|H])]]]]]; try done.
  - destruct o; try done; intros v k i got E'; subst rest; destruct l as [|? [|]]; done.
  - destruct o; try done; intros v k i got E'; subst rest; by inversion H.
Qed.

Lemma step_other s t o rest : cinv past s -> todo s t = o :: rest ->
  match o with Merge _ _ _ | Scan _ _ _ _ => False | _ => True end ->
  let s' := exec_op colouring owner s t o rest in
  shaped colouring owner s' -> wake colouring owner n s' -> cinv past s'.
Proof.
  intros Hs Et Hk s' Hsh Hw. pose proof (rest_shape s t o rest Hs Et) as Hr.
  assert (Hns : forall v k i got, todo s t <> [Scan (a := colouring) v k i got]).
  { eapply no_scan; [exact Et|]. intros v k i got ->. done. }
  subst s'. destruct o as [src d m|d|d|v|v k|v k i got|l|v m]; try done; cbn [exec_op] in *.
  - destruct (act s d =? 0)%nat.
    + eapply (quiet past s); try done; cbn.
      * left. split; [done|]. intros v k i got. discriminate.
      * rewrite Et. intros u v c p. apply (has_msg_tail _ [Put d]). by intros o' ->%elem_of_list_singleton.
      * rewrite Et. intros u gone. apply (deleting_tail _ [Put d]). by intros o' ->%elem_of_list_singleton.
      * rewrite Et. intros u v c p _ _. by apply (will_tell_tail _ [Put d]).
    + eapply (quiet past s); try done; cbn.
      * by left.
      * rewrite Et. intros u v c p. apply (has_msg_tail _ []). by intros o' ?%elem_of_nil.
      * rewrite Et. intros u gone. apply (deleting_tail _ []). by intros o' ?%elem_of_nil.
      * rewrite Et. intros u v c p _ _. by apply (will_tell_tail _ []).
  - eapply (quiet past s); try done; cbn.
    + intros j Hj. by us.
    + by left.
    + rewrite Et. intros u v c p. apply (has_msg_tail _ []). by intros o' ?%elem_of_nil.
    + rewrite Et. intros u gone. apply (deleting_tail _ []). by intros o' ?%elem_of_nil.
    + rewrite Et. intros u v c p _ _. by apply (will_tell_tail _ []).
  - destruct Hr as [-> Hv]. eapply (quiet past s); try done; cbn.
    + left. split; [done|]. intros w k i got. discriminate.
    + rewrite Et. intros u w c p. apply (has_msg_tail _ []). by intros o' ?%elem_of_nil.
    + rewrite Et. intros u gone. apply (deleting_tail _ []). by intros o' ?%elem_of_nil.
    + rewrite Et. intros u w c p _ _. by apply (will_tell_tail _ []).
  - destruct Hr as [-> Hv]. eapply (quiet past s); try done; cbn.
    + right; right. by exists v, k.
    + intros u w c p [H|(x & H & _)]; apply elem_of_list_singleton in H; done.
    + rewrite Et. intros u gone [H|(i & got & H)]; apply elem_of_list_singleton in H; [done|]. injection H as -> <- _ _.
      left. apply elem_of_list_here.
    + rewrite Et. intros u w c p _ _ [H|[(_ & x & H & _)|(st & [H|(i & got & H)] & Hin)]]; [by apply elem_of_list_singleton in H|done| |done].
      injection H as -> ->. right; right. exists st. split; [|done]. right. by eexists _, _.
  - rewrite Hr in *. eapply (quiet past s); try done; cbn.
    + left. split; [done|]. intros w k i got. destruct (sent s t =? 0)%nat; [|done]. rewrite app_nil_r.
      destruct l as [|[[? ?] ?] l]; done.
    + rewrite Et. intros u w c p H. destruct (sent s t =? 0)%nat.
      2:{ destruct H as [H|(x & H & _)]; by apply elem_of_nil in H. }
      rewrite app_nil_r in H. right. exists l. split; [apply elem_of_list_here|]. destruct H as [H|(x & H & _)].
      * apply elem_of_list_fmap in H. destruct H as ([[? ?] ?] & E & H). by injection E as -> -> ->.
      * apply elem_of_list_fmap in H. destruct H as ([[? ?] ?] & E & H). done.
    + intros u gone H. exfalso. destruct (sent s t =? 0)%nat.
      2:{ destruct H as [H|(? & ? & H)]; by apply elem_of_nil in H. }
      rewrite app_nil_r in H. destruct H as [H|(? & ? & H)]; apply elem_of_list_fmap in H; by destruct H as ([[? ?] ?] & E & H).
    + rewrite Et. intros u w c p _ _ [H|[(Hk0 & x & H & Hin)|(st & [H|(i & got & H)] & Hin)]]; [by apply elem_of_list_singleton in H| |done..].
      injection H as ->. rewrite Hk0. cbn. left. rewrite app_nil_r. apply elem_of_list_fmap. by exists (u, w, (c, p)).
  - destruct Hr as [-> Hv]. destruct (merge colouring m v v (box s v)) as [b new] eqn:Em. cbn [merge colouring] in Em.
    apply merge_self in Em. destruct Em as [-> ->]. eapply (quiet past s); try done; cbn.
    + intros w. unfold upd. destruct (Nat.eqb_spec w v); congruence.
    + right; left. by exists v.
    + rewrite Et. intros u w c p. apply (has_msg_tail _ [Begin v KUpd] []). by intros o' ->%elem_of_list_singleton.
    + rewrite Et. intros u gone. apply (deleting_tail _ [Begin v KUpd] []). by intros o' ->%elem_of_list_singleton.
    + rewrite Et. intros u w c p _ _. by apply (will_tell_tail _ [Begin v KUpd] []).
Qed.

Lemma step_read s t v k i got rest c : cinv past s -> todo s t = Scan (a := colouring) v k i got :: rest ->
  box s v !! i = Some c ->
  let s' := exec_op colouring owner s t (Scan (a := colouring) v k i got) rest in
  shaped colouring owner s' -> wake colouring owner n s' -> cinv past s'.
Proof.
  intros Hs Et Ec s' Hsh Hw. pose proof (rest_shape s t _ rest Hs Et) as (-> & Hv & Hi). subst s'.
  cbn [exec_op] in *. rewrite Ec in *. cbn [take colouring] in *.
  set (s' := Est _ _ _ _ _ _ _ _) in *.
  assert (Eb : forall w, box s' w = box s w).
  { intros w. cbn. unfold upd. destruct (Nat.eqb_spec w v) as [->|]; [|done]. by apply list_insert_id. }
  assert (Hsc : forall w, scanning s w -> scanning s' w).
  { intros w (k1 & i1 & got1 & E). unfold scanning. cbn. destruct (decide (owner w = t)) as [Ew|Ew]; us; [|by exists k1, i1, got1].
    rewrite Ew, upd_eq. rewrite Ew, Et in E. injection E as <- _ _ _. by eexists _, _, _. }
  destruct Hs as [A1 A2 A3 A4 A5 A6 A7 A8 A9 A10 A11 A12].
  constructor; try setoid_rewrite Eb; try done.
  - intros u Hu. destruct (A7 u Hu) as [?|?]; auto.
  - intros w j x H1 H2 H3. destruct (A8 w j x H1 H2 H3) as [?|?]; auto.
  - intros w k1 i1 got1 E. cbn in E. destruct (decide (owner w = t)) as [Ew|Ew]; us; [|by apply (A9 w k1 i1 got1)].
    rewrite Ew, upd_eq in E. injection E as <- <- <- <-. destruct (A9 v k i got) as [H1 H2]; [by rewrite Hv|].
    apply lookup_lt_Some in Ec as Hlt. change (cell_t colouring) with N in *. rewrite app_length. cbn. split; [lia|].
    intros j x Hj H3 H4. destruct (decide (j < length got)) as [Hj'|Hj'].
    + rewrite lookup_app_l by done. by apply H2.
    + assert (j = i) as -> by lia. left. rewrite lookup_app_r by lia. rewrite Hi, Nat.sub_diag. cbn. congruence.
  - intros j u w c' p H. cbn in H. destruct (decide (j = t)) as [->|Hne]; us; [|by apply A10].
    destruct H as [H|(x & H & _)]; by apply elem_of_list_singleton in H.
  - intros j u gone H. cbn in H. destruct (decide (j = t)) as [->|Hne]; us; [|by apply A11].
    apply A11. rewrite Et. destruct H as [H|(i1 & got1 & H)]; apply elem_of_list_singleton in H; [done|].
    injection H as -> <- _ _. right. eexists _, _. apply elem_of_list_here.
  - intros u w p H1 H2 H3. destruct (A12 u w p H1 H2 H3) as [H|[H|H]]; [by left|by right; left|right; right].
    cbn. destruct (decide (owner u = t)) as [Eu|Eu]; us; [|done]. rewrite Eu, upd_eq. rewrite Eu, Et in H.
    destruct H as [H|[(_ & x & H & _)|(st & [H|(i1 & got1 & H)] & Hin)]]; [by apply elem_of_list_singleton in H|done..|].
    injection H as -> -> _ _. right; right. exists st. split; [|done]. right. by eexists _, _.
Qed.

Lemma step_react s t v k i got rest : cinv past s -> todo s t = Scan (a := colouring) v k i got :: rest ->
  box s v !! i = None ->
  let s' := exec_op colouring owner s t (Scan (a := colouring) v k i got) rest in
  shaped colouring owner s' -> wake colouring owner n s' -> cinv past s'.
Proof.
  intros Hs Et Ec s' Hsh Hw. pose proof (rest_shape s t _ rest Hs Et) as (-> & Hv & Hi). subst s'.
  cbn [exec_op] in *. rewrite Ec in *. cbn [react colouring] in *. unfold col_react in *.
  destruct (on_update (mail_retrieve got (prop s v)) (edges s v)) as [p' ms] eqn:Eu.
  destruct (c_scan past s Hs v k i got) as [Hlen Hcells]; [by rewrite Hv|].
  apply lookup_ge_None in Ec. assert (Hl : length got = length (box s v)) by lia.
  destruct (c_bm past s Hs v) as [S HS].
  pose proof (c_len past s Hs v) as HLK. rewrite <- Hl in HLK. change (cell_t colouring) with N in HLK.
  destruct (update_ok got (prop s v) S (edges s v) HS) with (p' := p') (ms := ms) as (U1 & U2 & U3 & U4); [|done|].
  { lia. }
  match goal with |- cinv _ (match ?X with _ => _ end) => destruct X as [[q ms1] ms2] eqn:Eq end.
  set (s' := Est _ _ _ _ _ _ _ _) in *.
  assert (Hq : q = p') by (by destruct k; injection Eq). subst q.
  assert (Hlt : (fst p' < 2 ^ 31 - 1)%N) by lia.
  assert (Hne : fst p' <> EMPTY_VAL) by (rewrite empty_val; lia).
  assert (Hmsgs : forall d c p, (d, (c, p)) ∈ ms1 \/ (d, (c, p)) ∈ ms2 ->
    (d, p) ∈ past v /\ (c < 2 ^ 31)%N /\ ((d, p) ∈ edges s v -> c = fst p')).
  { assert (Hms : forall d c p, (d, (c, p)) ∈ ms -> (d, p) ∈ past v /\ (c < 2 ^ 31)%N /\ ((d, p) ∈ edges s v -> c = fst p')).
    { intros d c p H. destruct U4 as [[_ ->] | ->]; [by apply elem_of_nil in H|]. apply elem_of_list_fmap in H.
      destruct H as ([d1 p1] & E & Hin). injection E as -> -> ->. split; [by eapply edge_past|]. split; [lia|done]. }
    intros d c p H. destruct k as [|st|gone]; injection Eq as <- <-.
    - destruct H as [H|H%elem_of_nil]; [by apply Hms|done].
    - destruct H as [H|H]; [by apply Hms|]. apply elem_of_list_fmap in H. destruct H as ([d1 p1] & E & Hin). injection E as -> -> ->.
      apply elem_of_list_In, filter_In in Hin. destruct Hin as [Hin _]. apply elem_of_list_In in Hin.
      assert ((d1, p1) ∈ edges s v). { rewrite <- (take_drop st (edges s v)). apply elem_of_app. by right. }
      split; [by eapply edge_past|]. split; [lia|done].
    - destruct H as [H|H%elem_of_nil]; [|done]. apply elem_of_app in H. destruct H as [H|H]; [by apply Hms|].
      apply elem_of_list_fmap in H. destruct H as ([d1 p1] & E & Hin). injection E as -> -> ->.
      destruct (c_del past s Hs t v gone) as [_ Hd]. { rewrite Et. right. eexists _, _. apply elem_of_list_here. }
      destruct (Hd _ Hin) as [H1 H2]. split; [done|]. split; [done|]. by intros ?%H2. }
  assert (Hsc : forall w, w <> v -> scanning s w -> scanning s' w).
  { intros w Hwv (k1 & i1 & got1 & E). unfold scanning. cbn. destruct (decide (owner w = t)) as [Ew|Ew]; us; [|by exists k1, i1, got1].
    rewrite Ew, Et in E. by injection E as <- _ _ _. }
  assert (Htodo : todo s' t = merges colouring v ms1 ++ [Else (tag colouring v ms2)]) by (cbn; by rewrite upd_eq).
  assert (Hold : forall u w c p, owner u = t -> u <> v -> will_tell (todo s t) (sent s t) (edges s u) u w c p -> False).
  { intros u w c p _ Huv. rewrite Et. intros [H|[(_ & x & H & _)|(st & [H|(i1 & got1 & H)] & Hin)]]; [by apply elem_of_list_singleton in H|done..|].
    by injection H as <- _ _ _. }
  destruct Hs as [A1 A2 A3 A4 A5 A6 A7 A8 A9 A10 A11 A12].
  assert (Ep : forall u, u <> v -> prop s' u = prop s u) by (intros u Hu; cbn; by us).
  assert (Epv : prop s' v = p') by (cbn; by us).
  constructor; try done.
  - intros u. destruct (decide (u = v)) as [->|Hu]; [rewrite Epv; eauto|rewrite Ep by done; apply A4].
  - intros u. destruct (decide (u = v)) as [->|Hu]; [|rewrite Ep by done; apply A5].
    rewrite Epv. right. change (box s' v) with (box s v). rewrite <- Hl. exact U3.
  - intros u Hu. destruct (decide (u = v)) as [->|Huv]; [by rewrite Epv in Hu|]. rewrite Ep in Hu by done.
    destruct (A7 u Hu) as [?|?]; auto.
  - intros w j x H1 H2 H3. destruct (decide (w = v)) as [->|Hwv].
    + left. rewrite Epv in H3. cbn in H1. apply lookup_lt_Some in H1 as Hj.
      destruct (Hcells j x) as [Hg|?]; [rewrite Hl; exact Hj|done..| |done].
      exfalso. eapply (picks_ne got); [exact U1|done| |exact H3]. by eapply elem_of_list_lookup_2.
    + rewrite Ep in H3 by done. destruct (A8 w j x H1 H2 H3) as [?|?]; auto.
  - intros w k1 i1 got1 E. destruct (decide (owner w = t)) as [Ew|Ew].
    + rewrite Ew, Htodo in E. destruct ms1 as [|[? ?] [|]]; done.
    + cbn in E. us. by apply (A9 w k1 i1 got1).
  - intros j u w c p H. destruct (decide (j = t)) as [->|Hj].
    + rewrite Htodo in H. assert (u = v /\ ((w, (c, p)) ∈ ms1 \/ (w, (c, p)) ∈ ms2)) as [-> Hin].
      { destruct H as [H|(x & H & Hx)].
        - apply elem_of_app in H. destruct H as [H|H%elem_of_list_singleton]; [|done]. unfold merges in H.
          apply elem_of_list_fmap in H. destruct H as ([d1 m1] & E & Hin). injection E as -> -> <-. auto.
        - apply elem_of_app in H. destruct H as [H|H].
          + unfold merges in H. apply elem_of_list_fmap in H. by destruct H as ([d1 m1] & E & Hin).
          + apply elem_of_list_singleton in H. injection H as ->. unfold tag in Hx.
            apply elem_of_list_fmap in Hx. destruct Hx as ([d1 m1] & E & Hin). injection E as -> -> <-. auto. }
      rewrite Epv. split; [done|]. by apply Hmsgs.
    + cbn in H. us. destruct (A10 j u w c p H) as (H1 & H2 & H3 & H4). rewrite Ep; [done|]. congruence.
  - intros j u gone H. destruct (decide (j = t)) as [->|Hj].
    + exfalso. rewrite Htodo in H. destruct H as [H|(i1 & got1 & H)]; apply elem_of_app in H; destruct H as [H|H%elem_of_list_singleton]; try done;
        unfold merges in H; apply elem_of_list_fmap in H; by destruct H as ([d1 m1] & E & Hin).
    + cbn in H. us. by apply A11.
  - intros u w p H1 H2 H3. cbn [edges] in H1. change (edges s' u) with (edges s u) in *. change (box s' w) with (box s w).
    change (sent s') with (sent s).
    destruct (decide (u = v)) as [->|Huv].
    + rewrite Epv. right. rewrite Hv, Htodo.
      assert (Hall : ms = map (fun '(d, pos) => (d, (fst p', pos))) (edges s v) ->
        will_tell (merges colouring v ms1 ++ [Else (tag colouring v ms2)]) (sent s t) (edges s v) v w (fst p') p).
      { intros E. left. apply elem_of_app. left. unfold merges. apply elem_of_list_fmap. exists (w, (fst p', p)). split; [done|].
        assert ((w, (fst p', p)) ∈ ms). { rewrite E. apply elem_of_list_fmap. by exists (w, p). }
        destruct k; injection Eq as <- <-; [done..|]. apply elem_of_app. by left. }
      destruct U4 as [[Esame Ems]|E]; [|right; by apply Hall].
      destruct (A12 v w p H1 H2 H3) as [H|[H|H]]; [by rewrite <- Esame in H|left; by rewrite Esame|].
      right. rewrite Hv, Et in H. destruct H as [H|[(_ & x & H & _)|(st & [H|(i1 & got1 & H)] & Hin)]]; [by apply elem_of_list_singleton in H|done..|].
      injection H as -> _ _. injection Eq as <- <-. rewrite Ems. cbn [merges map app]. right; left. split.
      * pose proof (A1 t) as Hsh1. rewrite Et in Hsh1. 
        destruct (shape_cons _ _ _ _ _ _ Hsh1) as [(?&?&?)|[(?&?&?&?)|[(?&?&?&?)|[(?&?&?&?&?&?&?&?&?)|[(?&?&?&?)|(?&?&?&?)]]]]]; done.
      * eexists. split; [reflexivity|]. unfold tag. apply elem_of_list_fmap. exists (w, (fst p', p)). split; [done|].
        apply elem_of_list_fmap. exists (w, p). split; [done|]. apply elem_of_list_In, filter_In. split; [by apply elem_of_list_In|done].
    + rewrite Ep by done. destruct (A12 u w p H1 H2 H3) as [H|[H|H]]; [by left|by right; left|right; right].
      destruct (decide (owner u = t)) as [Ew|Ew].
      * rewrite Ew in H. exfalso. by eapply Hold.
      * cbn. by us.
Qed.
End col.
