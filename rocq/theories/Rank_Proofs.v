(** Nothing is lost: the PageRank balance under every step. *)
From Verif Require Import Base RBO_Spec QcUtil Engine_Spec Engine_Model Engine_Proofs Engine_Shape Rank_Spec Rank_Model.
From Coq Require Import QArith Qcanon.
Open Scope nat_scope.

Lemma qsum_ext f g n : (forall k, k < n -> f k = g k) -> qsum f n = qsum g n.
Proof. induction n as [|n IH]; intros H; [done|]. cbn [qsum]. rewrite IH, (H n); [done|lia|]. intros k Hk. apply H. lia. Qed.
Lemma qsum_change f g n t : t < n -> (forall k, k < n -> k <> t -> f k = g k) -> (qsum g n = qsum f n - f t + g t)%Qc.
Proof.
  induction n as [|n IH]; intros Ht H; [lia|]. cbn [qsum]. destruct (decide (t = n)) as [->|Hne].
  - rewrite (qsum_ext g f n); [ring|]. intros k Hk. symmetry. apply H; lia.
  - rewrite IH by (first [lia | intros; apply H; lia]). rewrite (H n) by lia. ring.
Qed.
Lemma qsum_add f g n : qsum (fun k => f k + g k)%Qc n = (qsum f n + qsum g n)%Qc.
Proof. induction n as [|n IH]; cbn [qsum]; [ring|]. rewrite IH. ring. Qed.
Lemma qsum_zero n f : (forall k, k < n -> f k = 0%Qc) -> qsum f n = 0%Qc.
Proof. induction n as [|n IH]; intros H; cbn [qsum]; [done|]. rewrite IH, H by (first [lia | intros; apply H; lia]). ring. Qed.

Lemma copies_app v l l' : copies v (l ++ l') = copies v l + copies v l'.
Proof. unfold copies. by rewrite filter_app, app_length. Qed.
Lemma copies_cons v y l : copies v (y :: l) = copies v [y] + copies v l.
Proof. apply (copies_app v [y] l). Qed.
Lemma copies_masked {A} v (f : A -> nat) (l : list A) gone :
  copies v (map f (masked false l gone)) + copies v (map f (masked true l gone)) = copies v (map f l).
Proof.
  revert gone. induction l as [|x l IH]; intros [|[] gone]; cbn [masked eqb]; try done.
  - cbn [map]. rewrite (copies_cons v (f x) (map f (masked true l gone))), (copies_cons v (f x) (map f l)), <- (IH gone). lia.
  - cbn [map]. rewrite (copies_cons v (f x) (map f (masked false l gone))), (copies_cons v (f x) (map f l)), <- (IH gone). lia.
Qed.
Lemma masked_len {A} (l : list A) gone : length (masked false l gone) + length (masked true l gone) = length l.
Proof.
  revert gone. induction l as [|x l IH]; intros [|[] gone]; cbn [masked eqb length]; try done.
  - rewrite <- (IH gone). lia.
  - rewrite <- (IH gone). lia.
Qed.

Lemma one_damp : (1 - DAMP <> 0)%Qc. Proof. intros H. apply Qc_eq_this in H. vm_compute in H. done. Qed.
Definition idx := (/ (1 - DAMP))%Qc.
Lemma idx_ok : ((1 - DAMP) * idx = 1)%Qc. Proof. unfold idx. apply Qcmult_inv_r, one_damp. Qed.

(** What the messages of a list bring to [x]. *)
Fixpoint brought (x : nat) (ms : list (nat * Qc)) : Qc :=
  match ms with [] => 0%Qc | (d, m) :: r => ((if d =? x then m else 0) + brought x r)%Qc end.
Lemma brought_app x l l' : (brought x (l ++ l') = brought x l + brought x l')%Qc.
Proof. induction l as [|[d m] l IH]; cbn [app brought]; [ring|]. rewrite IH. ring. Qed.
Lemma brought_all x q l : (brought x (to_all q l) = inject_nat (copies x (map fst l)) * q)%Qc.
Proof.
  induction l as [|[d []] l IH]; cbn [to_all map brought fst]; [change (copies x []) with 0; rewrite QcUtil.inj_0; ring|].
  fold (to_all q l). rewrite IH. change (d :: map fst l) with ([d] ++ map fst l). rewrite copies_app, QcUtil.inj_add. unfold copies at 2. cbn [List.filter].
  rewrite (Nat.eqb_sym x d). destruct (d =? x); cbn [length]; rewrite ?QcUtil.inj_0, ?QcUtil.inj_1; ring.
Qed.

(** The destinations before the change that an operation handles. *)
Definition prior (k : kind unit) (es : list (nat * unit)) : list nat :=
  match k with KUpd => map fst es | KAdd start => map fst (firstn start es) | KDel gone => map fst (es ++ gone) end.
Definition share (mass : Qc) (l : list nat) (x : nat) : Qc := (inject_nat (copies x l) * part DAMP mass l)%Qc.
Definition sane (k : kind unit) (es : list (nat * unit)) : Prop := match k with KAdd start => start <= length es | _ => True end.

Lemma part_eq mass l : part DAMP mass l = (DAMP * idx * mass * / inject_nat (length l))%Qc.
Proof. unfold part, Qcdiv, idx. ring. Qed.
Lemma part_more mass f l : (part DAMP (mass + (1 - DAMP) * f) l = part DAMP mass l + DAMP * f * / inject_nat (length l))%Qc.
Proof.
  rewrite !part_eq. transitivity (DAMP * idx * mass * / inject_nat (length l) + ((1 - DAMP) * idx) * DAMP * f * / inject_nat (length l))%Qc; [ring|].
  rewrite idx_ok. ring.
Qed.

(** Absorbing and handing on balance. *)
Lemma react_balance v k p es got p' ms ms' : sane k es -> react ranking v k p es got = (p', ms, ms') ->
  ms' = [] /\ (fst p' + snd p' * idx = fst p + total got + snd p * idx)%Qc /\
  forall x, (brought x ms + share (snd p) (prior k es) x = share (snd p') (map fst es) x)%Qc.
Proof.
  intros Hsane. cbn [react ranking]. intros [= E <-]. split; [done|].
  assert (Hin : forall m f, ((0 + (m + (1 - DAMP) * f) * idx = f + m * idx))%Qc).
  { intros m f. transitivity (f * ((1 - DAMP) * idx) + m * idx)%Qc; [ring|]. rewrite idx_ok. ring. }
  destruct k as [|start|gone].
  - unfold rank_update in E. destruct (qltb _ _); injection E as <- <-; cbn [fst snd].
    + split; [apply Hin|]. intros x. rewrite brought_all. unfold share, prior, qlen, Qcdiv. rewrite part_more, map_length. ring.
    + split; [ring|]. intros x. cbn [brought]. unfold prior. ring.
  - unfold rank_add in E. injection E as <- <-. cbn [fst snd]. split; [apply Hin|]. intros x. cbn [sane prior] in *.
    rewrite brought_app, brought_all.
    assert (Hc : copies x (map fst es) = copies x (map fst (firstn start es)) + copies x (map fst (skipn start es))).
    { rewrite <- copies_app, <- map_app, firstn_skipn. done. }
    unfold share. rewrite part_more, Hc, QcUtil.inj_add, !part_eq, !map_length, firstn_length_le by done. unfold qlen, Qcdiv. fold idx.
    destruct (Nat.eqb_spec start 0) as [->|Hs].
    + change (copies x (map fst (firstn 0 es))) with 0. cbn [brought]. rewrite !QcUtil.inj_0. ring.
    + rewrite brought_all. ring.
  - unfold rank_del in E. injection E as <- <-. cbn [fst snd]. split; [apply Hin|]. intros x. cbn [prior].
    rewrite brought_app, !brought_all. unfold share. rewrite part_more, map_app, copies_app, !part_eq, app_length, !map_length, !QcUtil.inj_add.
    unfold qlen, Qcdiv. fold idx. ring.
Qed.

Section inv.
Context (owner : nat -> nat) (n : nat) (Hown : forall v, owner v < n) (N : nat).
Notation est := (est ranking).
Notation op := (op ranking).

(** What the operations of a thread are carrying to [x]. *)
Definition carried (x : nat) (o : op) : Qc :=
  match o with
  | Merge _ d m => if d =? x then m else 0
  | Init w m => if w =? x then m else 0
  | Scan w _ _ got => if w =? x then total got else 0
  | _ => 0 end%Qc.
Fixpoint transit (x : nat) (l : list op) : Qc := match l with [] => 0%Qc | o :: r => (carried x o + transit x r)%Qc end.
Lemma transit_app x l l' : (transit x (l ++ l') = transit x l + transit x l')%Qc.
Proof. induction l as [|o l IH]; cbn [app transit]; [ring|]. rewrite IH. ring. Qed.
Lemma transit_merges x v ms : transit x (map (fun '(d, m) => Merge (a := ranking) v d m) ms) = brought x ms.
Proof. induction ms as [|[d m] ms IH]; cbn [map transit brought carried]; [done|]. by rewrite IH. Qed.

(** The destinations that the mass of [w] was handed to so far. *)
Fixpoint seen (w : nat) (l : list op) (es : list (nat * unit)) : list nat :=
  match l with
  | [] => map fst es
  | Begin v k :: r => if v =? w then prior k es else seen w r es
  | Scan v k _ _ :: r => if v =? w then prior k es else seen w r es
  | _ :: r => seen w r es
  end.
Definition out (s : est) (w : nat) : list nat := seen w (todo s (owner w)) (edges s w).

Record rinv (s : est) : Prop := {
  r_shape : shaped ranking owner s;
  r_wake : wake ranking owner n s;
  r_box : forall v, length (box s v) = 1;
  r_else : forall t l, Else l ∈ todo s t -> l = [];
  r_sane : forall t v k, (Begin v k ∈ todo s t \/ exists i got, Scan v k i got ∈ todo s t) -> sane k (edges s v);
  r_low : forall w, N <= w -> edges s w = [] /\ out s w = [] }.

Definition held (s : est) (x : nat) : Qc := (total (box s x) + qsum (fun t => transit x (todo s t)) n + fst (prop s x) + snd (prop s x) * idx)%Qc.
Definition passed (s : est) (x : nat) : Qc := qsum (fun w => share (snd (prop s w)) (out s w) x) N.
Definition same_out (l l' : list nat) : Prop := length l = length l' /\ forall x, copies x l = copies x l'.
Lemma share_same mass l l' x : same_out l l' -> share mass l x = share mass l' x.
Proof. intros [H1 H2]. unfold share, part. by rewrite H1, H2. Qed.

(** Steps of thread [t] that do not change what vertices have absorbed. *)
Lemma keep_passed s s' x : (forall w, w < N -> prop s' w = prop s w) -> (forall w, w < N -> same_out (out s' w) (out s w)) -> passed s' x = passed s x.
Proof. intros H1 H2. unfold passed. apply qsum_ext. intros w Hw. by rewrite H1, (share_same _ _ _ x (H2 w Hw)). Qed.
Lemma keep_held s s' t x : t < n -> (forall k, k <> t -> todo s' k = todo s k) -> (forall v, prop s' v = prop s v) ->
  (held s' x = held s x + (total (box s' x) - total (box s x)) + (transit x (todo s' t) - transit x (todo s t)))%Qc.
Proof.
  intros Ht Hk Hp. unfold held. rewrite Hp, (qsum_change (fun t => transit x (todo s t)) (fun t => transit x (todo s' t)) n t Ht) by (intros k _ Hne; by rewrite Hk). ring.
Qed.
End inv.
