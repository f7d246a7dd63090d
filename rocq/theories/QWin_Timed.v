(** An algorithm that does not look at the times of edges, on timed edges: it does what it does without them. *)
From Verif Require Import Base Engine_Spec Engine_Model Engine_Proofs Engine_Props.
Open Scope nat_scope.

Section timed.
Context (a : alg) (T : Type).
Definition untimed (e : nat * (T * edge_t a)) : nat * edge_t a := (fst e, snd (snd e)).
Definition unkind (k : kind (T * edge_t a)) : kind (edge_t a) :=
  match k with KUpd => KUpd | KAdd i => KAdd i | KDel l => KDel (map untimed l) end.
Definition timed : alg := {|
  prop_t := prop_t a; cell_t := cell_t a; msg_t := msg_t a; edge_t := T * edge_t a;
  merge := merge a; take := take a;
  react v k p es got := react a v (unkind k) p (map untimed es) got |}.
Context (owner : nat -> nat).

Definition unop (o : op timed) : op a :=
  match o with
  | Merge s d m => Merge (a := a) s d m | Cas d => Cas d | Put d => Put d | Dec v => Dec v
  | Begin v k => Begin (a := a) v (unkind k) | Scan v k i got => Scan (a := a) v (unkind k) i got
  | Else l => Else (a := a) l | Init v m => Init (a := a) v m
  end.
Definition unchoice (c : choice timed) : choice a :=
  match c with
  | Run => Run | Pop => Pop | AddEdges v es => AddEdges v (map untimed es) | DelEdges v g => DelEdges v g | SendInit v m => SendInit (a := a) v m
  end.
Definition unwork (l : list (nat * choice timed)) : list (nat * choice a) := map (fun '(t, c) => (t, unchoice c)) l.

Record alike (s : est timed) (s' : est a) : Prop := {
  k_box : forall v, box s v = box s' v; k_act : forall v, act s v = act s' v; k_queue : forall t, queue s t = queue s' t;
  k_prop : forall v, prop s v = prop s' v; k_edges : forall v, map untimed (edges s v) = edges s' v; k_todo : forall t, map unop (todo s t) = todo s' t;
  k_sent : forall t, sent s t = sent s' t; k_log : elog s = elog s' }.
Lemma upd_alike {A B} (g : A -> B) (f : nat -> A) (f' : nat -> B) i x y : (forall j, g (f j) = f' j) -> g x = y -> forall j, g (upd f i x j) = upd f' i y j.
Proof. intros H E j. unfold upd. by destruct (j =? i). Qed.
Lemma upd_same {A} (f f' : nat -> A) i x y : (forall j, f j = f' j) -> x = y -> forall j, upd f i x j = upd f' i y j.
Proof. intros H E j. unfold upd. by destruct (j =? i). Qed.
Lemma masked_map {A B} (f : A -> B) b (l : list A) : forall g, map f (masked b l g) = masked b (map f l) g.
Proof. induction l as [|x l IH]; intros [|y g]; cbn; try (by destruct b). destruct (eqb y b); cbn; by rewrite IH. Qed.
Lemma unop_merges v ms : map unop (map (fun '(d, m) => Merge (a := timed) v d m) ms) = map (fun '(d, m) => Merge (a := a) v d m) ms.
Proof. induction ms as [|[d m] ms IH]; [done|]. cbn. by f_equal. Qed.
Lemma unop_merges' (l : list (nat * nat * msg_t a)) : map unop (map (fun '(v, d, m) => Merge (a := timed) v d m) l) = map (fun '(v, d, m) => Merge (a := a) v d m) l.
Proof. induction l as [|[[v d] m] ms IH]; [done|]. cbn. by f_equal. Qed.
Ltac fin H := constructor; cbn; try (apply upd_same); try (apply upd_alike); try apply H; cbn; try done.
Lemma alike_step s s' t c : alike s s' -> alike (estep timed owner s t c) (estep a owner s' t (unchoice c)).
Proof.
  intros H. unfold estep. rewrite <- (k_todo _ _ H t). destruct (todo s t) as [|o rest]; cbn [map].
  - destruct c as [| |v es|v gone|v m]; cbn [unchoice]; try done.
    + rewrite <- (k_queue _ _ H t). destruct (queue s t); [done|]. fin H.
    + destruct (_ =? _); [|done]. rewrite <- (k_edges _ _ H v). fin H; [by rewrite map_app|by rewrite map_length].
    + destruct (_ =? _); [|done]. rewrite <- (k_edges _ _ H v). fin H; by rewrite masked_map.
    + destruct (_ =? _); [|done]. fin H.
  - destruct c; try done. destruct o as [src d m|d|d|v|v k|v k i got|l|v m]; cbn [exec_op unop unchoice].
    + rewrite <- (k_box _ _ H d), <- (k_log _ _ H). cbn [timed merge]. destruct (merge a m src d (box s d)) as [b new]. fin H. by destruct new.
    + rewrite <- (k_act _ _ H d). destruct (_ =? _); fin H.
    + rewrite <- (k_queue _ _ H), <- (k_sent _ _ H). fin H.
    + rewrite <- (k_act _ _ H). fin H.
    + rewrite <- (k_log _ _ H). fin H.
    + assert (Eb : @lookup nat (cell_t timed) (list (cell_t timed)) _ i (box s v) = box s' v !! i) by (f_equal; apply H).
      destruct (box s' v !! i) as [c|] eqn:E; rewrite Eb; cbn [timed take react cell_t].
      * destruct (take a c). fin H. f_equal. apply H.
      * rewrite <- (k_prop _ _ H v), <- (k_edges _ _ H v). destruct (react a v (unkind k) (prop s v) (map untimed (edges s v)) got) as [[p ms] ms']. fin H. by rewrite map_app, unop_merges.
    + rewrite <- (k_sent _ _ H t). fin H. destruct (_ =? 0); [|done]. by rewrite map_app, unop_merges'.
    + rewrite <- (k_box _ _ H v), <- (k_log _ _ H). cbn [timed merge]. destruct (merge a m v v (box s v)) as [b new]. fin H. by destruct new.
Qed.
Lemma alike_run l : forall s s', alike s s' -> alike (erun timed owner s l) (erun a owner s' (unwork l)).
Proof. induction l as [|[t c] l IH]; intros s s' H; [done|]. cbn. by apply IH, alike_step. Qed.
Lemma alike_start b p : alike (estart timed b p (fun _ => [])) (estart a b p (fun _ => [])).
Proof. by constructor. Qed.
Lemma alike_idle s s' : alike s s' -> idle s -> idle s'.
Proof. intros H HI t. destruct (HI t) as [E1 E2]. by rewrite <- (k_todo _ _ H), <- (k_queue _ _ H), E1, E2. Qed.
End timed.
