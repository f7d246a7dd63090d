(** How much work is left: every operation and every notification is given a weight. *)
From Verif Require Import Base Engine_Spec Engine_Model Engine_Proofs Engine_Props Rest_Spec Rest_Proofs.
Open Scope nat_scope.

Section work.
Context (a : alg) (owner : nat -> nat) (n : nat) (Hown : forall v, owner v < n).
(** Weights: of a merge, of a reaction, of initial mail; a bound for the number of cells. *)
Context (wm : nat) (rc : kind (edge_t a) -> nat) (wi cells : nat).
Notation est := (est a).

Definition wscan k i : nat := 1 + (cells - i) + rc k.
Definition wbegin k : nat := 1 + wscan k 0.
Definition wq : nat := 2 + wbegin KUpd.
Definition opw (o : op a) : nat :=
  match o with
  | Merge _ _ _ => wm | Cas _ => wq + 2 | Put _ => wq + 1 | Dec _ => 1
  | Begin _ k => wbegin k | Scan _ k i _ => wscan k i | Else l => 1 + wm * length l | Init _ _ => wi
  end.
Fixpoint lw (l : list (op a)) : nat := match l with [] => 0 | o :: l => opw o + lw l end.
Lemma lw_app l l' : lw (l ++ l') = lw l + lw l'.
Proof. induction l as [|o l IH]; simpl; [done|]. lia. Qed.
Lemma lw_merges v (ms : list (nat * msg_t a)) : lw (map (fun '(d, m) => Merge v d m) ms) = wm * length ms.
Proof. induction ms as [|[d m] l IH]; simpl; [lia|]. rewrite IH. lia. Qed.
Lemma lw_merges' (ms : list (nat * nat * msg_t a)) : lw (map (fun '(v, d, m) => Merge v d m) ms) = wm * length ms.
Proof. induction ms as [|[[v d] m] l IH]; simpl; [lia|]. rewrite IH. lia. Qed.
Definition work (s : est) : nat := sumt (fun t => lw (todo s t)) n + sumt (fun t => wq * length (queue s t)) n.

Lemma work_todo s s' t : t < n -> (forall k, k <> t -> todo s' k = todo s k) -> (forall k, queue s' k = queue s k) ->
  work s' + lw (todo s t) = work s + lw (todo s' t).
Proof.
  intros Ht H1 H2. unfold work. rewrite (sumt_ext (fun t => wq * length (queue s' t)) (fun t => wq * length (queue s t))) by (intros; by rewrite H2).
  pose proof (sumt_change (fun t => lw (todo s' t)) (fun t => lw (todo s t)) n t Ht ltac:(intros; cbn beta; by rewrite H1)) as H. cbn beta in H. lia.
Qed.
Lemma work_queue s s' t t' : t < n -> t' < n -> (forall k, k <> t -> todo s' k = todo s k) -> (forall k, k <> t' -> queue s' k = queue s k) ->
  work s' + lw (todo s t) + wq * length (queue s t') = work s + lw (todo s' t) + wq * length (queue s' t').
Proof.
  intros Ht Ht' H1 H2. unfold work.
  pose proof (sumt_change (fun t => lw (todo s' t)) (fun t => lw (todo s t)) n t Ht ltac:(intros; cbn beta; by rewrite H1)) as A.
  pose proof (sumt_change (fun t => wq * length (queue s' t)) (fun t => wq * length (queue s t)) n t' Ht' ltac:(intros; cbn beta; by rewrite H2)) as B. cbn beta in A, B. lia.
Qed.

(** A step that does something leaves less work, unless it is one of these. *)
Lemma work_step s t c : 0 < wm -> 0 < wi -> threads a n s -> (forall v, length (box s v) <= cells) -> c ∈ acts a -> can a s t c = true ->
  let s' := estep a owner s t c in
  work s' < work s \/
  (exists v d m rest, todo s t = Merge v d m :: rest /\ c = Run /\ snd (merge a m v d (box s d)) = true /\ work s' + wm = work s + wq + 2) \/
  (exists v m rest, todo s t = Init v m :: rest /\ c = Run /\ snd (merge a m v v (box s v)) = true /\ work s' + wi = work s + wbegin KUpd) \/
  (exists v k i got rest, todo s t = Scan v k i got :: rest /\ c = Run /\ box s v !! i = None /\
     let '(_, ms, ms') := react a v k (prop s v) (edges s v) got in
     work s' + rc k < work s + wm * (length ms + length ms') + 1).
Proof.
  intros Hm Hi HT Hb Hc Hcan s'.
  assert (Ht : t < n). { destruct (decide (t < n)) as [|Ht]; [done|]. destruct (HT t ltac:(lia)) as [E1 E2]. unfold can in Hcan. rewrite E1, E2 in Hcan. by destruct c. }
  unfold acts in Hc. rewrite !elem_of_cons, elem_of_nil in Hc. destruct Hc as [->|[->|[]]]; unfold can in Hcan; subst s'; unfold estep.
  - destruct (todo s t) as [|o rest] eqn:Et; [done|]. unfold exec_op. destruct o as [v d m|d|d|v|v k|v k i got|l|v m].
    + destruct (merge a m v d (box s d)) as [b new] eqn:Em.
      match goal with |- context [work ?x] => pose proof (work_todo s x t Ht ltac:(intros; cbn; by us) ltac:(done)) as W end. cbn [todo] in W. us. rewrite Et in W. cbn [lw opw] in W.
      destruct new; cbn [lw opw] in W; [right; left; exists v, d, m, rest; rewrite Em; split_and!; try done; lia|left; lia].
    + left. destruct (act s d =? 0);
      match goal with |- context [work ?x] => pose proof (work_todo s x t Ht ltac:(intros; cbn; by us) ltac:(done)) as W end; cbn [todo] in W; us; rewrite Et in W; cbn [lw opw] in W; lia.
    + left. match goal with |- context [work ?x] => pose proof (work_queue s x t (owner d) Ht (Hown d) ltac:(intros; cbn; by us) ltac:(intros; cbn; by us)) as W end.
      cbn [todo queue] in W. us. rewrite Et, app_length in W. cbn [lw opw length] in W. lia.
    + left. match goal with |- context [work ?x] => pose proof (work_todo s x t Ht ltac:(intros; cbn; by us) ltac:(done)) as W end. cbn [todo] in W. us. rewrite Et in W. cbn [lw opw] in W. lia.
    + left. match goal with |- context [work ?x] => pose proof (work_todo s x t Ht ltac:(intros; cbn; by us) ltac:(done)) as W end. cbn [todo] in W. us. rewrite Et in W. cbn [lw opw] in W. unfold wbegin in W. lia.
    + destruct (box s v !! i) as [c|] eqn:Ev.
      * left. destruct (take a c) as [c' x].
        match goal with |- context [work ?x] => pose proof (work_todo s x t Ht ltac:(intros; cbn; by us) ltac:(done)) as W end. cbn [todo] in W. us. rewrite Et in W. cbn [lw opw] in W. unfold wscan in W.
        assert (i < length (box s v)) by (apply lookup_lt_is_Some; eauto). specialize (Hb v). lia.
      * do 3 right. destruct (react a v k (prop s v) (edges s v) got) as [[p ms] ms'] eqn:Er.
        exists v, k, i, got, rest. rewrite Er. split_and!; try done.
        match goal with |- context [work ?x] => pose proof (work_todo s x t Ht ltac:(intros; cbn; by us) ltac:(done)) as W end. cbn [todo] in W. us. rewrite Et in W. cbn [lw opw] in W. unfold wscan in W.
        rewrite lw_app, lw_merges in W. cbn [lw opw] in W. rewrite map_length in W. lia.
    + left. match goal with |- context [work ?x] => pose proof (work_todo s x t Ht ltac:(intros; cbn; by us) ltac:(done)) as W end. cbn [todo] in W. us. rewrite Et in W. cbn [lw opw] in W.
      destruct (sent s t =? 0); [rewrite lw_app, lw_merges' in W|]; lia.
    + destruct (merge a m v v (box s v)) as [b new] eqn:Em.
      match goal with |- context [work ?x] => pose proof (work_todo s x t Ht ltac:(intros; cbn; by us) ltac:(done)) as W end. cbn [todo] in W. us. rewrite Et in W. cbn [lw opw] in W.
      destruct new; cbn [lw opw] in W; [right; right; left; exists v, m, rest; rewrite Em; split_and!; try done; lia|left; lia].
  - left. destruct (todo s t) as [|o rest] eqn:Et; [|done]. destruct (queue s t) as [|v q] eqn:Eq; [done|].
    unfold start_task. cbn [box act queue prop edges todo sent elog]. match goal with |- context [work ?x] => pose proof (work_queue s x t t Ht Ht ltac:(intros; cbn; by us) ltac:(intros; cbn; by us)) as W end.
    cbn [todo queue] in W. us. rewrite Et, Eq in W. cbn [lw opw length] in W. unfold wq in *. lia.
Qed.
End work.
