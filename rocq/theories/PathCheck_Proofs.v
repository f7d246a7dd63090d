(** Windows that touch: MailRetrieve never leaves an empty window at the end or at the start of another. *)
From Verif Require Import Base Heap_Model Window_Spec Window_Model Window_Proofs.
Open Scope N_scope.

(** No empty window where another one ends. *)
Definition no_tail (l : list path) : Prop :=
  forall p q, p ∈ l -> q ∈ l -> p_start p = p_end p -> p_start q < p_end q -> p_end q = p_start p -> False.

Lemma fit_split i pq pq' : fit i pq = Some pq' -> exists l w w' r, pq = l ++ w :: r /\ pq' = l ++ w' :: r /\
  (se w' = se w \/ (p_start i <= p_start w /\ p_end w <= p_end i /\ se w' = se i /\ se i <> se w) \/
   (p_start w' = p_start w /\ p_end w' = p_end i /\ p_start w < p_start i < p_end w /\ p_end w < p_end i)).
Proof.
  revert pq'. induction pq as [|w pq IH]; intros pq' E; [done|]. cbn [fit] in E.
  destruct ((p_start i =? p_start w) && (p_end i =? p_end w)) eqn:C1.
  { injection E as <-. eexists [], w, _, pq. split; [done|]. split; [done|]. by left. }
  destruct ((p_start i <=? p_start w) && (p_end w <=? p_end i)) eqn:C2.
  { injection E as <-. ns. eexists [], w, _, pq. split; [done|]. split; [done|]. right; left. split_and!; try lia; [done|].
    intros [= H1 H2]. apply andb_false_iff in C1. destruct C1 as [C1|C1]; ns; lia. }
  destruct ((p_start w <? p_start i) && (p_start i <=? p_end w) && (p_end i <=? p_end w)) eqn:C3.
  { injection E as <-. eexists [], w, _, pq. split; [done|]. split; [done|]. by left. }
  destruct ((p_start w <? p_start i) && (p_start i <? p_end w) && (p_end w <? p_end i)) eqn:C4.
  { injection E as <-. ns. eexists [], w, _, pq. split; [done|]. split; [done|]. right; right. cbn. lia. }
  destruct (fit i pq) as [l|]; [|done]. injection E as <-. destruct (IH l eq_refl) as (l1 & x & x' & r & -> & -> & H).
  by exists (w :: l1), x, x', r.
Qed.
Lemma fit_none i pq : fit i pq = None -> forall w, w ∈ pq -> p_start w < p_start i -> p_start i <= p_end w -> p_end i <= p_end w -> False.
Proof.
  induction pq as [|w pq IH]; intros E x Hx H1 H2 H3; [by apply elem_of_nil in Hx|]. cbn [fit] in E.
  destruct ((p_start i =? p_start w) && (p_end i =? p_end w)) eqn:C1; [done|].
  destruct ((p_start i <=? p_start w) && (p_end w <=? p_end i)) eqn:C2; [done|].
  destruct ((p_start w <? p_start i) && (p_start i <=? p_end w) && (p_end i <=? p_end w)) eqn:C3; [done|].
  destruct ((p_start w <? p_start i) && (p_start i <? p_end w) && (p_end w <? p_end i)) eqn:C4; [done|].
  destruct (fit i pq) as [l|]; [done|]. apply elem_of_cons in Hx. destruct Hx as [->|Hx]; [|by eapply IH].
  nb; lia.
Qed.
Lemma no_tail_fit i pq pq' : fit i pq = Some pq' -> starts_le (p_start i) pq -> Forall wf pq -> wf i -> no_tail pq -> no_tail pq'.
Proof.
  intros E Hs W Wi N. destruct (fit_split _ _ _ E) as (l & w & w' & r & -> & -> & C).
  unfold starts_le in Hs. rewrite list.Forall_forall in Hs, W. unfold wf in *. cbn in Hs.
  assert (Hin : forall x, x ∈ l ++ w' :: r -> x = w' \/ x ∈ l ++ w :: r).
  { intros x. rewrite !elem_of_app, !elem_of_cons. tauto. }
  assert (Hw : w ∈ l ++ w :: r) by (apply elem_of_app; right; apply elem_of_list_here).
  pose proof (Hs w Hw) as Hsw. pose proof (W w Hw) as Hww. 
  intros p q Hp Hq Ep Eq Epq. destruct C as [C|[(C1 & C2 & C3 & C4)|(C1 & C2 & C3 & C4)]].
  - injection C as C1 C2. apply Hin in Hp, Hq. destruct Hp as [->|Hp], Hq as [->|Hq]; [lia|eapply (N w q)|eapply (N p w)|eapply (N p q)];
      try done; lia.
  - injection C3 as C3 C5. assert (p_start i = p_start w) as E1 by lia.
    assert (p_start i < p_end i). { destruct (decide (p_end i = p_end w)) as [E2|E2]; [|lia]. exfalso. apply C4. unfold se. congruence. }
    apply Hin in Hp, Hq. destruct Hp as [->|Hp], Hq as [->|Hq]; try lia; [|by eapply (N p q)]. specialize (Hs p Hp). lia.
  - apply Hin in Hp, Hq. destruct Hp as [->|Hp], Hq as [->|Hq]; try lia; [|by eapply (N p q)]. specialize (Hs p Hp). lia.
Qed.
Lemma no_tail_push i pq : fit i pq = None -> starts_le (p_start i) pq -> wf i -> no_tail pq -> no_tail (pq ++ [i]).
Proof.
  intros E Hs Wi N p q Hp Hq Ep Eq Epq. unfold starts_le in Hs. rewrite list.Forall_forall in Hs. unfold wf in *. cbn in Hs.
  rewrite elem_of_app, elem_of_list_singleton in Hp, Hq. destruct Hp as [Hp| -> ], Hq as [Hq| -> ]; [by eapply (N p q)| | |lia].
  - specialize (Hs p Hp). lia.
  - eapply (fit_none i pq E q); [done|lia..].
Qed.
Lemma no_tail_all slots pq : Forall wf pq -> srt pq -> no_tail pq ->
  Forall wf (live slots) -> srt (live slots) -> (forall p q, p ∈ pq -> q ∈ live slots -> p_start p <= p_start q) ->
  no_tail (fold_left gather1 slots pq).
Proof.
  revert pq. induction slots as [|i slots IH]; intros pq W S Nt W' S' L; cbn; [done|].
  cbn in W', S', L. unfold gather1 at 2. destruct (p_start i =? INFINITY) eqn:Ei; cbn in W', S', L |- *; [by apply IH|].
  apply StronglySorted_inv in S'. apply list.Forall_cons in W'. destruct S' as [S1 S2], W' as [W1 W2].
  assert (Hle : starts_le (p_start i) pq).
  { apply list.Forall_forall. intros p Hp. apply L; [done|]. apply elem_of_list_here. }
  assert (H2 : forall q, q ∈ live slots -> p_start i <= p_start q). { rewrite list.Forall_forall in S2. done. }
  set (pq1 := match pq with [] => push less pq i | _ => match fit i pq with Some pq' => pq' | None => push less pq i end end).
  assert (E1 : pq1 = match fit i pq with Some pq' => pq' | None => pq ++ [i] end).
  { unfold pq1. destruct pq as [|w pq]; [done|]. destruct (fit i (w :: pq)); [done|]. by apply push_last. }
  assert (Hfit : Forall wf pq1 /\ srt pq1 /\ no_tail pq1 /\ starts_le (p_start i) pq1).
  { rewrite E1. destruct (fit i pq) as [pq2|] eqn:Ef.
    - destruct (fit_some _ _ _ Ef Hle W W1) as (F1 & F2 & _). split; [done|]. split; [by eapply srt_starts|]. split; [by eapply no_tail_fit|by eapply starts_le_starts].
    - split; [apply list.Forall_app; split; [done|by constructor]|]. split; [by apply srt_snoc|]. split; [by apply no_tail_push|].
      apply list.Forall_app. split; [done|]. constructor; [lia|constructor]. }
  destruct Hfit as (P1 & P2 & P3 & P4). apply IH; try done.
  intros p q Hp Hq. unfold starts_le in P4. rewrite list.Forall_forall in P4. specialize (P4 p Hp). specialize (H2 q Hq). cbn in P4. lia.
Qed.

(** Windows that touch are not empty. *)
Definition touch (l : list path) : Prop :=
  StronglySorted (fun p q => p_end p < p_start q \/ (p_end p = p_start q /\ p_start p < p_end p /\ p_start q < p_end q)) l.
Lemma touch_snoc l p q : touch (l ++ [p]) -> p_start p <= p_end p ->
  p_end p < p_start q \/ (p_end p = p_start q /\ p_start p < p_end p /\ p_start q < p_end q) -> touch ((l ++ [p]) ++ [q]).
Proof.
  intros H Hp Hq. unfold touch in *. induction l as [|x l IH]; cbn in *; [constructor; [by repeat constructor|by constructor]|].
  apply StronglySorted_inv in H. destruct H as [H1 H2]. constructor; [by apply IH|].
  apply list.Forall_app. split; [done|]. constructor; [|constructor].
  apply list.Forall_app in H2. destruct H2 as [_ H2]. apply Forall_inv in H2. lia.
Qed.
Lemma touch_last l p p' : touch (l ++ [p]) -> p_start p' = p_start p -> p_end p <= p_end p' -> touch (l ++ [p']).
Proof.
  intros H E1 E2. unfold touch in *. induction l as [|x l IH]; cbn in *; [by repeat constructor|].
  apply StronglySorted_inv in H. destruct H as [H1 H2]. constructor; [by apply IH|].
  apply list.Forall_app in H2. destruct H2 as [H3 H2]. apply list.Forall_app. split; [done|]. constructor; [|constructor].
  apply Forall_inv in H2. lia.
Qed.
Lemma combine_touch full ws dn prev ch pq next ch' : combine ws dn prev ch pq = Some (next, ch') ->
  touch (dn ++ [prev]) -> wf prev -> Forall wf pq -> no_tail full -> (forall x, x ∈ pq -> x ∈ full) ->
  (p_start prev = p_end prev \/ exists q, q ∈ full /\ p_start q < p_end q /\ p_end q = p_end prev) ->
  touch next.
Proof.
  intros E T Wp Wq Nt Hf He. revert dn prev ch E T Wp He. induction pq as [|n pq IH]; intros dn prev ch E T Wp He; cbn [combine] in E; [by injection E as <- _|].
  apply list.Forall_cons in Wq. destruct Wq as [Wn Wq]. unfold wf in Wp, Wn.
  assert (Hn : n ∈ full) by (apply Hf, elem_of_list_here).
  assert (Hf' : forall x, x ∈ pq -> x ∈ full). { intros x Hx. apply Hf, elem_of_list_further, Hx. }
  specialize (IH Wq Hf').
  destruct (p_start n <? p_start prev) eqn:C0; [done|].
  destruct ((p_start n =? p_start prev) && (p_end n =? p_end prev)) eqn:C1.
  { ns. eapply IH; [exact E|eapply touch_last; [exact T|done|cbn; lia]|done|cbn; done]. }
  destruct ((p_start n =? p_start prev) && (p_end prev <? p_end n)) eqn:C2.
  { ns. eapply IH; [exact E|eapply touch_last; [exact T|done|cbn; lia]|unfold wf; cbn; lia|]. right. exists n. cbn. split; [done|]. lia. }
  destruct ((p_start n <? p_end prev) && (p_end n <=? p_end prev)) eqn:C3; [by eapply IH|].
  destruct ((p_start prev <=? p_start n) && (p_start n <? p_end prev) && (p_end prev <? p_end n)) eqn:C4.
  { ns. eapply IH; [exact E|eapply touch_last; [exact T|done|cbn; lia]|unfold wf; cbn; lia|]. right. exists n. cbn. split; [done|]. lia. }
  assert (Hap : p_end prev <= p_start n). { nb; lia. }
  eapply IH; [exact E|apply touch_snoc; [done|done|]|done|].
  - destruct (decide (p_end prev = p_start n)) as [Et|Et]; [right|left; lia]. split; [done|].
    assert (Hpn : p_start prev < p_end prev). { destruct (decide (p_start prev = p_end prev)); [nb; lia|lia]. }
    split; [done|]. destruct (decide (p_start n = p_end n)) as [En|En]; [exfalso|lia].
    destruct He as [He|(q & Q1 & Q2 & Q3)]; [lia|]. eapply (Nt n q); try done. congruence.
  - destruct (decide (p_start n = p_end n)); [by left|right]. exists n. split; [done|]. lia.
Qed.
Lemma retrieve_touch new slots p q : se new <> (0, INFINITY) -> Forall wf (live slots) -> srt (live slots) ->
  mail_retrieve new slots p = Some q -> touch (nexts q).
Proof.
  intros Hn W S. unfold mail_retrieve. destruct ((p_start new =? 0) && (p_end new =? INFINITY)) eqn:E.
  { ns. exfalso. apply Hn. unfold se. congruence. }
  destruct (gather_ok slots W S) as (G1 & G2 & _). assert (Nt : no_tail (gather slots)).
  { apply no_tail_all; try done; [constructor|by intros ? ? ?%elem_of_nil|by intros ? ? ?%elem_of_nil]. }
  destruct (gather slots) as [|w pq] eqn:Eg.
  - intros [= <-]. constructor.
  - apply list.Forall_cons in G1. destruct G1 as [Gw G1]. destruct (combine _ _ _ _ _) as [[next ch]|] eqn:Ec; [|done]. intros [= <-]. cbn.
    eapply (combine_touch (w :: pq)); try done.
    + by repeat constructor.
    + intros x Hx. by apply elem_of_list_further.
    + unfold wf in Gw. destruct (decide (p_start w = p_end w)); [by left|right]. exists w. split; [apply elem_of_list_here|]. lia.
Qed.
