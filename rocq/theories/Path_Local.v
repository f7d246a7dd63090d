(** Facts about the single functions. *)
From Verif Require Import Base Engine_Spec Engine_Model Engine_Proofs Window_Spec Window_Model Window_Proofs Path_Spec Path_Model.
Open Scope nat_scope.

Definition good (ws : list path) : Prop := sep ws /\ Forall wf ws.
Definition box_times (b : list path) : list window := match b with new :: slots => times_of new slots | [] => [] end.
Definition slotval (b : list path) (p : nat) : path := match b !! S p with Some x => x | None => no_path end.

Lemma slotval_cons h l p : slotval (h :: l) p = match l !! p with Some x => x | None => no_path end.
Proof. done. Qed.
Lemma lookup_S (h : path) l q : (h :: l) !! S q = l !! q.
Proof. done. Qed.
(** MailMerge of an offer. *)
Lemma merge_offer b p x b' new : tp_merge (MOffer p x) b = (b', new) -> b <> [] ->
  length b <= length b' /\ b' !! 0 = b !! 0 /\ se (slotval b' p) = se x /\
  (forall q y, b' !! S q = Some y -> b !! S q = Some y \/ y = no_path \/ (q = p /\ y = x)) /\
  (forall q, q <> p -> slotval b' q = slotval b q) /\
  (new = false -> b' = b).
Proof.
  destruct b as [|h slots]; [done|]. cbn [tp_merge]. intros E _.
  assert (Hl : forall q, (grow_slots slots p) !! q = slots !! q \/ (slots !! q = None /\ (grow_slots slots p) !! q = Some no_path) ).
  { intros q. unfold grow_slots. destruct (decide (q < length slots)) as [Hq|Hq]; [left; by apply lookup_app_l|].
    rewrite (lookup_ge_None_2 slots) by lia. rewrite lookup_app_r by lia.
    destruct (decide (q - length slots < S p - length slots)) as [Hq'|Hq'].
    - right. split; [done|]. apply lookup_replicate. split; [done|lia].
    - left. apply lookup_ge_None_2. rewrite replicate_length. lia. }
  destruct (Nat.leb_spec (length slots) p) as [Hle|Hgt].
  - injection E as <- <-. assert (Hg : p < length (grow_slots slots p)).
    { unfold grow_slots. rewrite app_length, replicate_length. lia. }
    split_and!; try done.
    + cbn [length]. rewrite insert_length. unfold grow_slots. rewrite app_length. lia.
    + rewrite ?slotval_cons. rewrite list_lookup_insert by done. done.
    + intros q y. rewrite ?lookup_S. destruct (decide (q = p)) as [->|Hq].
      * rewrite list_lookup_insert by done. intros [= <-]. auto.
      * rewrite list_lookup_insert_ne by done. destruct (Hl q) as [->|[_ ->]]; [auto|]. intros [= <-]. auto.
    + intros q Hq. rewrite ?slotval_cons. rewrite list_lookup_insert_ne by done. destruct (Hl q) as [->|[-> ->]]; done.
  - destruct (lookup_lt_is_Some_2 slots p Hgt) as [prev Hp]. rewrite Hp in E. destruct (differ prev x) eqn:Ed; injection E as <- <-.
    + split_and!; try done.
      * cbn [length]. by rewrite insert_length.
      * rewrite ?slotval_cons. by rewrite list_lookup_insert.
      * intros q y. rewrite ?lookup_S. destruct (decide (q = p)) as [->|Hq].
        -- rewrite list_lookup_insert by done. intros [= <-]. auto.
        -- rewrite list_lookup_insert_ne by done. auto.
      * intros q Hq. rewrite ?slotval_cons. by rewrite list_lookup_insert_ne.
    + split_and!; try done.
      * rewrite ?slotval_cons. rewrite Hp. unfold differ in Ed. apply negb_false_iff in Ed. apply andb_true_iff in Ed.
        destruct Ed as [E1 E2]. apply N.eqb_eq in E1, E2. unfold se. congruence.
      * auto.
Qed.

(** The messages of a range of edges. *)
Definition told (ws : list path) (e : nat * tedge) (m : nat * tmsg) : Prop :=
  let '(d, (ts, en, pos)) := e in exists x, m = (d, MOffer pos x) /\ se x = offer_se ws ts en.
Definition ts_of (e : nat * tedge) : N := let '(_, (ts, _, _)) := e in ts.
Definition in_time (es : list (nat * tedge)) : Prop :=
  StronglySorted (fun e e' => (ts_of e <= ts_of e')%N) es /\ Forall (fun e => ts_of e <> INFINITY) es.

Lemma push_all_ok ws es from : good ws -> in_time es -> (forall e, e ∈ es -> gone_by (ts_of e) (firstn from ws)) ->
  Forall2 (told ws) es (push_all ws from es).
Proof.
  intros [G1 G2]. revert from. induction es as [|[d [[ts en] pos]] es IH]; intros from [S T] G; [constructor|]. cbn [push_all].
  destruct (find_offer ts en ws from) as [o f] eqn:E. apply StronglySorted_inv in S. apply list.Forall_cons in T.
  destruct S as [S S1], T as [T1 T]. cbn in T1.
  destruct (find_offer_ok _ _ _ _ _ _ E G1 G2 T1) as [E1 E2]. { apply (G (d, (ts, en, pos))). apply elem_of_list_here. }
  constructor; [by exists o|]. apply IH; [by split|]. intros e He. rewrite list.Forall_forall in S1. specialize (S1 e He). cbn in S1.
  by eapply gone_by_mono.
Qed.
Lemma push_each_ok ws es : good ws -> Forall (fun e => ts_of e <> INFINITY) es -> Forall2 (told ws) es (push_each ws es).
Proof.
  intros [G1 G2]. induction es as [|[d [[ts en] pos]] es IH]; intros T; [constructor|]. apply list.Forall_cons in T. destruct T as [T1 T].
  cbn [push_each map]. constructor; [|by apply IH]. destruct (find_offer ts en ws 0) as [o f] eqn:E. exists o. split; [done|].
  eapply find_offer_ok; [exact E|done..|]. constructor.
Qed.
Lemma told_in ws es ms d m : Forall2 (told ws) es ms -> (d, m) ∈ ms ->
  exists ts en pos x, (d, (ts, en, pos)) ∈ es /\ m = MOffer pos x /\ se x = offer_se ws ts en.
Proof.
  intros H Hin. apply elem_of_list_lookup in Hin. destruct Hin as [i Hi].
  destruct (Forall2_lookup_r _ _ _ _ _ H Hi) as ([d' [[ts en] pos]] & He & x & E & Ex). injection E as -> ->.
  exists ts, en, pos, x. split; [by eapply elem_of_list_lookup_2|done].
Qed.
Lemma told_all ws es ms d ts en pos : Forall2 (told ws) es ms -> (d, (ts, en, pos)) ∈ es -> exists x, (d, MOffer pos x) ∈ ms.
Proof.
  intros H Hin. apply elem_of_list_lookup in Hin. destruct Hin as [i Hi].
  destruct (Forall2_lookup_l _ _ _ _ _ H Hi) as (m & Hm & x & -> & _). exists x. by eapply elem_of_list_lookup_2.
Qed.
Lemma in_time_skipn k es : in_time es -> in_time (skipn k es).
Proof.
  intros [S T]. split; [|by apply list.Forall_drop]. revert k. clear T. induction es as [|e es IH]; intros [|k]; cbn; try done.
  apply StronglySorted_inv in S. apply IH, S.
Qed.

(** Slots whose offers are ordered by time. *)
Definition slots_ok (F : nat -> N -> Prop) (slots : list path) : Prop :=
  forall p x, slots !! p = Some x -> p_start x = INFINITY \/ (F p (p_start x) /\ (p_start x <= p_end x)%N).
Lemma slots_live (F : nat -> N -> Prop) slots : (forall p p' ts ts', p <= p' -> F p ts -> F p' ts' -> (ts <= ts')%N) -> slots_ok F slots ->
  Forall wf (live slots) /\ srt (live slots).
Proof.
  revert F. induction slots as [|x slots IH]; intros F HF H; [by repeat constructor|].
  destruct (IH (fun p => F (S p))) as [I1 I2].
  { intros p p' ts ts' Hp. apply HF. lia. }
  { intros p y Hy. by apply (H (S p)). }
  unfold live. cbn [List.filter]. fold (live slots). destruct (p_start x =? INFINITY)%N eqn:Ex; cbn [negb]; [done|].
  apply N.eqb_neq in Ex. destruct (H 0 x eq_refl) as [?|[H1 H2]]; [done|]. split; [by constructor|]. constructor; [done|].
  apply list.Forall_forall. intros y Hy. unfold live in Hy. apply elem_of_list_In, filter_In in Hy. destruct Hy as [Hy Hn].
  apply elem_of_list_In, elem_of_list_lookup in Hy. destruct Hy as [i Hi]. destruct (H (S i) y Hi) as [E|[H3 _]].
  - by rewrite E in Hn.
  - eapply HF; [|exact H1|exact H3]. lia.
Qed.

(** One reaction. *)
Lemma react_other k p es new slots (F : nat -> N -> Prop) : good (wins p) -> new = no_path ->
  (forall p p' ts ts', p <= p' -> F p ts -> F p' ts' -> (ts <= ts')%N) -> slots_ok F slots -> in_time es ->
  (forall gone, k = KDel gone -> Forall (fun e => ts_of e <> INFINITY) gone) ->
  exists q ms ms', tp_react k (Some p) es (new :: slots) = (Some q, ms, ms') /\ good (wins q) /\
    ses (wins q) = times_of new slots /\
    ((wins q = wins p /\ ms = []) \/ Forall2 (told (wins q)) es ms) /\
    match k with KUpd => ms' = [] | KAdd st => Forall2 (told (wins q)) (skipn st es) ms' | KDel gone => Forall2 (told (wins q)) gone ms' end /\
    ((forall p x, slots !! p = Some x -> p_start x = INFINITY) -> wins p = [] -> wins q = [] /\ nexts q = []).
Proof.
  intros [G1 G2] -> HF Hs Hes Hk. destruct (slots_live F slots HF Hs) as [L1 L2].
  destruct (retrieve_ok no_path slots p) as (next & ch & E & R1 & R2 & R3 & R4); [done..|].
  pose proof (retrieve_times no_path slots p _ ltac:(done) E) as Et. cbn [nexts] in Et.
  assert (Hnone : (forall p x, slots !! p = Some x -> p_start x = INFINITY) -> next = []).
  { intros Hall. assert (El : live slots = []).
    { clear -Hall. induction slots as [|x l IH]; [done|]. unfold live. cbn [List.filter]. rewrite (Hall 0 x eq_refl). cbn.
      apply IH. intros p y Hy. by apply (Hall (S p)). }
    revert E. unfold mail_retrieve. change ((p_start no_path =? 0) && (p_end no_path =? INFINITY))%N with false. cbv iota.
    assert (Eg : gather slots = []).
    { unfold gather. clear -Hall. induction slots as [|x l IH]; [done|]. cbn [fold_left]. unfold gather1 at 2.
      rewrite (Hall 0 x eq_refl), N.eqb_refl. apply IH. intros p y Hy. by apply (Hall (S p)). }
    rewrite Eg. by intros [= <- _]. }
  cbn [tp_react]. rewrite E. unfold on_update. cbn [changed nexts wins].
  assert (Hfin : forall q ms, good (wins q) -> ses (wins q) = times_of no_path slots ->
    ((wins q = wins p /\ ms = []) \/ Forall2 (told (wins q)) es ms) ->
    ((forall p x, slots !! p = Some x -> p_start x = INFINITY) -> wins p = [] -> wins q = [] /\ nexts q = []) ->
    exists q0 ms0 ms', match k with
      | KUpd => (Some q, ms, []) | KAdd start => (Some q, ms, push_all (wins q) 0 (skipn start es))
      | KDel ended => (Some q, ms, push_each (wins q) ended) end = (Some q0, ms0, ms') /\ good (wins q0) /\
    ses (wins q0) = times_of no_path slots /\
    ((wins q0 = wins p /\ ms0 = []) \/ Forall2 (told (wins q0)) es ms0) /\
    match k with KUpd => ms' = [] | KAdd st => Forall2 (told (wins q0)) (skipn st es) ms' | KDel gone => Forall2 (told (wins q0)) gone ms' end /\
    ((forall p x, slots !! p = Some x -> p_start x = INFINITY) -> wins p = [] -> wins q0 = [] /\ nexts q0 = [])).
  { intros q ms Q1 Q2 Q3 Q4. destruct k as [|st|gone]; do 3 eexists; (split; [reflexivity|]); split_and!; try done.
    - apply push_all_ok; [done|by apply in_time_skipn|]. intros e _. constructor.
    - apply push_each_ok; [done|]. by apply Hk. }
  destruct ch.
  - apply Hfin; cbn [wins nexts]; [by split|done|right|].
    + apply push_all_ok; [by split|done|]. intros e _. constructor.
    + intros H ->. split; [by apply Hnone|done].
  - apply Hfin; cbn [wins nexts]; [by split| |by left|].
    + rewrite <- Et. by apply R4.
    + intros H ->. split; [done|by apply Hnone].
Qed.
Lemma react_source k p es new slots : (wins p = [] \/ wins p = [whole]) -> (nexts p = [] \/ nexts p = [whole]) -> new = whole ->
  in_time es -> (forall gone, k = KDel gone -> Forall (fun e => ts_of e <> INFINITY) gone) ->
  exists q ms ms', tp_react k (Some p) es (new :: slots) = (Some q, ms, ms') /\ good (wins q) /\
    ses (wins q) = times_of new slots /\
    Forall2 (told (wins q)) es ms /\
    match k with KUpd => ms' = [] | KAdd st => Forall2 (told (wins q)) (skipn st es) ms' | KDel gone => Forall2 (told (wins q)) gone ms' end /\
    wins q = [whole] /\ (nexts q = [] \/ nexts q = [whole]).
Proof.
  intros Hw Hn -> Hes Hk. cbn [tp_react].
  assert (E : mail_retrieve whole slots p = Some (TProp (wins p) [whole] true)).
  { unfold mail_retrieve. cbn. by destruct Hn as [-> | ->]. }
  rewrite E. unfold on_update. cbn [changed nexts wins].
  assert (G : good [whole]) by (split; repeat constructor; done).
  assert (P : Forall2 (told [whole]) es (push_all [whole] 0 es)). { apply push_all_ok; [done|done|]. intros e _. constructor. }
  destruct k as [|st|gone]; do 3 eexists; (split; [reflexivity|]); split_and!; try done; cbn [wins].
  - apply push_all_ok; [done|by apply in_time_skipn|]. intros e _. constructor.
  - apply push_each_ok; [done|]. by apply Hk.
Qed.
