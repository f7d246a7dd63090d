(** C44: temporal windows. *)
From Verif Require Import Base Heap_Model Window_Spec Window_Model Window_Proofs.
Open Scope N_scope.

Definition times (p : path) : window := (p_start p, p_end p).
(** The offers present in the slots of a mailbox. *)
Definition offers (slots : list path) : list window :=
  map times (List.filter (fun p => negb (p_start p =? INFINITY)) slots).
Definition well_formed (l : list window) : Prop := Forall (fun w => fst w <= snd w) l.

Lemma offers_wf slots : well_formed (offers slots) -> Forall wf (live slots).
Proof.
  unfold well_formed, offers. fold (live slots). intros H. apply list.Forall_forall. intros p Hp.
  rewrite list.Forall_forall in H. apply (H (times p)). apply elem_of_list_fmap. by exists p.
Qed.
Lemma offers_srt slots : by_start (offers slots) -> srt (live slots).
Proof.
  unfold by_start, offers, srt. fold (live slots). induction (live slots) as [|p l IH]; [constructor|]. cbn. intros H.
  apply StronglySorted_inv in H. destruct H as [H H1]. constructor; [by apply IH|]. apply list.Forall_forall. intros q Hq.
  rewrite list.Forall_forall in H1. apply (H1 (times q)). apply elem_of_list_fmap. by exists q.
Qed.

(** Whatever the offers and their order: when MailRetrieve of a vertex other than the source returns,
    the windows it computed are in order, do not overlap, and describe exactly the offered times. *)
Theorem C44_exact new slots p q : times new <> (0, INFINITY) -> well_formed (offers slots) ->
  mail_retrieve new slots p = Some q ->
  wins q = wins p /\ apart (map times (nexts q)) /\ same_times (map times (nexts q)) (offers slots).
Proof.
  intros Hn W E. destruct (retrieve_some new slots p q Hn (offers_wf _ W) E) as (R1 & R2 & R3). split_and!.
  - revert E. unfold mail_retrieve. destruct (_ && _); [by intros [= <-]|]. destruct (gather slots) as [|w pq]; [by intros [= <-]|].
    destruct (combine _ _ _ _ _) as [[? ?]|]; [|done]. by intros [= <-].
  - by apply sep_apart.
  - by apply like_same.
Qed.
(** With offers in the order of their starts it does return, and it reports a change if and only if
    the windows differ from the previous ones. *)
Theorem C44_returns new slots p : times new <> (0, INFINITY) -> well_formed (offers slots) -> by_start (offers slots) ->
  exists q, mail_retrieve new slots p = Some q /\ (changed q = true <-> map times (wins p) <> map times (nexts q)).
Proof.
  intros Hn W S. destruct (retrieve_ok new slots p Hn (offers_wf _ W) (offers_srt _ S)) as (next & ch & E & _ & _ & _ & Hc).
  exists (TProp (wins p) next ch). split; [done|]. cbn. change (map times ?l) with (map se l). rewrite <- Hc. destruct ch; split; try done; auto.
Qed.
(** There is only one such list of windows, if no offer is empty. *)
Theorem C44_unique l l' : apart l -> apart l' -> Forall (fun w => fst w < snd w) l -> Forall (fun w => fst w < snd w) l' ->
  same_times l l' -> l = l'.
Proof. apply apart_unique. Qed.
(** The source is reachable at all times, unless it had other windows before its first mail. *)
Theorem C44_source slots p : nexts p = [] \/ nexts p = [whole] ->
  mail_retrieve whole slots p = Some (TProp (wins p) [whole] true).
Proof. unfold mail_retrieve. cbn. by intros [-> | ->]. Qed.
(** The offer for an edge: the interval of the edge, if one of the windows is open when the edge appears.
    [from] is any index before which all windows have ended, and so is the index that is returned. *)
Theorem C44_offer ts en ws from : apart (map times ws) -> ts <> INFINITY ->
  (forall w, w ∈ firstn from ws -> p_end w <= ts) ->
  let '(o, f) := find_offer ts en ws from in
  ((exists w, w ∈ map times ws /\ passes ts w) -> times o = (ts, if en =? 0 then INFINITY else en)) /\
  (~ (exists w, w ∈ map times ws /\ passes ts w) -> o = no_path) /\
  (forall w, w ∈ firstn f ws -> p_end w <= ts).
Proof.
  intros [W S] Ht G. destruct (find_offer ts en ws from) as [o f] eqn:E.
  assert (S' : sep ws /\ Forall wf ws).
  { clear -W S. unfold sep. induction ws as [|w ws IH]; [by repeat constructor|]. cbn in W, S. apply list.Forall_cons in W.
    apply StronglySorted_inv in S. destruct W as [W1 W], S as [S S1]. destruct (IH W S) as [I1 I2]. split; [|by constructor].
    constructor; [done|]. apply list.Forall_forall. intros q Hq. rewrite list.Forall_forall in S1. apply (S1 (times q)).
    apply elem_of_list_fmap. by exists q. }
  destruct S' as [S1 W1]. destruct (find_offer_ok _ _ _ _ _ _ E S1 W1 Ht) as [E1 E2]. { by apply list.Forall_forall. }
  assert (Hop : open_at ts ws = true <-> exists w, w ∈ map times ws /\ passes ts w).
  { unfold open_at. rewrite existsb_exists. split.
    - intros (x & Hx & Hb). apply elem_of_list_In in Hx. exists (times x). split; [apply elem_of_list_fmap; by exists x|]. ns. by split.
    - intros (w & Hw & Hp). apply elem_of_list_fmap in Hw. destruct Hw as (x & -> & Hx). exists x. split; [by apply elem_of_list_In|].
      destruct Hp as [P1 P2]. apply andb_true_iff. split; by apply N.ltb_lt. }
  unfold offer_se in E1. split_and!.
  - intros H. apply Hop in H. rewrite H in E1. exact E1.
  - intros H. destruct (open_at ts ws) eqn:Eo; [by destruct H; apply Hop|].
    assert (Hso : forall ws i offer first o f, search ts en ws i offer first = (o, f) -> p_start o = INFINITY -> offer = no_path -> o = no_path).
    { clear -Ht. induction ws as [|w ws IH]; intros i offer first o f E Eo Ef; cbn [search] in E; [congruence|].
      destruct (p_end w <=? ts); [by eapply IH|]. destruct (ts <=? p_start w); [congruence|]. subst offer. cbn in E.
      assert (Hs : forall ws i offer first o f, search ts en ws i offer first = (o, f) -> p_start offer = ts -> p_start o = ts).
      { clear. induction ws as [|w ws IH]; intros i offer first o f E Eo; cbn [search] in E; [congruence|].
        destruct (p_end w <=? ts); [by eapply IH|]. destruct (ts <=? p_start w); [congruence|].
        destruct (p_start offer =? INFINITY); by eapply IH. }
      apply Hs in E; [|done]. congruence. }
    unfold find_offer in E. eapply Hso; [exact E| |done]. by injection E1.
  - intros w Hw. unfold gone_by in E2. rewrite list.Forall_forall in E2. by apply E2.
Qed.
Print Assumptions C44_exact.
Print Assumptions C44_returns.
Print Assumptions C44_unique.
Print Assumptions C44_source.
Print Assumptions C44_offer.

(** Offers in order: [10,20) [10,12) [15,30) [30,40) [35,36), and an edge that does not offer. *)
Definition c44_p (s e : N) : path := Path s e 1.
Example C44_case :
  let slots := [c44_p 10 20; no_path; c44_p 10 12; c44_p 15 30; c44_p 30 40; c44_p 35 36] in
  mail_retrieve no_path slots (TProp [] [] false) = Some (TProp [] [c44_p 10 30; c44_p 30 40] true) /\
  mail_retrieve no_path slots (TProp [c44_p 10 30; c44_p 30 40] [] false) =
    Some (TProp [c44_p 10 30; c44_p 30 40] [c44_p 10 30; c44_p 30 40] false) /\
  by_start (offers slots) /\ well_formed (offers slots) /\
  (* edges at 5, 20, 30 (the windows touch, but do not merge) and 31 *)
  map (fun ts => times (fst (find_offer ts 0 [c44_p 10 30; c44_p 30 40] 0))) [5; 20; 30; 31] =
    [times no_path; (20, INFINITY); times no_path; (31, INFINITY)].
Proof.
  split; [reflexivity|]. split; [reflexivity|]. split.
  { repeat (constructor; [|repeat (constructor; [cbn; discriminate|]); constructor]). constructor. }
  split; [repeat (constructor; [cbn; discriminate|]); constructor|reflexivity].
Qed.
(** Offers out of order abort the program: [10,20) [30,40) [25,26) leave the heap as the array
    10, 30, 25, which the second pass takes to be sorted. *)
Example C44_unordered_aborts : mail_retrieve no_path [c44_p 10 20; c44_p 30 40; c44_p 25 26] (TProp [] [] false) = None.
Proof. reflexivity. Qed.
(** A source that had windows from another source before its own first mail never becomes one: it
    takes its previous windows instead of [0, INFINITY). *)
Example C44_late_source :
  mail_retrieve whole [] (TProp [c44_p 5 9] [c44_p 5 8] false) = Some (TProp [c44_p 5 9] [c44_p 5 8] true).
Proof. reflexivity. Qed.
