(** C93, C94: proofs about one thread's loop. *)
From Verif Require Import Base Turn_Model.
Open Scope nat_scope.

Local Arguments N.add : simpl never.
Local Arguments N.mul : simpl never.
Local Arguments N.ltb : simpl never.
Local Arguments N.eqb : simpl never.
Local Arguments N.modulo : simpl never.
Local Arguments N.div : simpl never.
Local Opaque N.add N.mul N.ltb N.eqb N.modulo N.div.

Section turn.
Context {E M : Type} (zero : E) (base msgmax : nat) (topFirst series super : bool).
Notation world := (@world E M).
Notation thr := (@thr E M).
Notation turn := (turn zero msgmax topFirst series super).
Notation turns := (turns zero msgmax topFirst series super).
Notation topology := (topology zero series).
Notation algorithm := (algorithm super).
Notation receive := (receive msgmax).
Implicit Types (s : thr) (w : world).

Definition b2n (b : bool) : nat := if b then 1 else 0.

Lemma fill_ok (n : nat) : forall i (b l : list E), n + i <= length b ->
  exists b', fill zero n i b l = Some (b', i + Nat.min n (length l), length l <? n) /\ length b' = length b /\ firstn (i + Nat.min n (length l)) b' = firstn i b ++ firstn n l.
Proof.
  induction n as [|n IH]; intros i b l Hl; cbn [fill].
  - exists b. split_and!; [by rewrite Nat.min_0_l, Nat.add_0_r; destruct l|done|]. by rewrite Nat.min_0_l, Nat.add_0_r, app_nil_r.
  - destruct (Nat.ltb_spec i (length b)); [|lia]. destruct l as [|e l]; cbn [length].
    + exists (<[i := zero]> b). rewrite Nat.min_0_r, Nat.add_0_r. split_and!; [done|by rewrite insert_length|]. rewrite (take_insert b i i zero) by lia. by rewrite firstn_nil, app_nil_r.
    + destruct (IH (S i) (<[i := e]> b) l) as (b' & H1 & H2 & H3); [rewrite insert_length; lia|]. exists b'. rewrite H1, H2, insert_length. cbn [Nat.min]. rewrite Nat.add_succ_r. split_and!; [done|done|].
      change (S i + Nat.min n (length l)) with (S (i + Nat.min n (length l))) in H3. rewrite H3. rewrite (take_S_r _ _ e) by (by apply list_lookup_insert). rewrite take_insert by lia. by rewrite <- app_assoc.
Qed.
Lemma inject_ok (l : list E) : forall i (b : list E), i <= length b -> firstn (i + length l) (inject i b l) = firstn i b ++ l /\ length b <= length (inject i b l).
Proof.
  induction l as [|e l IH]; intros i b Hi; cbn [inject length]; [by rewrite Nat.add_0_r, app_nil_r|]. rewrite Nat.add_succ_r. change (S (i + length l)) with (S i + length l).
  destruct (Nat.leb_spec (length b) i).
  - destruct (IH (S i) (b ++ [e])) as [H1 H2]; [rewrite app_length; cbn; lia|]. rewrite H1. rewrite app_length in H2. split; [|cbn in *; lia]. assert (i = length b) by lia. subst i.
    rewrite (firstn_all2 (n := S (length b))) by (rewrite app_length; cbn; lia). rewrite firstn_all. by rewrite <- app_assoc.
  - destruct (IH (S i) (<[i := e]> b)) as [H1 H2]; [rewrite insert_length; lia|]. rewrite H1. rewrite insert_length in H2. split; [|done]. rewrite (take_S_r _ _ e) by (by apply list_lookup_insert). rewrite take_insert by lia. by rewrite <- app_assoc.
Qed.

(** One iteration, stage by stage. *)
Lemma turn_rect (P : thr -> Prop) s w :
  P s ->
  (forall s c, P s -> P (command s c (w_next w))) ->
  (forall s, P s -> P (fst (remit s w))) ->
  (forall s, P s -> P (receive s w)) ->
  (forall s rc, P s -> strucC s = false -> blockTop s = false -> P (fst (fst (topology s w rc)))) ->
  (forall s, P s -> P (fst (algorithm s w))) ->
  (forall s pt pa tf af, crashed s = None -> P s -> P (back_off s pt pa tf af)) ->
  P (turn s w).
Proof.
  intros H0 Hc Hr Hv Ht Ha Hb. unfold Turn_Model.turn. destruct (crashed s); [done|]. destruct (completed s); [done|].
  assert (H1 : P (match w_cmd w with Some c => command s c (w_next w) | None => s end)) by (destruct (w_cmd w); [by apply Hc|done]).
  set (s1 := match w_cmd w with Some c => _ | None => _ end) in *. destruct (crashed s1); [done|].
  specialize (Hr _ H1). destruct (remit s1 w) as [s2 rc]. cbn in Hr. set (pa := (_ || _)%bool).
  assert (H3 : P (if pa then receive s2 w else s2)) by (destruct pa; [by apply Hv|done]). set (s3 := if pa then _ else _) in *.
  set (pt := (_ && _)%bool). assert (H4 : P (fst (fst (if pt then topology s3 w rc else (s3, false, false))))).
  { destruct pt eqn:E1; [|done]. unfold pt in E1. apply andb_true_iff in E1 as [E1 E2]. apply Ht; [done|by apply negb_true_iff..]. }
  destruct (if pt then topology s3 w rc else (s3, false, false)) as [[s4 again] tf]. cbn in H4. destruct (crashed s4); [done|]. destruct again; [done|].
  assert (H5 : P (fst (if pa then algorithm s4 w else (s4, false)))) by (destruct pa; [by apply Ha|done]).
  destruct (if pa then algorithm s4 w else (s4, false)) as [s5 af]. cbn in H5. destruct (crashed s5) eqn:Ec5; [done|]. by apply Hb.
Qed.

Record inv s : Prop := {
  v_pull : 0 < pull s;
  v_buff : strucC s = false -> pull s <= length (buff s);
  v_doneE : doneE s = b2n (strucC s);
  v_doneR : doneR s = b2n (remitC s);
  v_range : crashed s <> Some OutOfRange;
  v_end : completed s = true -> strucC s = true /\ remitC s = true }.

Ltac go := cbn in *; try done; try lia; try congruence.

Lemma grown_ok s : 0 < pull s -> pull s <= length (buff s) -> 0 < pull (grown zero s) /\ pull (grown zero s) <= length (buff (grown zero s)).
Proof. intros Hp Hb. unfold grown. destruct (_ <? _)%N; [|done]. destruct (Nat.ltb_spec (length (buff (set_pull s (2 * pull s)))) (pull (set_pull s (2 * pull s)))); cbn in *; [rewrite repeat_length; lia|lia]. Qed.
Lemma grown_same s : let s' := grown zero s in blockTop s' = blockTop s /\ topSync s' = topSync s /\ algIfTop s' = algIfTop s /\ epoch s' = epoch s /\ strucC s' = strucC s /\ remitC s' = remitC s /\ completed s' = completed s /\
  topCount s' = topCount s /\ notes s' = notes s /\ topFail s' = topFail s /\ algFail s' = algFail s /\ acks s' = acks s /\ doneE s' = doneE s /\ doneR s' = doneR s /\ slept s' = slept s /\ enacted s' = enacted s /\ handled s' = handled s /\ crashed s' = crashed s.
Proof. cbv zeta. unfold grown. destruct (_ <? _)%N; [destruct (_ <? _)|]; split_and!; done. Qed.

(** All that the topology stage does, while the buffer is large enough. *)
Lemma topology_ok s w rc : pull s <= length (buff s) -> 0 < pull s -> strucC s = false ->
  exists s' again tf, topology s w rc = (s', again, tf) /\
  let c := ((length (w_top w) <? pull s) && w_tclosed w)%bool in
  strucC s' = c /\ doneE s' = doneE s + b2n c /\ doneR s' = doneR s /\ remitC s' = remitC s /\ crashed s' = crashed s /\ completed s' = completed s /\
  0 < pull s' /\ (c = false -> pull s' <= length (buff s')) /\
  blockTop s' = blockTop s /\ algIfTop s' = algIfTop s /\ epoch s' = epoch s /\ notes s' = notes s /\ handled s' = handled s /\ topFail s' = topFail s /\ algFail s' = algFail s /\ slept s' = slept s /\
  enacted s' = enacted s ++ (if empty (w_top w) then [] else firstn (pull s) (w_top w) ++ w_more w) /\
  acks s' + b2n (topSync s') = acks s + b2n (topSync s) /\
  (tf = true -> w_top w = [] /\ rc = 0%N /\ epoch s = false) /\ (w_top w = [] -> again = false /\ tf = ((rc =? 0)%N && negb (topSync s) && negb (epoch s))%bool) /\
  (w_top w <> [] -> series = true -> again = true) /\ (w_top w <> [] -> series = false -> length (w_top w) < pull s -> topSync s = false -> again = false) /\
  (topSync s' = false -> topSync s = true -> w_top w = [] /\ rc = 0%N).
Proof.
  intros Hb Hp Hs. unfold Turn_Model.topology. destruct (fill_ok (pull s) 0 (buff s) (w_top w)) as (b' & -> & Hlen & Hf); [lia|]. cbn [Nat.add]. cbn [Nat.add firstn app] in Hf.
  set (k := Nat.min (pull s) (length (w_top w))) in *. assert (Hk : k <= length b') by lia.
  destruct (w_top w) as [|e l] eqn:Ew.
  - assert (Ek0 : k = 0) by (unfold k; cbn; lia). clearbody k. subst k. cbn [Nat.eqb negb]. change (length (@nil E)) with 0 in *. destruct (Nat.ltb_spec 0 (pull s)); [|lia]. cbn [andb].
    destruct (topSync s) eqn:Ey; destruct (rc =? 0)%N eqn:Erc; destruct (w_tclosed w); cbn; rewrite ?Ey, ?Erc, ?Hs; cbn; eexists _, _, _; (split; [reflexivity|]); cbn; rewrite ?Ey, ?Hs, ?app_nil_r; cbn; apply N.eqb_eq in Erc || apply N.eqb_neq in Erc;
      split_and!; go; try (intros; rewrite Hlen; lia); try (destruct (epoch s); by intros); by rewrite Ey.
  - assert (Hk0 : 0 < k) by (unfold k; cbn; lia). destruct (Nat.eqb_spec k 0); [lia|]. cbn [negb]. set (c := ((length (e :: l) <? pull s) && w_tclosed w)%bool). set (s1 := if c then _ else _).
    assert (E1 : strucC s1 = c /\ s1 = set_strucC (set_topCount (set_buff s b') k) c). { unfold s1. destruct c; [done|]. destruct s; cbn in *; by subst. } destruct E1 as [_ E1]. clearbody s1. subst s1. cbn [buff set_strucC set_topCount set_buff set_actions actions].
    destruct (inject_ok (w_more w) k b' Hk) as [Hi Hi2]. cbn [enacted]. 
    set (s2 := set_edges _ _). assert (Hen : enacted s2 = enacted s ++ firstn (pull s) (e :: l) ++ w_more w). { unfold s2. cbn. rewrite Hi, Hf. done. }
    assert (Hbf : length b' <= length (buff s2)) by (unfold s2; cbn; exact Hi2).
    change (pull s2) with (pull s). change (topSync s2) with (topSync s).
    destruct ((k =? pull s) || topSync s)%bool eqn:Ek.
    + destruct (grown_ok s2) as [G1 G2]; [done|change (pull s2) with (pull s); lia|]. destruct (grown_same s2) as (A1&A2&A3&A4&A5&A6&A7&A8&A9&A10&A11&A12&A13&A14&A15&A16&A17&A18). set (s3 := grown zero s2) in *.
      rewrite A5. change (strucC s2) with c. eexists _, _, _. split; [reflexivity|]. cbv zeta. assert (Hx : forall (f : thr -> bool), f (done_events s3) = f (done_events s3)) by done. clear Hx.
      destruct c; cbn; rewrite ?A1,?A2,?A3,?A4,?A5,?A6,?A7,?A8,?A9,?A10,?A11,?A12,?A13,?A14,?A15,?A16,?A17,?A18, ?Hen; unfold s2; cbn; split_and!; go.
      all: try (intros; apply orb_true_iff in Ek as [Ek|Ek]; [apply Nat.eqb_eq in Ek; unfold k in Ek; cbn in *; lia|congruence]).
    + change (strucC s2) with c. cbv zeta. clearbody c. subst s2. destruct series; destruct c; eexists _, _, _; (split; [reflexivity|]); cbn in *; rewrite ?Hen; split_and!; go.
Qed.

Definition same s s' : Prop := blockTop s' = blockTop s /\ topSync s' = topSync s /\ algIfTop s' = algIfTop s /\ epoch s' = epoch s /\ strucC s' = strucC s /\ remitC s' = remitC s /\ completed s' = completed s /\
  pull s' = pull s /\ buff s' = buff s /\ topCount s' = topCount s /\ notes s' = notes s /\ acks s' = acks s /\ doneE s' = doneE s /\ doneR s' = doneR s /\ enacted s' = enacted s /\ handled s' = handled s.
Lemma same_trans s1 s2 s3 : same s1 s2 -> same s2 s3 -> same s1 s3.
Proof. unfold same. intros (A1&A2&A3&A4&A5&A6&A7&A8&A9&A10&A11&A12&A13&A14&A15&A16) (B1&B2&B3&B4&B5&B6&B7&B8&B9&B10&B11&B12&B13&B14&B15&B16). split_and!; congruence. Qed.
Lemma same_refl s : same s s.
Proof. by split_and!. Qed.
Ltac sm := unfold same; split_and!; reflexivity.
Lemma same_backoff s c : same s (backoff s c) /\ (crashed (backoff s c) = crashed s \/ crashed (backoff s c) = Some TooLong) /\ topFail (backoff s c) = topFail s /\ algFail (backoff s c) = algFail s.
Proof.
  unfold backoff. cbv zeta. destruct (2000 <? c)%N; (split; [sm|split; [|split; reflexivity]]); [by right|by left].
Qed.
Lemma back_same s pt pa tf af : same s (back_off s pt pa tf af) /\ (crashed (back_off s pt pa tf af) = crashed s \/ crashed (back_off s pt pa tf af) = Some TooLong).
Proof.
  unfold back_off. destruct (_ && _)%bool; cycle 1. { split; [sm|by left]. }
  set (s1 := if tf then _ else _). assert (H1 : same s s1 /\ (crashed s1 = crashed s \/ crashed s1 = Some TooLong)).
  { unfold s1. destruct tf; [|split; [sm|by left]]. cbv zeta. destruct (same_backoff s (topFail s)) as (B1 & B2 & _). split; [|exact B2]. eapply same_trans; [exact B1|sm]. }
  clearbody s1. destruct H1 as [H1 H2]. destruct (crashed s1) eqn:Ec; [by rewrite Ec|]. destruct af; cycle 1. { split; [eapply same_trans; [exact H1|sm]|]. change (crashed (set_algFail s1 0%N)) with (crashed s1). by rewrite Ec. }
  cbv zeta. destruct (_ =? 0)%N; cycle 1. { split; [eapply same_trans; [exact H1|sm]|]. match goal with |- context [crashed (set_algFail s1 ?x)] => change (crashed (set_algFail s1 x)) with (crashed s1) end. by rewrite Ec. }
  destruct (same_backoff s1 (algFail s1 / 10)) as (B1 & B2 & _). set (s2 := backoff s1 _) in *. clearbody s2. split; [eapply same_trans; [exact H1|]; eapply same_trans; [exact B1|sm]|].
  match goal with |- context [crashed (set_algFail s2 ?x)] => change (crashed (set_algFail s2 x)) with (crashed s2) end. rewrite Ec in B2. destruct B2 as [B2|B2]; [|by right]. rewrite B2. exact H2.
Qed.

Lemma inv_step s w : inv s -> inv (turn s w).
Proof.
  intros HI. apply turn_rect; [done| | | | | |].
  - intros s' c [H1 H2 H3 H4 H5 H6]. destruct c; cbn; try by constructor. destruct (w_next w); by constructor.
  - intros s' [H1 H2 H3 H4 H5 H6]. unfold remit. destruct (epoch s'), (remitC s') eqn:Er, (blockTop s'); cbn; try by constructor; rewrite ?Er.
    destruct (w_rclosed w); constructor; cbn; rewrite ?Er, ?H4; try done. intros Hc. destruct (H6 Hc). done.
  - intros s' [H1 H2 H3 H4 H5 H6]. by constructor.
  - intros s' rc [H1 H2 H3 H4 H5 H6] Hs Hb. destruct (topology_ok s' w rc (H2 Hs) H1 Hs) as (s2 & ag & tf & -> & T). cbn [fst]. cbv zeta in T.
    destruct T as (T1 & T2 & T3 & T4 & T5 & T6 & T7 & T8 & _). constructor; try done.
    + intros Hc. apply T8. congruence.
    + rewrite T2, H3, Hs, T1. done.
    + by rewrite T3, T4.
    + by rewrite T5.
    + rewrite T6. intros Hc. destruct (H6 Hc). congruence.
  - intros s' [H1 H2 H3 H4 H5 H6]. unfold Turn_Model.algorithm. set (c0 := (empty (notes s') && check_term super s' && w_term w)%bool). set (c := if (c0 && super)%bool then w_super w else c0).
    destruct (c && epoch _)%bool eqn:Ee; [destruct (w_resume w); cbn; by constructor|]. destruct (c && blockTop _)%bool eqn:Eb; [cbn; by constructor|]. cbn [fst]. constructor; try done. cbn in *. intros Hc.
    assert (Hc0 : c0 = true) by (unfold c in Hc; destruct c0; done). rewrite Hc in Ee, Eb. cbn in Ee, Eb. unfold c0, check_term in Hc0. rewrite Ee, Eb in Hc0. cbn in Hc0.
    destruct (strucC s'), (remitC s'); try done; rewrite !andb_false_r in Hc0; done.
  - intros s' pt pa tf af _ [H1 H2 H3 H4 H5 H6]. destruct (back_same s' pt pa tf af) as ((B1&B2&B3&B4&B5&B6&B7&B8&B9&B10&B11&B12&B13&B14&B15&B16) & Bc).
    constructor; rewrite ?B5, ?B6, ?B7, ?B8, ?B9, ?B13, ?B14; try done. by destruct Bc as [-> | ->].
Qed.
Lemma inv_start : 0 < base -> inv (tstart zero base).
Proof. intros Hbase. constructor; cbn [tstart pull strucC buff doneE remitC doneR crashed completed b2n]; try done. intros _. rewrite repeat_length. lia. Qed.
Lemma inv_turns ws : forall s, inv s -> inv (turns s ws).
Proof. induction ws as [|w ws IH]; intros s Hs; [done|]. apply (IH (turn s w)). by apply inv_step. Qed.

Definition after_cmd s w : thr := match w_cmd w with Some c => command s c (w_next w) | None => s end.
Definition takes_mail s : bool := (strucC s || negb (topFirst || algIfTop s))%bool.
Definition takes_top s : bool := (negb (strucC s) && negb (blockTop s))%bool.
Lemma turn_split s w (Q : thr -> Prop) : crashed s = None -> completed s = false ->
  (crashed (after_cmd s w) <> None -> Q (after_cmd s w)) ->
  (forall s2 rc, crashed (after_cmd s w) = None -> remit (after_cmd s w) w = (s2, rc) ->
    forall s3, s3 = (if takes_mail s2 then receive s2 w else s2) ->
    forall s4 again tf, (if takes_top s3 then topology s3 w rc else (s3, false, false)) = (s4, again, tf) ->
      (crashed s4 <> None \/ again = true -> Q s4) /\
      (crashed s4 = None -> again = false -> forall s5 af, (if takes_mail s2 then algorithm s4 w else (s4, false)) = (s5, af) ->
        (crashed s5 <> None -> Q s5) /\ (crashed s5 = None -> Q (back_off s5 (takes_top s3) (takes_mail s2) tf af)))) ->
  Q (turn s w).
Proof.
  intros Hc Hd H1 H2. unfold Turn_Model.turn. rewrite Hc, Hd. fold (after_cmd s w). destruct (crashed (after_cmd s w)) eqn:E1; [by apply H1|].
  destruct (remit (after_cmd s w) w) as [s2 rc] eqn:E2. specialize (H2 s2 rc eq_refl eq_refl _ eq_refl). fold (takes_mail s2). fold (takes_top (if takes_mail s2 then receive s2 w else s2)).
  destruct (if takes_top _ then _ else _) as [[s4 again] tf]. specialize (H2 s4 again tf eq_refl) as [H3 H4].
  destruct (crashed s4) eqn:E4; [apply H3; by left|]. destruct again; [apply H3; by right|]. specialize (H4 eq_refl eq_refl).
  destruct (if takes_mail s2 then algorithm s4 w else (s4, false)) as [s5 af]. destruct (H4 s5 af eq_refl) as [H5 H6]. destruct (crashed s5) eqn:E5; [by apply H5|by apply H6].
Qed.

Lemma command_ok s c next : let s' := command s c next in strucC s' = strucC s /\ remitC s' = remitC s /\ pull s' = pull s /\ buff s' = buff s /\ notes s' = notes s /\ handled s' = handled s /\ enacted s' = enacted s /\
  topFail s' = topFail s /\ algFail s' = algFail s /\ slept s' = slept s /\ completed s' = completed s /\ (crashed s' = crashed s \/ crashed s' = Some NotResumed).
Proof. destruct c; cbn [command]; try (destruct next); split_and!; try reflexivity; auto. Qed.
Lemma after_ok s w : let s' := after_cmd s w in strucC s' = strucC s /\ remitC s' = remitC s /\ pull s' = pull s /\ buff s' = buff s /\ notes s' = notes s /\ handled s' = handled s /\ enacted s' = enacted s /\
  topFail s' = topFail s /\ algFail s' = algFail s /\ slept s' = slept s /\ completed s' = completed s /\ (crashed s' = crashed s \/ crashed s' = Some NotResumed).
Proof. cbv zeta. unfold after_cmd. destruct (w_cmd w); [apply command_ok|]. split_and!; try reflexivity. by left. Qed.
Lemma remit_ok s w s2 rc : remit s w = (s2, rc) -> blockTop s2 = blockTop s /\ topSync s2 = topSync s /\ algIfTop s2 = algIfTop s /\ epoch s2 = epoch s /\ strucC s2 = strucC s /\ completed s2 = completed s /\ pull s2 = pull s /\ buff s2 = buff s /\
  topCount s2 = topCount s /\ notes s2 = notes s /\ handled s2 = handled s /\ enacted s2 = enacted s /\ topFail s2 = topFail s /\ algFail s2 = algFail s /\ slept s2 = slept s /\ acks s2 = acks s /\ crashed s2 = crashed s.
Proof.
  unfold remit. destruct (_ && _ && _)%bool; [|intros [= <- <-]; split_and!; reflexivity]. cbv zeta. destruct (w_rclosed w); intros [= <- <-]; split_and!; reflexivity.
Qed.
Lemma algorithm_ok s w s5 af : algorithm s w = (s5, af) -> handled s5 = handled s ++ notes s /\ notes s5 = [] /\ enacted s5 = enacted s /\ blockTop s5 = blockTop s /\ strucC s5 = strucC s /\ topSync s5 = topSync s /\ slept s5 = slept s /\ buff s5 = buff s /\ pull s5 = pull s /\ algIfTop s5 = algIfTop s /\
  (af = true -> notes s = [] /\ epoch s5 = epoch s /\ topFail s5 = topFail s /\ algFail s5 = algFail s /\ crashed s5 = crashed s /\ completed s5 = false) /\
  (af = false -> notes s <> [] \/ w_term w = true) /\
  (crashed s = None -> crashed s5 <> Some TooLong) /\
  (topFail s5 <= topFail s)%N /\ (algFail s5 <= algFail s)%N /\
  (crashed s5 = None -> acks s5 + b2n (epoch s5) = acks s + b2n (epoch s)).
Proof.
  unfold Turn_Model.algorithm. set (c0 := (empty (notes s) && check_term super s && w_term w)%bool). set (c := if (c0 && super)%bool then w_super w else c0). intros H.
  assert (Haf : af = (negb c0 && empty (notes s))%bool). { destruct (c && epoch _)%bool; [by destruct (w_resume w); injection H|]. by destruct (c && blockTop _)%bool; injection H. }
  assert (Hc0 : c = true -> c0 = true) by (unfold c; destruct c0; done).
  assert (Ha1 : af = true -> notes s = [] /\ c = false). { rewrite Haf. intros [A B]%andb_true_iff. split; [by destruct (notes s)|]. destruct c; [|done]. by rewrite Hc0 in A. }
  assert (Ha2 : af = false -> notes s <> [] \/ w_term w = true). { rewrite Haf. intros A. destruct (notes s) eqn:En; [right|by left]. destruct c0 eqn:Ec0; [|done]. unfold c0 in Ec0. by apply andb_true_iff in Ec0 as [_ ?]. }
  destruct (c && epoch _)%bool eqn:Ee.
  - apply andb_true_iff in Ee as [Ec Ee]. change (epoch s = true) in Ee. destruct (w_resume w); injection H as <- <-; (split_and!; try reflexivity; try exact Ha2; try (intros A; destruct (Ha1 A); congruence)); cbn [acks epoch crashed topFail algFail ack set_algFail set_topFail set_completed set_epoch set_acks set_notes set_handled set_crashed]; try done; try congruence; try apply N.le_0_l; try apply N.le_refl; rewrite ?Ee; cbn [b2n]; intros; lia.
  - destruct (c && blockTop _)%bool eqn:Eb.
    + apply andb_true_iff in Eb as [Ec Eb]. injection H as <- <-. split_and!; try reflexivity; try exact Ha2; try (intros A; destruct (Ha1 A); congruence); cbn; try done; lia.
    + injection H as <- <-. split_and!; try reflexivity; try exact Ha2; cbn; try done; try lia; [|congruence]. intros A. destruct (Ha1 A) as [A1 A2]. done.
Qed.
Lemma back_counts s pt pa tf af : crashed s = None -> let s' := back_off s pt pa tf af in
  (topFail s' <= topFail s + (if tf then 1 else 0))%N /\ (algFail s' <= algFail s + (if af then 1 else 0))%N /\
  (crashed s' = Some TooLong -> (tf = true /\ 2000 < topFail s)%N \/ (af = true /\ 20009 < algFail s)%N).
Proof.
  intros Hc. cbv zeta. unfold back_off. destruct (_ && _)%bool; cycle 1. { split_and!; cbn; [lia|lia|]. by rewrite Hc. }
  set (s1 := if tf then _ else _). assert (H1 : (topFail s1 <= topFail s + (if tf then 1 else 0))%N /\ algFail s1 = algFail s /\ (crashed s1 <> None -> tf = true /\ 2000 < topFail s)%N).
  { unfold s1. destruct tf; cbv zeta; [|split_and!; cbn; [lia|done|by rewrite Hc]]. unfold backoff. cbv zeta. destruct (N.ltb_spec 2000 (topFail s)); split_and!; cbn; try done; try lia; by rewrite Hc. }
  clearbody s1. destruct H1 as (H1 & H2 & H3). destruct (crashed s1) eqn:Ec; [split_and!; [done|rewrite H2; destruct af; lia|]; intros _; left; by apply H3|].
  destruct af; cycle 1. { split_and!; [exact H1|cbn; lia|]. change (crashed (set_algFail s1 0%N)) with (crashed s1). by rewrite Ec. }
  cbv zeta. destruct (N.eqb_spec (algFail s1 mod 10) 0) as [Em|Em]; cycle 1. { split_and!; [exact H1|cbn; rewrite H2; lia|]. match goal with |- context [crashed (set_algFail s1 ?x)] => change (crashed (set_algFail s1 x)) with (crashed s1) end. by rewrite Ec. }
  destruct (same_backoff s1 (algFail s1 / 10)) as (_ & _ & B3 & B4). split_and!; [cbn; rewrite B3; exact H1|cbn; rewrite B4, H2; lia|].
  intros Hx. right. split; [done|]. change (crashed (backoff s1 (algFail s1 / 10)) = Some TooLong) in Hx. unfold backoff in Hx. cbv zeta in Hx. destruct (N.ltb_spec 2000 (algFail s1 / 10)) as [Hl|Hl]; [|cbn in Hx; congruence].
  rewrite H2 in *. pose proof (N.div_mod (algFail s) 10 ltac:(done)) as Hdm. rewrite Em in Hdm. lia.
Qed.

(** The counters of failures and the events and notifications that there are. *)
Lemma step_counts s w : 0 < msgmax -> inv s -> crashed s = None -> completed s = false ->
  (topFail (turn s w) <= topFail s + (if empty (w_top w) then 1 else 0))%N /\ (algFail (turn s w) <= algFail s + (if empty (w_mail w) then 1 else 0))%N /\
  (crashed (turn s w) = Some TooLong -> (w_top w = [] /\ 2000 < topFail s)%N \/ (w_mail w = [] /\ 20009 < algFail s)%N).
Proof.
  intros Hmsg HI Hc Hd. destruct (after_ok s w) as (C1&C2&C3&C4&C5&C6&C7&C8&C9&C10&C11&C12).
  apply (turn_split s w (fun s' => (topFail s' <= topFail s + (if empty (w_top w) then 1 else 0))%N /\ (algFail s' <= algFail s + (if empty (w_mail w) then 1 else 0))%N /\
    (crashed s' = Some TooLong -> (w_top w = [] /\ 2000 < topFail s)%N \/ (w_mail w = [] /\ 20009 < algFail s)%N))); [done|done| |].
  - intros Hx. rewrite C8, C9. split_and!; [lia|lia|]. destruct C12 as [-> | ->]; congruence.
  - intros s2 rc Hx Hr s3 E3 s4 again tf E4. destruct (remit_ok _ _ _ _ Hr) as (R1&R2&R3&R4&R5&R6&R7&R8&R9&R10&R11&R12&R13&R14&R15&R16&R17).
    assert (V : topFail s3 = topFail s /\ algFail s3 = algFail s /\ crashed s3 = None /\ pull s3 = pull s /\ buff s3 = buff s /\ strucC s3 = strucC s).
    { subst s3. destruct (takes_mail s2); cbn; split_and!; congruence. } destruct V as (V1&V2&V3&V4&V5&V6).
    assert (T : topFail s4 = topFail s /\ algFail s4 = algFail s /\ crashed s4 = None /\ notes s4 = notes s3 /\ (tf = true -> w_top w = [])).
    { destruct (takes_top s3) eqn:Et; [|injection E4 as <- <- <-; split_and!; done]. unfold takes_top in Et. apply andb_true_iff in Et as [Et _]. apply negb_true_iff in Et.
      destruct (topology_ok s3 w rc) as (s4' & ag' & tf' & E4' & T1&T2&T3&T4&T5&T6&T7&T8&T9&T10&T11&T12&T13&T14&T15&T16&T17&T18&T19&_); [rewrite V4, V5; apply v_buff; [done|congruence]|rewrite V4; by apply v_pull|done|].
      rewrite E4 in E4'. injection E4' as <- <- <-. split_and!; try congruence. intros A. by destruct (T19 A). }
    destruct T as (T1&T2&T3&T4&T5). split.
    + intros _. rewrite T1, T2, T3. split_and!; [lia|lia|done].
    + intros _ _ s5 af E5. assert (A : crashed s5 <> Some TooLong /\ (topFail s5 <= topFail s)%N /\ (algFail s5 <= algFail s)%N /\ (af = true -> w_mail w = [])).
      { destruct (takes_mail s2) eqn:Em; [|injection E5 as <- <-; rewrite T1, T2, T3; split_and!; try done; lia].
        destruct (algorithm_ok _ _ _ _ E5) as (A1&A2&A3&A4&A5&A6&A7&A8&A9&A9b&A10&A11&A12&A13&A14&A15). split_and!; [by apply A12|by rewrite <- T1|by rewrite <- T2|].
        intros A. destruct (A10 A) as (B & _). rewrite T4, E3 in B. cbn in B. apply app_eq_nil in B as [B1 B2]. rewrite B1 in B2. cbn in B2. rewrite Nat.sub_0_r in B2. destruct (w_mail w); [done|]. destruct msgmax; [lia|done]. }
      destruct A as (A1&A2&A3&A4). split.
      * intros Hx5. split_and!; [lia|lia|done].
      * intros Hx5. destruct (back_counts s5 (takes_top s3) (takes_mail s2) tf af Hx5) as (B1&B2&B3).
        assert (Ht : tf = true -> empty (w_top w) = true) by (intros A; by rewrite (T5 A)). assert (Hm : af = true -> empty (w_mail w) = true) by (intros A; by rewrite (A4 A)).
        split_and!; [destruct tf; [rewrite Ht by done|]; destruct (empty (w_top w)); lia|destruct af; [rewrite Hm by done|]; destruct (empty (w_mail w)); lia|].
        intros Hx6. destruct (B3 Hx6) as [[-> Hlt]|[-> Hlt]]; [left; split; [by apply T5|lia]|right; split; [by apply A4|lia]].
Qed.

Lemma topology_fails s w rc : let s' := fst (fst (topology s w rc)) in topFail s' = topFail s /\ algFail s' = algFail s /\ slept s' = slept s /\ (crashed s' = crashed s \/ crashed s' = Some OutOfRange).
Proof.
  cbv zeta. unfold Turn_Model.topology. destruct (fill zero (pull s) 0 (buff s) (w_top w)) as [[[b k] f]|]; [|split_and!; try reflexivity; by right]. cbv zeta.
  set (s1 := if (f && w_tclosed w)%bool then _ else _). assert (H1 : topFail s1 = topFail s /\ algFail s1 = algFail s /\ slept s1 = slept s /\ crashed s1 = crashed s) by (unfold s1; destruct (f && w_tclosed w)%bool; split_and!; reflexivity).
  clearbody s1. destruct H1 as (A1 & A2 & A3 & A4). destruct (negb (k =? 0)).
  - match goal with |- context [grown zero ?x] => set (s2 := x) end. assert (H2 : topFail s2 = topFail s /\ algFail s2 = algFail s /\ slept s2 = slept s /\ crashed s2 = crashed s) by (unfold s2; split_and!; done). clearbody s2. destruct H2 as (C1 & C2 & C3 & C4).
    destruct (grown_same s2) as (_&_&_&_&_&_&_&_&_&G10&G11&_&_&_&G15&_&_&G18). set (s3 := grown zero s2) in *. clearbody s3.
    destruct (_ || _)%bool; [destruct (strucC s3)|destruct series; destruct (strucC s2)]; cbn; split_and!; try congruence; left; congruence.
  - destruct (topSync s1 && _)%bool; cbn; destruct (strucC s1); cbn; split_and!; try congruence; left; congruence.
Qed.

(** What has been slept, against the counters. *)
Definition rested s : Prop := (50 * topFail s * (topFail s + 1) <= slept s /\ 50 * ((algFail s + 9) / 10) * ((algFail s + 9) / 10 + 1) <= slept s)%N.
Definition late s : Prop := crashed s = Some TooLong -> (200500300 <= slept s)%N.
Lemma rested_less s s' : rested s -> (topFail s' <= topFail s)%N -> (algFail s' <= algFail s)%N -> (slept s <= slept s')%N -> rested s'.
Proof.
  intros [R1 R2] H1 H2 H3. assert (H4 : ((algFail s' + 9) / 10 <= (algFail s + 9) / 10)%N) by (apply N.div_le_mono; lia). split; nia.
Qed.
Lemma rested_top s : rested s -> rested (set_topFail (set_slept s (slept s + (topFail s + 1) * 100)) (topFail s + 1))%N.
Proof. intros [R1 R2]. unfold rested. cbn [topFail algFail slept set_topFail set_slept]. split; nia. Qed.
Lemma rested_back s pt pa tf af : crashed s = None -> rested s -> rested (back_off s pt pa tf af) /\ late (back_off s pt pa tf af).
Proof.
  intros Hc HR. unfold back_off. destruct (_ && _)%bool; cycle 1. { split; [|unfold late; cbn; by rewrite Hc]. apply (rested_less s); cbn; try done; lia. }
  set (s1 := if tf then _ else _). assert (H1 : rested s1 /\ late s1).
  { unfold s1. destruct tf; cycle 1. { split; [|unfold late; cbn; by rewrite Hc]. apply (rested_less s); cbn; try done; lia. }
    cbv zeta. unfold backoff. cbv zeta. destruct (N.ltb_spec 2000 (topFail s)).
    - split; [apply (rested_less _ _ (rested_top s HR)); cbn; lia|]. intros _. cbn. destruct HR as [R1 _]. nia.
    - split; [apply (rested_less _ _ (rested_top s HR)); cbn; lia|]. unfold late. cbn. by rewrite Hc. }
  clearbody s1. destruct H1 as [H1 H2]. destruct (crashed s1) eqn:Ec; [done|]. destruct af; cycle 1.
  { split; [|unfold late; cbn; by rewrite Ec]. apply (rested_less s1); cbn; try done; lia. }
  cbv zeta. destruct (N.eqb_spec (algFail s1 mod 10) 0) as [Em|Em]; cycle 1.
  { split; [|unfold late; cbn; by rewrite Ec]. destruct H1 as [R1 R2]. split; cbn; [done|]. assert (((algFail s1 + 1 + 9) / 10 = (algFail s1 + 9) / 10)%N) as ->; [|done].
    pose proof (N.div_mod (algFail s1) 10 ltac:(done)) as Hd. pose proof (N.mod_lt (algFail s1) 10 ltac:(done)) as Hl. set (q := (algFail s1 / 10)%N) in *. set (r := (algFail s1 mod 10)%N) in *.
    transitivity (q + 1)%N; [symmetry; apply (N.div_unique _ _ _ r); lia|apply (N.div_unique _ _ _ (r - 1)); lia]. }
  pose proof (N.div_mod (algFail s1) 10 ltac:(done)) as Hd. rewrite Em in Hd. set (q := (algFail s1 / 10)%N) in *.
  assert (E1 : ((algFail s1 + 9) / 10 = q)%N) by (symmetry; apply (N.div_unique _ _ _ 9); lia). assert (E2 : ((algFail s1 + 1 + 9) / 10 = q + 1)%N) by (symmetry; apply (N.div_unique _ _ _ 0); lia).
  destruct H1 as [R1 R2]. rewrite E1 in R2. unfold backoff. cbv zeta. destruct (N.ltb_spec 2000 q).
  - split; [split; cbn [topFail algFail slept set_algFail set_crashed set_slept]; [lia|rewrite E2; nia]|]. intros _. cbn. nia.
  - split; [split; cbn [topFail algFail slept set_algFail set_crashed set_slept]; [lia|rewrite E2; nia]|]. unfold late. cbn. by rewrite Ec.
Qed.
Lemma rested_step s w : rested s /\ late s -> rested (turn s w) /\ late (turn s w).
Proof.
  intros HR. apply turn_rect; [done| | | | | |].
  - intros s' c [A B]. destruct (command_ok s' c (w_next w)) as (C1&C2&C3&C4&C5&C6&C7&C8&C9&C10&C11&C12). split; [apply (rested_less s'); [done|lia..]|]. unfold late in *. rewrite C10. destruct C12 as [-> | ->]; [done|congruence].
  - intros s' [A B]. destruct (remit s' w) as [s2 rc] eqn:Hr. destruct (remit_ok _ _ _ _ Hr) as (R1&R2&R3&R4&R5&R6&R7&R8&R9&R10&R11&R12&R13&R14&R15&R16&R17). cbn [fst]. split; [apply (rested_less s'); [done|lia..]|]. unfold late in *. by rewrite R15, R17.
  - intros s' [A B]. split; [apply (rested_less s'); [done|cbn; lia..]|]. done.
  - intros s' rc [A B] _ _. destruct (topology_fails s' w rc) as (T1&T2&T3&T4). split; [apply (rested_less s'); [done|lia..]|]. unfold late in *. rewrite T3. destruct T4 as [-> | ->]; [done|congruence].
  - intros s' [A B]. destruct (algorithm s' w) as [s5 af] eqn:Ha. destruct (algorithm_ok _ _ _ _ Ha) as (A1&A2&A3&A4&A5&A6&A7&A8&A9&A9b&A10&A11&A12&A13&A14&A15). cbn [fst].
    split; [apply (rested_less s'); [done|done|done|lia]|]. intros Hx. rewrite A7. apply B. destruct (crashed s') eqn:Ec; [|by destruct A12]. 
    clear - Ha Hx Ec. unfold Turn_Model.algorithm in Ha. cbv zeta in Ha. match type of Ha with (if ?b then _ else _) = _ => destruct b end; [destruct (w_resume w); injection Ha as <- <-; cbn in *; congruence|].
    match type of Ha with (if ?b then _ else _) = _ => destruct b end; injection Ha as <- <-; cbn in *; congruence.
  - intros s' pt pa tf af Hc [A B]. by apply rested_back.
Qed.
End turn.
