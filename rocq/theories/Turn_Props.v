(** C93: one thread's loop: buffers, batches, commands, acknowledgements.  C94: waiting that gives up. *)
From Verif Require Import Base Turn_Model Turn_Proofs.
Open Scope nat_scope.
Local Opaque N.add N.mul N.ltb N.eqb N.modulo N.div.

Section props.
Context {E M : Type} (zero : E) (base msgmax : nat) (topFirst series super : bool).
Notation world := (@world E M).
Notation thr := (@thr E M).
Notation turn := (turn zero msgmax topFirst series super).
Notation turns := (turns zero msgmax topFirst series super).
Notation start := (tstart zero base (M := M)).
Implicit Types (s : thr) (w : world) (ws : list world).

(** Whatever the thread meets: it never reads or writes beyond its buffer of events, however it has grown; it announces the end
    of its input and of its events exactly once each; it only leaves when both have ended. *)
Theorem C93_range ws : 0 < base -> crashed (turns start ws) <> Some OutOfRange.
Proof. intros Hb. apply v_range, inv_turns. by apply inv_start. Qed.
Theorem C93_once ws : 0 < base -> let s := turns start ws in
  doneE s = (if strucC s then 1 else 0) /\ doneR s = (if remitC s then 1 else 0) /\ (completed s = true -> strucC s = true /\ remitC s = true).
Proof. intros Hb s. destruct (inv_turns zero msgmax topFirst series super ws start (inv_start zero base Hb)) as [H1 H2 H3 H4 H5 H6]. done. Qed.

(** Is the topology blocked once the command of this iteration is read?  Is the algorithm? *)
Definition blocked s w : bool :=
  match w_cmd w with Some BLOCK_TOP | Some BLOCK_TOP_ASYNC => true | Some RESUME => false | _ => blockTop s end.
Definition alg_waits s w : bool :=
  (negb (strucC s) && (topFirst || match w_cmd w with Some BLOCK_ALG_IF_TOP => true | _ => algIfTop s end))%bool.

Lemma after_blocks s w : blockTop (after_cmd s w) = blocked s w /\ (takes_mail topFirst (after_cmd s w) = negb (alg_waits s w)).
Proof.
  unfold after_cmd, blocked, takes_mail, alg_waits. destruct (w_cmd w) as [[]|]; cbn [command]; try (destruct (w_next w)); cbn; rewrite ?orb_true_r; destruct (strucC s), (algIfTop s), topFirst; done.
Qed.

Lemma one_turn ws w : 0 < base -> let s := turns start ws in crashed s = None -> completed s = false -> crashed (turn s w) = None ->
  enacted (turn s w) = enacted s ++ (if (strucC s || blocked s w || empty (w_top w))%bool then [] else firstn (pull s) (w_top w) ++ w_more w) /\
  handled (turn s w) ++ notes (turn s w) = handled s ++ notes s ++ (if alg_waits s w then [] else firstn (msgmax - length (notes s)) (w_mail w)) /\
  (length (notes s) <= msgmax -> length (notes (turn s w)) <= msgmax) /\
  (alg_waits s w = true -> handled (turn s w) = handled s).
Proof.
  intros Hb s Hc Hd. assert (HI : inv s) by (apply inv_turns; by apply inv_start). destruct (after_ok s w) as (C1&C2&C3&C4&C5&C6&C7&C8&C9&C10&C11&C12). destruct (after_blocks s w) as [K1 K2].
  apply (turn_split zero msgmax topFirst series super s w (fun x => crashed x = None -> enacted x = enacted s ++ (if (strucC s || blocked s w || empty (w_top w))%bool then [] else firstn (pull s) (w_top w) ++ w_more w) /\
    handled x ++ notes x = handled s ++ notes s ++ (if alg_waits s w then [] else firstn (msgmax - length (notes s)) (w_mail w)) /\ (length (notes s) <= msgmax -> length (notes x) <= msgmax) /\ (alg_waits s w = true -> handled x = handled s))); [done|done|done|].
  intros s2 rc Hx Hr s3 E3 s4 again tf E4. destruct (remit_ok _ _ _ _ Hr) as (R1&R2&R3&R4&R5&R6&R7&R8&R9&R10&R11&R12&R13&R14&R15&R16&R17).
  assert (Em : takes_mail topFirst s2 = negb (alg_waits s w)). { rewrite <- K2. unfold takes_mail. by rewrite R3, R5. } rewrite Em in *.
  assert (V : pull s3 = pull s /\ buff s3 = buff s /\ strucC s3 = strucC s /\ blockTop s3 = blocked s w /\ enacted s3 = enacted s /\ handled s3 = handled s /\ notes s3 = notes s ++ (if alg_waits s w then [] else firstn (msgmax - length (notes s)) (w_mail w)) /\ crashed s3 = None).
  { subst s3. destruct (alg_waits s w); cbn; rewrite ?app_nil_r; split_and!; congruence. } destruct V as (V1&V2&V3&V4&V5&V6&V7&V8).
  assert (T : enacted s4 = enacted s ++ (if (strucC s || blocked s w || empty (w_top w))%bool then [] else firstn (pull s) (w_top w) ++ w_more w) /\ notes s4 = notes s3 /\ handled s4 = handled s).
  { destruct (takes_top s3) eqn:Et.
    - unfold takes_top in Et. rewrite V3, V4 in Et. apply andb_true_iff in Et as [Et1 Et2]. apply negb_true_iff in Et1, Et2.
      destruct (topology_ok zero msgmax series s3 w rc) as (s4' & ag' & tf' & E4' & T1&T2&T3&T4&T5&T6&T7&T8&T9&T10&T11&T12&T13&T14&T15&T16&T17&_); [rewrite V1, V2; by apply v_buff|rewrite V1; by apply v_pull|congruence|].
      rewrite E4 in E4'. injection E4' as <- <- <-. rewrite Et1, Et2. cbn [orb]. split_and!; [by rewrite T17, V5, V1|done|congruence].
    - unfold takes_top in Et. rewrite V3, V4 in Et. injection E4 as <- <- <-. assert ((strucC s || blocked s w)%bool = true) as -> by (by destruct (strucC s), (blocked s w)). cbn. by rewrite app_nil_r. }
  destruct T as (T1 & T2 & T3).
  assert (Hlen : length (notes s) <= msgmax -> length (notes s3) <= msgmax). { intros Hl. rewrite V7, app_length. destruct (alg_waits s w); [cbn; lia|]. rewrite firstn_length. lia. }
  split.
  - intros _ _. rewrite T1, T2, T3. split_and!; [done|by rewrite V7|done|done].
  - intros _ _ s5 af E5. assert (A : enacted s5 = enacted s4 /\ handled s5 ++ notes s5 = handled s ++ notes s3 /\ length (notes s5) <= length (notes s3) /\ (alg_waits s w = true -> handled s5 = handled s)).
    { destruct (alg_waits s w); cbn [negb] in E5; [injection E5 as <- <-; rewrite T2, T3; done|]. destruct (algorithm_ok _ _ _ _ _ E5) as (A1&A2&A3&_). rewrite A1, A2, app_nil_r, T2, T3. split_and!; try done. cbn. lia. }
    destruct A as (A1 & A2 & A3 & A4). split; [intros ? ?; congruence|]. intros Hc5 Hcb. destruct (back_same s5 (takes_top s3) (negb (alg_waits s w)) tf af) as ((B1&B2&B3&B4&B5&B6&B7&B8&B9&B10&B11&B12&B13&B14&B15&B16) & Bc).
    rewrite B11, B15, B16, A1, T1, A2. split_and!; [done|by rewrite V7| |done]. intros Hl. specialize (Hlen Hl). lia.
Qed.

(** In every iteration that does not panic: the events enacted are the next ones of the queue, as many as fit into a batch, in their
    order, followed by the expired edges; none if the topology is blocked or at its end. *)
Theorem C93_batch ws w : 0 < base -> let s := turns start ws in crashed s = None -> completed s = false -> crashed (turn s w) = None ->
  enacted (turn s w) = enacted s ++ (if (strucC s || blocked s w || empty (w_top w))%bool then [] else firstn (pull s) (w_top w) ++ w_more w).
Proof. intros Hb s H1 H2 H3. by apply one_turn. Qed.
(** Notifications are taken while there is room, kept when the loop starts again before the algorithm's turn, and handled once, in order. *)
Theorem C93_mail ws w : 0 < base -> let s := turns start ws in crashed s = None -> completed s = false -> crashed (turn s w) = None ->
  handled (turn s w) ++ notes (turn s w) = handled s ++ notes s ++ (if alg_waits s w then [] else firstn (msgmax - length (notes s)) (w_mail w)).
Proof. intros Hb s H1 H2 H3. by apply one_turn. Qed.

Lemma turns_snoc s ws w : turns s (ws ++ [w]) = turn (turns s ws) w.
Proof. unfold Turn_Model.turns. by rewrite fold_left_app. Qed.
Lemma crash_stays s w : crashed s <> None -> turn s w = s.
Proof. unfold Turn_Model.turn. by destruct (crashed s). Qed.
Lemma done_stays s w : completed s = true -> turn s w = s.
Proof. unfold Turn_Model.turn. intros ->. by destruct (crashed s). Qed.
Theorem C93_room ws : 0 < base -> crashed (turns start ws) = None -> length (notes (turns start ws)) <= msgmax.
Proof.
  intros Hb. induction ws as [|w ws IH] using rev_ind; [cbn; lia|]. rewrite turns_snoc. intros Hc.
  assert (Hc0 : crashed (turns start ws) = None). { destruct (crashed (turns start ws)) eqn:Ec; [|done]. rewrite crash_stays in Hc; congruence. }
  destruct (completed (turns start ws)) eqn:Ed; [rewrite done_stays by done; by apply IH|]. apply one_turn; auto.
Qed.

(** Commands that ask for an answer. *)
Definition asks (c : option cmd) : nat := match c with Some (BLOCK_ALL | BLOCK_TOP | TOP_SYNC | EPOCH) => 1 | _ => 0 end.
(** Nobody asks again before the answer to the same question, nor after the thread has left. *)
Definition polite s w : Prop :=
  completed s = false /\ (w_cmd w = Some TOP_SYNC -> topSync s = false) /\ (w_cmd w = Some EPOCH -> epoch s = false).
Lemma answers_step ws w : 0 < base -> let s := turns start ws in crashed s = None -> polite s w -> crashed (turn s w) = None ->
  acks (turn s w) + b2n (topSync (turn s w)) + b2n (epoch (turn s w)) = acks s + b2n (topSync s) + b2n (epoch s) + asks (w_cmd w).
Proof.
  intros Hb s Hc (Hd & P1 & P2). assert (HI : inv s) by (apply inv_turns; by apply inv_start). destruct (after_ok s w) as (C1&C2&C3&C4&C5&C6&C7&C8&C9&C10&C11&C12).
  assert (K : acks (after_cmd s w) + b2n (topSync (after_cmd s w)) + b2n (epoch (after_cmd s w)) = acks s + b2n (topSync s) + b2n (epoch s) + asks (w_cmd w)).
  { clearbody s. unfold after_cmd. destruct (w_cmd w) as [[]|] eqn:Ecm; cbn [command asks]; try (destruct (w_next w)); cbn [acks topSync epoch ack set_acks set_blockTop set_crashed set_algIfTop set_topSync set_epoch b2n]; try (clear; lia).
    all: first [rewrite (P1 eq_refl)|rewrite (P2 eq_refl)]; cbn [b2n]; clear; lia. }
  apply (turn_split zero msgmax topFirst series super s w (fun x => crashed x = None -> acks x + b2n (topSync x) + b2n (epoch x) = acks s + b2n (topSync s) + b2n (epoch s) + asks (w_cmd w))); [done|done|done|].
  intros s2 rc Hx Hr s3 E3 s4 again tf E4. destruct (remit_ok _ _ _ _ Hr) as (R1&R2&R3&R4&R5&R6&R7&R8&R9&R10&R11&R12&R13&R14&R15&R16&R17).
  assert (V : pull s3 = pull s /\ buff s3 = buff s /\ strucC s3 = strucC s /\ acks s3 = acks (after_cmd s w) /\ topSync s3 = topSync (after_cmd s w) /\ epoch s3 = epoch (after_cmd s w)).
  { subst s3. destruct (takes_mail topFirst s2); cbn; split_and!; congruence. } destruct V as (V1&V2&V3&V4&V5&V6).
  assert (T : acks s4 + b2n (topSync s4) + b2n (epoch s4) = acks s + b2n (topSync s) + b2n (epoch s) + asks (w_cmd w)).
  { destruct (takes_top s3) eqn:Et; [|injection E4 as <- <- <-; by rewrite V4, V5, V6].
    unfold takes_top in Et. rewrite V3 in Et. apply andb_true_iff in Et as [Et1 Et2]. apply negb_true_iff in Et1.
    destruct (topology_ok zero msgmax series s3 w rc) as (s4' & ag' & tf' & E4' & T1&T2&T3&T4&T5&T6&T7&T8&T9&T10&T11&T12&T13&T14&T15&T16&T17&T18&_); [rewrite V1, V2; by apply v_buff|rewrite V1; by apply v_pull|congruence|].
    rewrite E4 in E4'. injection E4' as <- <- <-. rewrite T11, V6. rewrite V4, V5 in T18. lia. }
  split; [done|]. intros _ _ s5 af E5. split; [done|]. intros Hc5 _. destruct (back_same s5 (takes_top s3) (takes_mail topFirst s2) tf af) as ((B1&B2&B3&B4&B5&B6&B7&B8&B9&B10&B11&B12&B13&B14&B15&B16) & Bc). rewrite B2, B4, B12.
  destruct (takes_mail topFirst s2); [|by injection E5 as <- <-]. destruct (algorithm_ok _ _ _ _ _ E5) as (A1&A2&A3&A4&A5&A6&A7&A8&A9&A9b&A10&A11&A12&A13&A14&A15). specialize (A15 Hc5). rewrite A6. lia.
Qed.
(** Every such command is answered at most once, and exactly once when no TOP_SYNC or EPOCH is pending. *)
Theorem C93_answers ws : 0 < base -> (forall ws1 w ws2, ws = ws1 ++ w :: ws2 -> polite (turns start ws1) w) ->
  let s := turns start ws in crashed s = None ->
  acks s + (if topSync s then 1 else 0) + (if epoch s then 1 else 0) = fold_right (fun w k => asks (w_cmd w) + k) 0 ws.
Proof.
  intros Hb. cbv zeta. induction ws as [|w ws IH] using rev_ind; [done|]. intros HP. rewrite turns_snoc. intros Hc.
  assert (Hc0 : crashed (turns start ws) = None). { destruct (crashed (turns start ws)) eqn:Ec; [|done]. rewrite crash_stays in Hc; congruence. }
  assert (Hf : forall l k, fold_right (fun w k => asks (w_cmd w) + k) k l = fold_right (fun (w : world) k => asks (w_cmd w) + k) 0 l + k) by (induction l as [|x l IHl]; intros k; cbn; [done|rewrite IHl; lia]).
  rewrite fold_right_app, Hf. cbn [fold_right]. rewrite <- IH; [|intros ws1 w' ws2 ->; apply (HP _ _ (ws2 ++ [w])); by rewrite <- app_assoc|done].
  pose proof (answers_step ws w Hb Hc0 (HP ws w [] eq_refl) Hc) as HA. unfold b2n in HA. lia.
Qed.

(** TOP_SYNC to a thread whose events have ended, or whose topology stays blocked, is never answered. *)
Lemma sync_step s w : topSync s = true -> (strucC s || blocked s w)%bool = true -> topSync (turn s w) = true /\ (strucC s = true -> strucC (turn s w) = true) /\ blockTop (turn s w) = blocked s w \/ crashed (turn s w) <> None \/ completed s = true.
Proof.
  intros Ht Hs. destruct (crashed s) eqn:Hc; [right; left; rewrite crash_stays; congruence|]. destruct (completed s) eqn:Hd; [by right; right|]. destruct (after_ok s w) as (C1&C2&C3&C4&C5&C6&C7&C8&C9&C10&C11&C12). destruct (after_blocks s w) as [K1 K2].
  assert (K3 : topSync (after_cmd s w) = true). { unfold after_cmd. destruct (w_cmd w) as [[]|]; cbn [command]; try (destruct (w_next w)); done. }
  apply (turn_split zero msgmax topFirst series super s w (fun x => topSync x = true /\ (strucC s = true -> strucC x = true) /\ blockTop x = blocked s w \/ crashed x <> None \/ false = true)); [done|done|by right; left|].
  intros s2 rc Hx Hr s3 E3 s4 again tf E4. destruct (remit_ok _ _ _ _ Hr) as (R1&R2&R3&R4&R5&R6&R7&R8&R9&R10&R11&R12&R13&R14&R15&R16&R17).
  assert (V : strucC s3 = strucC s /\ topSync s3 = true /\ blockTop s3 = blocked s w) by (subst s3; destruct (takes_mail topFirst s2); cbn; split_and!; congruence). destruct V as (V3&V4&V5).
  assert (Et : takes_top s3 = false). { unfold takes_top. rewrite V3, V5. by destruct (strucC s), (blocked s w). } rewrite Et in E4. injection E4 as <- <- <-. split; [intros [?|?]; [by right; left|done]|].
  intros _ _ s5 af E5. split; [by right; left|]. intros Hc5. left. destruct (back_same s5 (takes_top s3) (takes_mail topFirst s2) false af) as ((B1&B2&B3&B4&B5&B6&B7&B8&B9&B10&B11&B12&B13&B14&B15&B16) & Bc). rewrite Et in *. rewrite B1, B2, B5.
  destruct (takes_mail topFirst s2); [|injection E5 as <- <-; split_and!; congruence]. destruct (algorithm_ok _ _ _ _ _ E5) as (A1&A2&A3&A4&A5&A6&_). split_and!; congruence.
Qed.
Theorem C93_sync_lost_refuted s ws : strucC s = true -> topSync s = true -> topSync (turns s ws) = true \/ crashed (turns s ws) <> None.
Proof.
  intros Hs Ht. assert (H : (topSync (turns s ws) = true /\ strucC (turns s ws) = true) \/ crashed (turns s ws) <> None).
  { induction ws as [|w ws IH] using rev_ind; [by left|]. rewrite turns_snoc. destruct IH as [[I1 I2]|I]; [|right; by rewrite crash_stays]. 
    destruct (sync_step (turns s ws) w I1) as [(S1&S2&_)|[S|S]]; [by rewrite I2|left; split; [done|by apply S2]|by right|]. left. by rewrite done_stays. }
  destruct H as [[? _]|?]; [by left|by right].
Qed.

Definition no_cmd w : world := World None (w_next w) (w_resume w) (w_rclosed w) (w_rcount w) (w_mail w) (w_top w) (w_tclosed w) (w_more w) (w_edges w) (w_term w) (w_super w).
Lemma turn_after s w : crashed s = None -> completed s = false -> crashed (after_cmd s w) = None -> turn s w = turn (after_cmd s w) (no_cmd w).
Proof.
  intros Hc Hd Ha. destruct (after_ok s w) as (C1&C2&C3&C4&C5&C6&C7&C8&C9&C10&C11&C12). unfold Turn_Model.turn. rewrite Hc, Hd, Ha, C11, Hd. fold (after_cmd s w). rewrite Ha. cbn [w_cmd no_cmd]. rewrite Ha. by destruct w.
Qed.

(** BLOCK_ALG_IF_TOP (or TOPOLOGY_FIRST): no notification is handled before the end of the events. *)
Theorem C93_top_first ws w0 : 0 < base -> w_cmd w0 = Some BLOCK_ALG_IF_TOP -> strucC (turns start (w0 :: ws)) = false ->
  crashed (turns start (w0 :: ws)) = None -> handled (turns start (w0 :: ws)) = [].
Proof.
  intros Hb H0. assert (G : forall s w, algIfTop s = true -> algIfTop (turn s w) = true).
  { intros s w Ha. apply (turn_rect zero msgmax topFirst series super (fun s => algIfTop s = true) s w); [done| | | | | |].
    - intros s' c H. destruct c; cbn; try done. by destruct (w_next w).
    - intros s' H. destruct (remit s' w) as [s2 rc] eqn:Hr. destruct (remit_ok _ _ _ _ Hr) as (R1&R2&R3&_). cbn. by rewrite R3.
    - done.
    - intros s' rc H _ _. unfold Turn_Model.topology. destruct (fill _ _ _ _ _) as [[[b k] f]|]; [|done]. cbv zeta. set (s1 := if (f && w_tclosed w)%bool then _ else _). assert (H1 : algIfTop s1 = true) by (unfold s1; by destruct (f && w_tclosed w)%bool). clearbody s1.
      destruct (negb (k =? 0)).
      + match goal with |- context [grown zero ?x] => set (s2 := x) end. assert (H2 : algIfTop s2 = true) by done. clearbody s2. destruct (grown_same zero s2) as (_&_&G3&_). set (s3 := grown zero s2) in *. clearbody s3.
        destruct (_ || _)%bool; [destruct (strucC s3)|destruct series; destruct (strucC s2)]; cbn; congruence.
      + destruct (topSync s1 && _)%bool; cbn; by destruct (strucC s1).
    - intros s' H. destruct (algorithm super s' w) as [s5 af] eqn:Ha5. destruct (algorithm_ok _ _ _ _ _ Ha5) as (A1&A2&A3&A4&A5&A6&A7&A8&A9&A9b&_). cbn. congruence.
    - intros s' pt pa tf af _ H. destruct (back_same s' pt pa tf af) as ((B1&B2&B3&_) & _). congruence. }
  assert (Hmon : forall s w, strucC (turn s w) = false -> strucC s = false).
  { intros s w. destruct (strucC s) eqn:Es; [|done]. apply (turn_rect zero msgmax topFirst series super (fun s => strucC s = false -> true = false) s w); [congruence| | | | | |].
    - intros s' c H. destruct (command_ok s' c (w_next w)) as (-> & _). done.
    - intros s' H. destruct (remit s' w) as [s2 rc] eqn:Hr. destruct (remit_ok _ _ _ _ Hr) as (R1&R2&R3&R4&R5&_). cbn. by rewrite R5.
    - done.
    - intros s' rc H Hs _. by specialize (H Hs).
    - intros s' H. destruct (algorithm super s' w) as [s5 af] eqn:Ha5. destruct (algorithm_ok _ _ _ _ _ Ha5) as (A1&A2&A3&A4&A5&_). cbn. by rewrite A5.
    - intros s' pt pa tf af _ H. destruct (back_same s' pt pa tf af) as ((B1&B2&B3&B4&B5&_) & _). by rewrite B5. }
  induction ws as [|w ws IH] using rev_ind.
  - intros Hs Hc. assert (R : handled (turn (turns start []) w0) = handled start); [|exact R]. apply one_turn; [done|done|done|exact Hc|]. unfold alg_waits. rewrite H0. cbn. by rewrite orb_true_r.
  - change (w0 :: ws ++ [w]) with ((w0 :: ws) ++ [w]). rewrite turns_snoc. intros Hs Hc. assert (Hc0 : crashed (turns start (w0 :: ws)) = None). { destruct (crashed (turns start (w0 :: ws))) eqn:Ec; [|done]. rewrite crash_stays in Hc; congruence. }
    specialize (IH (Hmon _ _ Hs) Hc0). destruct (completed (turns start (w0 :: ws))) eqn:Ed; [by rewrite done_stays|].
    destruct (one_turn (w0 :: ws) w Hb Hc0 Ed Hc) as (_ & _ & _ & R). rewrite R; [done|]. unfold alg_waits. rewrite (Hmon _ _ Hs). cbn [negb andb].
    assert (Ha : forall l s, algIfTop s = true -> algIfTop (turns s l) = true). { induction l as [|x l IHl]; intros s0 Hs0; [done|]. apply (IHl (turn s0 x)). by apply G. }
    assert (algIfTop (turns start (w0 :: ws)) = true) as Ha2.
    { change (turns start (w0 :: ws)) with (turns (turn start w0) ws). apply Ha. rewrite (turn_after start w0) by (done || (unfold after_cmd; by rewrite H0)). apply G. unfold after_cmd. by rewrite H0. }
    rewrite Ha2. destruct (w_cmd w) as [[]|]; by rewrite orb_true_r.
Qed.

(** No thread gives up before it has slept for 200.5 seconds in all. *)
Theorem C94_patience ws : crashed (turns start ws) = Some TooLong -> (200500300 <= slept (turns start ws))%N.
Proof.
  assert (H : forall l s, rested s /\ late s -> rested (turns s l) /\ late (turns s l)). { induction l as [|w l IH]; intros s Hs; [done|]. apply (IH (turn s w)). by apply rested_step. }
  apply (H ws start). split; [split; done|done].
Qed.

(** Nor with at most 2001 iterations that find no event and 20010 that find no notification. *)
Definition idle {A} (f : world -> list A) ws : N := N.of_nat (length (List.filter (fun w => empty (f w)) ws)).
Theorem C94_bound ws : 0 < base -> 0 < msgmax -> (idle w_top ws <= 2001)%N -> (idle w_mail ws <= 20010)%N -> crashed (turns start ws) <> Some TooLong.
Proof.
  intros Hb Hm. assert (H : (topFail (turns start ws) <= idle w_top ws)%N /\ (algFail (turns start ws) <= idle w_mail ws)%N /\ ((idle w_top ws <= 2001)%N -> (idle w_mail ws <= 20010)%N -> crashed (turns start ws) <> Some TooLong)); [|apply H].
  induction ws as [|w ws IH] using rev_ind; [by split_and!|]. destruct IH as (I1 & I2 & I3). rewrite turns_snoc.
  assert (Hi : forall A (f : world -> list A), idle f (ws ++ [w]) = (idle f ws + if empty (f w) then 1 else 0)%N). { intros A f. unfold idle. rewrite List.filter_app, app_length. cbn. destruct (empty (f w)); cbn [length]; lia. }
  rewrite !Hi. destruct (crashed (turns start ws)) eqn:Hc; [rewrite crash_stays by congruence; rewrite Hc; destruct (empty (w_top w)), (empty (w_mail w)); split_and!; try lia; intros; apply I3; lia|].
  destruct (completed (turns start ws)) eqn:Hd; [rewrite done_stays by done; rewrite Hc; destruct (empty (w_top w)), (empty (w_mail w)); split_and!; try lia; done|].
  destruct (step_counts zero msgmax topFirst series super (turns start ws) w Hm) as (S1 & S2 & S3); [apply inv_turns; by apply inv_start|done|done|]. split_and!; [lia|lia|].
  intros H1 H2 Hx. destruct (S3 Hx) as [[S4 S5]|[S4 S5]]; rewrite S4 in *; cbn in *; lia.
Qed.

(** Without a time series, an iteration with events, but less than a full batch, sets both counters back. *)
Theorem C94_reset ws w : 0 < base -> let s := turns start ws in crashed s = None -> completed s = false -> crashed (turn s w) = None ->
  series = false -> w_cmd w = None -> strucC s = false -> blockTop s = false -> topSync s = false -> w_top w <> [] -> length (w_top w) < pull s ->
  topFail (turn s w) = 0%N /\ algFail (turn s w) = 0%N.
Proof.
  intros Hb s Hc Hd Hcr Hser Hcmd Hst Hbt Hty Hw Hl. assert (HI : inv s) by (apply inv_turns; by apply inv_start). clearbody s. revert Hcr.
  apply (turn_split zero msgmax topFirst series super s w (fun x => crashed x = None -> topFail x = 0%N /\ algFail x = 0%N)); [done|done|done|]. unfold after_cmd. rewrite Hcmd.
  intros s2 rc Hx Hr s3 E3 s4 again tf E4. destruct (remit_ok _ _ _ _ Hr) as (R1&R2&R3&R4&R5&R6&R7&R8&R9&R10&R11&R12&R13&R14&R15&R16&R17).
  assert (V : pull s3 = pull s /\ buff s3 = buff s /\ strucC s3 = false /\ blockTop s3 = false /\ topSync s3 = false) by (subst s3; destruct (takes_mail topFirst s2); cbn; split_and!; congruence). destruct V as (V1&V2&V3&V4&V5).
  assert (Et : takes_top s3 = true) by (unfold takes_top; by rewrite V3, V4). rewrite Et in *.
  destruct (topology_ok zero msgmax series s3 w rc) as (s4' & ag' & tf' & E4' & T1&T2&T3&T4&T5&T6&T7&T8&T9&T10&T11&T12&T13&T14&T15&T16&T17&T18&T19&T20&T21&T22&_); [rewrite V1, V2; by apply v_buff|rewrite V1; by apply v_pull|done|].
  rewrite E4 in E4'. injection E4' as <- <- <-. assert (Ha : again = false) by (apply T22; [done|done|by rewrite V1|done]). assert (Htf : tf = false) by (destruct tf; [by destruct (T19 eq_refl)|done]). subst again tf.
  split; [intros [?|?]; congruence|]. intros _ _ s5 af E5. split; [congruence|]. intros _ _. done.
Qed.

(** The batch limit: it starts at [base] and doubles, never when it has reached 2^26; so it stays below 2^27 (if [base] is) and never wraps. *)
Definition doubles s s' : Prop := pull s' = pull s \/ ((N.of_nat (pull s) < 2 ^ 26)%N /\ pull s' = 2 * pull s).
Lemma grown_doubles s : doubles s (grown zero s).
Proof.
  unfold grown. destruct (N.ltb_spec (N.of_nat (pull s)) (Z.to_N (edges s mod 2 ^ 32) / 64)); [|by left]. right. split.
  - pose proof (Z.mod_pos_bound (edges s) (2 ^ 32) ltac:(lia)) as Hm. assert (Hd : (Z.to_N (edges s mod 2 ^ 32) / 64 <= 2 ^ 26)%N); [|lia].
    apply N.div_le_upper_bound; [done|]. change (64 * 2 ^ 26)%N with 4294967296%N. change (2 ^ 32)%Z with 4294967296%Z in *. lia.
  - cbv zeta. destruct (_ <? _); reflexivity.
Qed.
Lemma topology_doubles s w rc : doubles s (fst (fst (topology zero series s w rc))).
Proof.
  unfold Turn_Model.topology. destruct (fill zero (pull s) 0 (buff s) (w_top w)) as [[[b k] f]|]; [|by left]. cbv zeta.
  set (s1 := if (f && w_tclosed w)%bool then _ else _). assert (H1 : pull s1 = pull s) by (unfold s1; destruct (f && w_tclosed w)%bool; reflexivity).
  clearbody s1. destruct (negb (k =? 0)).
  - match goal with |- context [grown zero ?x] => set (s2 := x) end. assert (H2 : pull s2 = pull s) by (unfold s2; done). clearbody s2.
    pose proof (grown_doubles s2) as G. unfold doubles in *. rewrite H2 in *. set (s3 := grown zero s2) in *. clearbody s3.
    destruct (_ || _)%bool; [destruct (strucC s3)|destruct series; destruct (strucC s2)]; cbn; try done; left; congruence.
  - left. destruct (topSync s1 && _)%bool; cbn; destruct (strucC s1); cbn; congruence.
Qed.
Lemma turn_doubles s w : doubles s (turn s w).
Proof.
  unfold Turn_Model.turn. destruct (crashed s); [by left|]. destruct (completed s); [by left|]. cbv zeta.
  destruct (after_ok s w) as (_&_&A&_). change (match w_cmd w with Some c => command s c (w_next w) | None => s end) with (after_cmd s w).
  set (s1 := after_cmd s w) in *. clearbody s1. destruct (crashed s1); [by left|]. destruct (remit s1 w) as [s2 rc] eqn:E2.
  destruct (remit_ok s1 w s2 rc E2) as (_&_&_&_&_&_&B&_). clear E2. set (pa := (strucC s2 || negb (topFirst || algIfTop s2))%bool). clearbody pa.
  assert (C : pull (if pa then receive msgmax s2 w else s2) = pull s) by (destruct pa; cbn; congruence).
  set (s3 := if pa then receive msgmax s2 w else s2) in *. clearbody s3. set (pt := (negb (strucC s3) && negb (blockTop s3))%bool). clearbody pt.
  pose proof (topology_doubles s3 w rc) as T.
  assert (T' : doubles s (fst (fst (if pt then topology zero series s3 w rc else (s3, false, false))))).
  { destruct pt; [|by left]. unfold doubles in *. by rewrite C in *. }
  clear T. destruct (if pt then topology zero series s3 w rc else (s3, false, false)) as [[s4 again] tf]. cbn [fst] in T'.
  destruct (crashed s4); [done|]. destruct again; [done|].
  assert (D : forall s5 af, (if pa then algorithm super s4 w else (s4, false)) = (s5, af) -> pull s5 = pull s4).
  { intros s5 af. destruct pa; [|by intros [= <- <-]]. intros E5. by destruct (algorithm_ok super s4 w s5 af E5) as (_&_&_&_&_&_&_&_&P&_). }
  destruct (if pa then algorithm super s4 w else (s4, false)) as [s5 af]. specialize (D _ _ eq_refl).
  unfold doubles in *. destruct (crashed s5); [rewrite D; done|]. destruct (back_same s5 pt pa tf af) as [(_&_&_&_&_&_&_&P&_) _]. rewrite P, D. done.
Qed.
Theorem C93_growth ws : (exists k, pull (turns start ws) = base * 2 ^ k) /\ (N.of_nat (pull (turns start ws)) <= N.max (N.of_nat base) (2 ^ 27))%N.
Proof.
  induction ws as [|w ws IH] using rev_ind. { split; [exists 0; cbn; lia|]. cbn [Turn_Model.turns fold_left tstart pull]. apply N.le_max_l. }
  unfold Turn_Model.turns in *. rewrite fold_left_app. cbn [fold_left]. destruct IH as [[k Hk] Hn]. set (s := fold_left turn ws start) in *. clearbody s.
  destruct (turn_doubles s w) as [Hd|[Hlt Hd]]; rewrite Hd. { split; [by exists k|done]. }
  split. { exists (S k). rewrite Hk, Nat.pow_succ_r'. lia. }
  etransitivity; [|apply N.le_max_r]. rewrite Nat2N.inj_mul. change (N.of_nat 2) with 2%N. change (2 ^ 27)%N with (2 * 2 ^ 26)%N. apply N.mul_le_mono_l. lia.
Qed.
End props.

(** The static loop. *)
Section static.
Context {E M : Type} (zero : E) (base msgmax : nat) (super : bool).
Notation world := (@world E M).
Notation thr := (@thr E M).
Notation turn_static := (turn_static msgmax super).
Notation turns_static := (turns_static msgmax super).
Implicit Types (s : thr) (w : world) (ws : list world).

Lemma static_step s w : crashed s = None -> completed s = false -> 
  (crashed (turn_static s w) = Some NoTopology <-> (w_cmd w = Some BLOCK_TOP \/ w_cmd w = Some BLOCK_ALG_IF_TOP \/ w_cmd w = Some TOP_SYNC)) /\
  (crashed (turn_static s w) = None -> notes s = [] -> handled (turn_static s w) = handled s ++ firstn msgmax (w_mail w) /\ notes (turn_static s w) = []) /\
  (0 < msgmax -> (algFail (turn_static s w) <= algFail s + if empty (w_mail w) then 1 else 0)%N /\ (crashed (turn_static s w) = Some TooLong -> w_mail w = [] /\ 200100 <= algFail s + 1)%N).
Proof.
  intros Hc Hd. unfold Turn_Model.turn_static. rewrite Hc, Hd. set (s1 := match w_cmd w with Some c => _ | None => s end).
  assert (H1 : (crashed s1 = Some NoTopology <-> (w_cmd w = Some BLOCK_TOP \/ w_cmd w = Some BLOCK_ALG_IF_TOP \/ w_cmd w = Some TOP_SYNC)) /\ handled s1 = handled s /\ notes s1 = notes s /\ algFail s1 = algFail s /\ crashed s1 <> Some TooLong).
  { unfold s1. destruct (w_cmd w) as [[]|]; cbn [command_static]; try (destruct (w_next w)); cbn; rewrite ?Hc; (split_and!; [split; [done|]|done..]) || (split_and!; [split; [|done]|done..]); try (by intros _; auto); intros [?|[?|?]]; done. }
  clearbody s1. destruct H1 as (A1 & A2 & A3 & A4 & A5). destruct (crashed s1) eqn:E1; [rewrite E1; split_and!; [done|done|]; intros _; split; [rewrite A4; destruct (empty (w_mail w)); lia|congruence]|].
  assert (A1' : ~ (w_cmd w = Some BLOCK_TOP \/ w_cmd w = Some BLOCK_ALG_IF_TOP \/ w_cmd w = Some TOP_SYNC)) by (intros H; by apply A1 in H).
  set (s2 := receive msgmax s1 w). set (c := (empty (notes s2) && w_term w)%bool). set (s3 := if (negb c && empty (notes s2))%bool then _ else _).
  assert (N2 : 0 < msgmax -> empty (notes s2) = true -> empty (w_mail w) = true). { unfold s2. cbn. intros Hm. destruct (notes s1); [|done]. cbn. rewrite Nat.sub_0_r. destruct (w_mail w); [done|]. by destruct msgmax; [lia|]. }
  assert (H3 : handled s3 = handled s /\ notes s3 = notes s2 /\ (crashed s3 = None \/ crashed s3 = Some TooLong) /\ (0 < msgmax -> (algFail s3 <= algFail s + if empty (w_mail w) then 1 else 0)%N /\ (crashed s3 = Some TooLong -> w_mail w = [] /\ 200100 <= algFail s + 1)%N)).
  { unfold s3. destruct (negb c && empty (notes s2))%bool eqn:En; cycle 1. { split_and!; [done|done|by left|]. intros _. cbn. split; [destruct (empty (w_mail w)); lia|congruence]. }
    apply andb_true_iff in En as [_ En]. change (algFail (set_algFail s2 (algFail s2 + 1)%N)) with (algFail s2 + 1)%N. change (algFail s2) with (algFail s1). rewrite A4. unfold backoff. cbv zeta.
    destruct (N.eqb_spec ((algFail s + 1) mod 100) 0) as [Em|Em]; [destruct (N.ltb_spec 2000 ((algFail s + 1) / 100))|].
    - split_and!; [done|done|by right|]. intros Hm. cbn. rewrite (N2 Hm En). split; [lia|]. intros _. split; [by specialize (N2 Hm En); destruct (w_mail w)|]. pose proof (N.div_mod (algFail s + 1) 100 ltac:(done)). lia.
    - split_and!; [done|done|by left|]. intros Hm. cbn. rewrite (N2 Hm En). split; [lia|congruence].
    - split_and!; [done|done|by left|]. intros Hm. cbn. rewrite (N2 Hm En). split; [lia|congruence]. }
  clearbody s3. destruct H3 as (B1 & B2 & B3 & B4). destruct (crashed s3) eqn:E3; [rewrite E3; split_and!; [split; [by destruct B3; congruence|done]|done|done]|].
  set (d := if (c && super)%bool then w_super w else c). match goal with |- context [(d && ?e)%bool] => destruct (d && e)%bool end; [destruct (w_resume w)|]; cbn; rewrite ?E3, ?B1, ?B2; unfold s2; cbn; rewrite ?A3;
    (split_and!; [split; [done|by intros H; destruct (A1' H)]| |]); try done; try (intros _ ->; cbn; by rewrite Nat.sub_0_r); intros Hm; destruct (B4 Hm) as [B5 B6]; (split; [try lia; destruct (empty (w_mail w)); lia|done]).
Qed.
(** Commands about the topology panic, and only these do so. *)
Theorem C93_static_commands s w : crashed s = None -> completed s = false ->
  (crashed (turn_static s w) = Some NoTopology <-> (w_cmd w = Some BLOCK_TOP \/ w_cmd w = Some BLOCK_ALG_IF_TOP \/ w_cmd w = Some TOP_SYNC)).
Proof. intros H1 H2. by apply static_step. Qed.
Theorem C93_static_mail s w : crashed s = None -> completed s = false -> crashed (turn_static s w) = None -> notes s = [] ->
  handled (turn_static s w) = handled s ++ firstn msgmax (w_mail w) /\ notes (turn_static s w) = [].
Proof. intros H1 H2 H3 H4. by apply static_step. Qed.
Theorem C94_static_bound ws : 0 < msgmax -> (idle w_mail ws < 200100)%N -> crashed (turns_static (tstart zero base) ws) <> Some TooLong.
Proof.
  intros Hm. assert (H : (algFail (turns_static (tstart zero base) ws) <= idle w_mail ws)%N /\ ((idle w_mail ws < 200100)%N -> crashed (turns_static (tstart zero base) ws) <> Some TooLong)); [|apply H].
  induction ws as [|w ws IH] using rev_ind; [by split_and!|]. destruct IH as (I2 & I3). unfold Turn_Model.turns_static in *. rewrite fold_left_app. cbn [fold_left]. set (s := fold_left turn_static ws (tstart zero base)) in *.
  assert (Hi : idle w_mail (ws ++ [w]) = (idle w_mail ws + if empty (w_mail w) then 1 else 0)%N). { unfold idle. rewrite List.filter_app, app_length. cbn. destruct (empty (w_mail w)); cbn [length]; lia. } rewrite Hi.
  destruct (crashed s) eqn:Hc. { assert (turn_static s w = s) as -> by (unfold Turn_Model.turn_static; by rewrite Hc). rewrite Hc. split; [destruct (empty (w_mail w)); lia|]. intros Hl. apply I3. destruct (empty (w_mail w)); lia. }
  destruct (completed s) eqn:Hd. { assert (turn_static s w = s) as -> by (unfold Turn_Model.turn_static; by rewrite Hc, Hd). rewrite Hc. split; [destruct (empty (w_mail w)); lia|done]. }
  destruct (static_step s w Hc Hd) as (_ & _ & S). destruct (S Hm) as [S1 S2]. split; [lia|]. intros Hl Hx. destruct (S2 Hx) as [S3 S4]. rewrite S3 in *. cbn in *. lia.
Qed.
End static.

(** With a time series such iterations do not: a thread that gets an event in every second iteration gives up after 2002 idle ones. *)
Definition calm : @world nat nat := World None RESUME RESUME false 0 [] [] false [] 0 false false.
Definition busy : @world nat nat := World None RESUME RESUME false 0 [] [7] false [] 1 false false.
Definition off_on (k : nat) : list (@world nat nat) := concat (repeat [busy; calm] k).
Theorem C94_series_refuted : let ws := off_on (N.to_nat 2002) in
  crashed (turns 0 4 false true false (tstart 0 2) ws) = Some TooLong /\ length (enacted (turns 0 4 false true false (tstart 0 2) ws)) = N.to_nat 2002 /\
  crashed (turns 0 4 false false false (tstart 0 2) ws) = None /\ topFail (turns 0 4 false false false (tstart 0 2) ws) = 1%N.
Proof. vm_compute. done. Qed.

(** The waiting inside a queue: it ends with the first look that finds what it waits for, if that is among the first 2002; else it panics. *)
Theorem C94_slow_ready looks n : slow 0 looks = Ready n <-> (n <= 2001)%N /\ exists l, looks = repeat false (N.to_nat n) ++ true :: l.
Proof.
  assert (H : forall looks f, (f <= 2002)%N -> slow f looks = Ready n <-> (f <= n <= 2001 \/ (f = n /\ n = 2002))%N /\ exists l, looks = repeat false (N.to_nat (n - f)) ++ true :: l).
  { clear looks. induction looks as [|[] l IH]; intros f Hf; cbn [slow].
    - split; [done|]. intros (_ & l & H). destruct (N.to_nat (n - f)); done.
    - split; [intros [= <-]; split; [lia|]; exists l; by rewrite N.sub_diag|]. intros (H1 & l' & H2). f_equal. destruct (N.to_nat (n - f)) eqn:E; [lia|done].
    - destruct (N.ltb_spec 2000 f).
      + split; [done|]. intros (H1 & l' & H2). exfalso. assert (Hz : N.to_nat (n - f) = 0) by lia. by rewrite Hz in H2.
      + rewrite IH by lia. split; intros (H1 & l' & H2).
        * split; [lia|]. exists l'. replace (N.to_nat (n - f)) with (S (N.to_nat (n - (f + 1)))) by lia. cbn. by rewrite H2.
        * destruct (N.to_nat (n - f)) eqn:E; [done|]. injection H2 as ->. split; [lia|]. exists l'. by replace (N.to_nat (n - (f + 1))) with n0 by lia. }
  rewrite (H looks 0%N) by lia. rewrite N.sub_0_r. split; intros (H1 & H2); (split; [lia|done]).
Qed.
Theorem C94_slow_panic looks : slow 0 looks = Panic <-> exists l, looks = repeat false (N.to_nat 2002) ++ l.
Proof.
  assert (H : forall looks f, (f <= 2001)%N -> slow f looks = Panic <-> exists l, looks = repeat false (N.to_nat (2002 - f)) ++ l).
  { clear looks. induction looks as [|[] l IH]; intros f Hf; cbn [slow].
    - split; [done|]. intros (l & H). destruct (N.to_nat (2002 - f)) eqn:E; [lia|done].
    - split; [done|]. intros (l' & H). destruct (N.to_nat (2002 - f)) eqn:E; [lia|done].
    - destruct (N.ltb_spec 2000 f).
      + split; [intros _|done]. exists l. assert (f = 2001%N) as -> by lia. done.
      + rewrite IH by lia. replace (N.to_nat (2002 - f)) with (S (N.to_nat (2002 - (f + 1)))) by lia. cbn. split; intros (l' & H1); exists l'; congruence. }
  by rewrite (H looks 0%N).
Qed.

(** A run: two events and a notification in the same iteration (the loop starts again, the notification is kept), an epoch, the end. *)
Definition w_ (c : option cmd) (rcl : bool) (mail top : list nat) (tcl term : bool) : @world nat nat := World c RESUME RESUME rcl 0 mail top tcl [] 1 term false.
Definition run93 : list (@world nat nat) :=
  [w_ None false [5] [1; 2; 3] false false; w_ (Some EPOCH) false [6] [3] false false; w_ None false [] [] false true; w_ None true [8] [] true false; w_ None false [] [] false true].
Example C93_case :
  let at_ k := turns 0 4 false false false (tstart 0 2) (firstn k run93) in
  (enacted (at_ 1), handled (at_ 1), notes (at_ 1)) = ([1; 2], [], [5]) /\
  (enacted (at_ 2), handled (at_ 2), notes (at_ 2), epoch (at_ 2), acks (at_ 2)) = ([1; 2; 3], [5; 6], [], true, 0) /\
  (epoch (at_ 3), acks (at_ 3), completed (at_ 3)) = (false, 1, false) /\
  (handled (at_ 4), doneE (at_ 4), doneR (at_ 4), strucC (at_ 4), completed (at_ 4)) = ([5; 6; 8], 1, 1, true, false) /\
  (crashed (at_ 5), completed (at_ 5), acks (at_ 5)) = (None, true, 1).
Proof. vm_compute. done. Qed.
(** A run in which TOP_SYNC comes after the end of the events. *)
Example C93_lost :
  let s := turns 0 4 false false false (tstart 0 2) [w_ None true [] [] true false; w_ (Some TOP_SYNC) false [] [] false false; calm; calm] in
  (strucC s, topSync s, acks s, crashed s) = (true, true, 0, None).
Proof. vm_compute. done. Qed.

Print Assumptions C93_range.
Print Assumptions C93_growth.
Print Assumptions C93_once.
Print Assumptions C93_batch.
Print Assumptions C93_mail.
Print Assumptions C93_room.
Print Assumptions C93_answers.
Print Assumptions C93_sync_lost_refuted.
Print Assumptions C93_top_first.
Print Assumptions C94_patience.
Print Assumptions C94_bound.
Print Assumptions C94_reset.
Print Assumptions C94_series_refuted.
Print Assumptions C94_slow_ready.
Print Assumptions C94_slow_panic.
Print Assumptions C93_static_commands.
Print Assumptions C93_static_mail.
Print Assumptions C94_static_bound.
