(** The program with queries that do not wait, in the long run: what every turn brings forward. *)
From Verif Require Import Base Engine_Spec Engine_Model Engine_Proofs Engine_Props Rest_Proofs Whole_Model Whole_Proofs Live_Proofs Query_Spec Query_Proofs Block_Model Block_Proofs BLive_Model.
From Verif Require Term_Model Term_Proofs Term_All Term_Live QLive_Proofs.
Open Scope nat_scope.
Notation at_look := QLive_Proofs.at_look. Notation at_check := QLive_Proofs.at_check. Notation placed := QLive_Proofs.placed.
Notation placed_exec := QLive_Proofs.placed_exec. Notation sum_upd := QLive_Proofs.sum_upd.

Section live.
Context (a : alg) (owner : nat -> nat) (swap : bool) (n : nat) (Hown : forall v, owner v < n).
Context (evs : list (nat * (nat * edge_t a))) (ask : nat -> bool) (async : bool) (verts : list nat) (e0 : est a) (sent0 : nat -> N) (okay : bactor a -> Prop).
Hypothesis F1 : forall t, todo e0 t = [].
Hypothesis F2 : forall t, n <= t -> queue e0 t = [].
Hypothesis F3 : sumN sent0 n = sumN (fun t => N.of_nat (length (queue e0 t))) n.
Hypothesis Hokay : forall x, allowed x -> okay x.
Notation bstep := (bstep a owner swap n evs ask async verts).
Notation brun := (brun a owner swap n evs ask async verts).
Notation wstep := (wstep a owner swap n).
Notation bst := (bst a).
Notation at_ s t := (Term_Model.at_ (trm (bwho s)) t).
Notation open_ s t := (Term_Model.open_ (trm (bwho s)) t).
Notation bon := (bon a owner swap n).
Notation binv := (binv a owner swap n evs ask async e0).

Definition reach (s : bst) : Prop := exists l, (forall x, x ∈ l -> okay x) /\ s = brun (bstart a e0 sent0) l.
Hypothesis Hfin : forall s, reach s -> finite a owner (eng (bwho s)).

Lemma brun_app s l l' : brun s (l ++ l') = brun (brun s l) l'.
Proof. unfold Block_Model.brun. by rewrite fold_left_app. Qed.
Lemma reach_start : reach (bstart a e0 sent0).
Proof. exists []. split; [|done]. intros x H. by apply elem_of_nil in H. Qed.
Lemma reach_step s x : reach s -> allowed x -> reach (bstep s x).
Proof.
  intros (l & Hl & ->) Hx. exists (l ++ [x]). rewrite brun_app. split; [|done]. intros y. rewrite elem_of_app, elem_of_list_singleton. intros [Hy| ->]; auto.
Qed.
Lemma reach_inv s : reach s -> binv s.
Proof. intros (l & _ & ->). apply (brun_inv a owner swap n Hown), (bstart_inv a owner swap n Hown); done. Qed.
Lemma reach_placed s t : reach s -> placed (trm (bwho s)) t.
Proof. intros H. destruct (b_trm _ _ _ _ _ _ _ _ _ (reach_inv s H)) as (own & q & c & l & ->). apply placed_exec. Qed.

(** While a thread has pulled events that it has not enacted, it has processed none of its
    messages; these events are its own, and of the stream. *)
Record heldb (s : bst) : Prop := Heldd {
  h_did : forall t, bbatch s t <> [] -> did (bwho s) t = 0%N /\ exists got sent own, at_ s t = Term_Model.Work got sent own /\ own <> 0%N;
  h_own : forall t v x, (v, x) ∈ bbatch s t \/ (v, x) ∈ btq s t -> owner v = t;
  h_evs : bfrom_evs a evs s }.
Lemma did_other (w : wst a) t c u : u <> t -> did (wstep w t c) u = did w u.
Proof. apply QLive_Proofs.did_other. Qed.
Lemma did_stays (w : wst a) t c got sent own : Term_Model.at_ (trm w) t = Term_Model.Work got sent own -> stays a c -> c <> Do Pop -> did w t = 0%N -> did (wstep w t c) t = 0%N.
Proof. apply QLive_Proofs.did_stays. Qed.
Lemma held_same s s' : heldb s -> bwho s' = bwho s -> btq s' = btq s -> bbatch s' = bbatch s -> heldb s'.
Proof. intros H E1 E2 E3. constructor; unfold bfrom_evs; rewrite ?E1, ?E2, ?E3; apply H. Qed.
Lemma held_start : heldb (bstart a e0 sent0).
Proof. constructor; [done| |]; [intros t v x [H|H]; by apply elem_of_nil in H|intros t x [H|H]; by apply elem_of_nil in H]. Qed.
Lemma held_on s t c : heldb s -> (bbatch s t <> [] -> stays a c /\ c <> Do Pop) -> heldb (bon s t c).
Proof.
  intros H Hc. constructor; [|apply H|apply H]. intros u Hb. cbn in Hb. destruct (h_did _ H u Hb) as (Hd & g & sn & o & Hp & Ho). cbn [Block_Model.bon bset_who bwho].
  destruct (decide (u = t)) as [->|Hne].
  - destruct (Hc Hb) as [H1 H2]. split; [by eapply did_stays|]. destruct (wstep_work a owner swap n (bwho s) t c g sn o Hp H1) as (sn' & E). by exists g, sn', o.
  - rewrite did_other by done. split; [done|]. exists g, sn, o. split; [|done]. by rewrite (proj1 (wstep_other a owner swap n (bwho s) t c u Hne)).
Qed.
Lemma held_loop s t c : heldb s -> heldb (bloop a owner swap n s t c).
Proof.
  intros H. destruct c as [[]|[]]; cbn [bloop]; try done; try (by apply held_on).
  - case_match; [done|]. by apply held_on.
  - destruct (nil (bbatch s t)) eqn:E; [|done]. apply nil_true in E. by apply held_on.
  - destruct (nil (bbatch s t)) eqn:E; [|done]. apply nil_true in E. case_match; [|done]. by apply held_on.
  - destruct (nil (bbatch s t)) eqn:E; [|done]. apply nil_true in E. case_match; [|done]. by apply held_on.
  - case_match; [|done]. by apply held_on.
  - destruct (nil (bbatch s t)) eqn:E; [|done]. apply nil_true in E. by apply held_on.
  - cbv zeta. set (c := Do (AddEdges v (out (bbatch s t) v))). destruct (_ && _) eqn:E; [|done]. rewrite !andb_true_iff in E. destruct E as [[Ev _] _]. apply Nat.eqb_eq in Ev.
    constructor; cbn [bset_top bwho btq bbatch].
    + intros u Hb. assert (Hb' : bbatch s u <> []) by (revert Hb; unfold upd; destruct (Nat.eqb_spec u t) as [->|]; [by destruct (bbatch s t)|done]).
      destruct (h_did _ H u Hb') as (Hd & g & sn & o & Hp & Ho). destruct (decide (u = t)) as [->|Hne].
      * split; [by eapply did_stays|]. destruct (wstep_work a owner swap n (bwho s) t c g sn o Hp I) as (sn' & E). by exists g, sn', o.
      * rewrite did_other by done. split; [done|]. exists g, sn, o. split; [|done]. by rewrite (proj1 (wstep_other a owner swap n (bwho s) t c u Hne)).
    + intros u w x. unfold upd. destruct (Nat.eqb_spec u t) as [->|]; [|apply H]. intros [Hin|Hin]; [|apply (h_own _ H t w x); by right].
      apply (h_own _ H t w x). left. unfold rest_of in Hin. apply elem_of_list_In, filter_In in Hin as [Hin _]. by apply elem_of_list_In.
    + intros u x. cbn. unfold upd. destruct (Nat.eqb_spec u t) as [->|]; [|apply H]. intros [Hin|Hin]; [|apply (h_evs _ H t x); by right].
      apply (h_evs _ H t x). left. unfold rest_of in Hin. apply elem_of_list_In, filter_In in Hin as [Hin _]. by apply elem_of_list_In.
Qed.
Lemma held_step s x : binv s -> heldb s -> heldb (bstep s x).
Proof.
  intros HQ H. destruct x as [| |t x|v]; cbn [Block_Model.bstep].
  - assert (Hev := bfrom_step a owner swap n evs ask async verts s BRemitter (h_evs _ H)). cbn [Block_Model.bstep] in Hev. revert Hev. unfold bremit. destruct (brem s); try done. destruct (nth_error evs (bnxt s)) as [[v y]|] eqn:En; intros Hev; [|constructor; [apply H|apply H|done]].
    constructor; [apply H| |done]. intros t w z. cbn. intros [Hz|Hz]; [apply (h_own _ H t w z); by left|]. revert Hz. unfold upd. destruct (Nat.eqb_spec t (owner v)) as [->|]; [|intros Hz; apply (h_own _ H t w z); by right].
    rewrite elem_of_app, elem_of_list_singleton. intros [Hz|[= -> ->]]; [apply (h_own _ H _ w z); by right|done].
  - unfold blog_step. destruct (blg s) eqn:El; try (repeat case_match; by apply (held_same s)).
    destruct (nil (fin s)); [|done]. rewrite reset_same by (apply (b_early _ _ _ _ _ _ _ _ _ HQ); rewrite (b_asking _ _ _ _ _ _ _ _ _ HQ) by (by rewrite El); done). by apply (held_same s).
  - unfold btstep. destruct (n <=? t) eqn:Etn; [done|]. apply Nat.leb_gt in Etn. destruct (held s t); [destruct x; try done; destruct (bcmds s t) as [|[]]; try done; by apply (held_same s)|].
    destruct x as [|x|k r| |]; try done.
    + unfold btake. destruct (bcmds s t) as [|[]]; try done; case_match; try done; try case_match; try done; by apply (held_same s).
    + by apply held_loop.
    + unfold bpull. destruct (bmay_pull a s t k r) eqn:E; [|done]. unfold bmay_pull in E. rewrite !andb_true_iff in E. destruct E as (((((E1 & E2) & E3) & E4) & E5) & E6).
      apply negb_true_iff, N.eqb_neq in E6. unfold blooking in E1. destruct (at_ s t) as [|got| | | | | | | | | | | | | | |] eqn:Hp; try done.
      assert (Ew : wstep (bwho s) t (Ctl (Term_Model.Own (N.of_nat k + r - 1))) = loop_on a swap n (bwho s) t (Term_Model.Own (N.of_nat k + r - 1))) by (unfold Whole_Model.wstep; by rewrite Hp).
      rewrite Ew. constructor; cbn [bset_top bwho btq bbatch].
      * intros u Hb. destruct (decide (u = t)) as [->|Hne].
        -- cbn. rewrite upd_eq. split; [done|]. unfold Term_Model.step. cbn [fst snd]. rewrite (proj2 (Nat.ltb_lt t n) Etn). unfold Term_Model.go. rewrite Hp, E2. cbn. Term_Proofs.fs. eexists _, _, _. split; [done|lia].
        -- rewrite upd_ne in Hb by done. destruct (h_did _ H u Hb) as (Hd & g & sn & o & Hpu & Ho). cbn. rewrite upd_ne by done. split; [done|]. exists g, sn, o. split; [|done]. by rewrite loop_other.
      * intros u w z. unfold upd. destruct (Nat.eqb_spec u t) as [->|]; [|apply H]. intros [Hz|Hz]; apply (h_own _ H t w z).
        -- apply elem_of_app in Hz as [?|Hz]; [by left|right]. rewrite <- (firstn_skipn k). apply elem_of_app. by left.
        -- right. rewrite <- (firstn_skipn k). apply elem_of_app. by right.
      * intros u z. cbn. unfold upd. destruct (Nat.eqb_spec u t) as [->|]; [|apply H]. intros [Hz|Hz]; apply (h_evs _ H t z).
        -- apply elem_of_app in Hz as [?|Hz]; [by left|right]. rewrite <- (firstn_skipn k). apply elem_of_app. by left.
        -- right. rewrite <- (firstn_skipn k). apply elem_of_app. by right.
  - unfold bread. case_match; [|done]. by apply (held_same s).
Qed.
Lemma reach_held s : reach s -> heldb s.
Proof.
  intros (l & _ & ->). assert (G : forall s, binv s -> heldb s -> heldb (brun s l)).
  { induction l as [|x l IH]; intros s HQ H; [done|]. cbn. apply IH; [by apply (bstep_inv a owner swap n Hown)|by apply held_step]. }
  apply G; [|apply held_start]. apply (bstart_inv a owner swap n Hown); done.
Qed.

(** A thread whose topology is blocked, or that waits for RESUME, has not found its queue closed;
    the finishing goroutine reads the vertices that it was told. *)
Record up (s : bst) : Prop := Up {
  u_open : forall t, t < n -> top s t = true \/ held s t = true -> open_ s t = true;
  u_fin : forall v, v ∈ fin s -> v ∈ verts }.
Lemma up_same s s' : up s -> bwho s' = bwho s -> top s' = top s -> held s' = held s -> fin s' = fin s -> up s'.
Proof. intros H E1 E2 E3 E4. constructor; rewrite ?E1, ?E2, ?E3, ?E4; apply H. Qed.
Lemma up_wstep s t c q b : up s -> t < n -> held s t = false -> (plain_x a c \/ top s t = false) -> up (bset_top a s (wstep (bwho s) t c) q b).
Proof.
  intros H Ht Hh Hc. constructor; [|apply H]. intros u Hu. cbn [bset_top bwho top held]. intros Hb. destruct (decide (u = t)) as [->|Hne].
  - destruct Hc as [Hc|Hc]; [rewrite wstep_open by done; by apply H|]. destruct Hb; congruence.
  - rewrite (proj2 (wstep_other a owner swap n (bwho s) t c u Hne)). by apply H.
Qed.
Lemma up_on s t c : up s -> t < n -> held s t = false -> (plain_x a c \/ top s t = false) -> up (bon s t c).
Proof. intros H Ht Hh Hc. eapply up_same; [by apply (up_wstep s t c (btq s) (bbatch s))|done..]. Qed.
Lemma closed_top s t : closed_now a s t = true -> top s t = false.
Proof. unfold closed_now. by destruct (top s t). Qed.
Lemma up_step s x : binv s -> up s -> up (bstep s x).
Proof.
  intros HQ H. destruct x as [| |t x|v]; cbn [Block_Model.bstep].
  - unfold bremit. destruct (brem s); try done. destruct (nth_error evs (bnxt s)) as [[v y]|]; by apply (up_same s).
  - unfold blog_step. destruct (blg s) eqn:El; try (repeat case_match; by apply (up_same s)).
    destruct (nil (fin s)); [|done]. constructor; [apply H|done].
  - unfold btstep. destruct (Nat.leb_spec n t) as [|Ht]; [done|]. destruct (held s t) eqn:Hh.
    + destruct x; try done. destruct (bcmds s t) as [|[]]; try done. constructor; [|apply H]. intros u Hu. cbn. intros Hb. apply H; [done|]. revert Hb. unfold upd. destruct (u =? t); naive_solver.
    + destruct x as [|c|k r| |]; try done.
      * unfold btake. destruct (bcmds s t) as [|c l] eqn:Ec; [done|]. destruct (breceiving a s t); [|done].
        assert (Ho : c <> BResume -> open_ s t = true).
        { intros Hc. destruct (b_mode _ _ _ _ _ _ _ _ _ HQ t Ht) as (m & Hm & Hi). assert (Hm' : m = BCalled) by (destruct m; cbn in Hi; destruct_and?; try congruence).
          subst m. assert (Ha : brem s = Asked). { apply (b_asking _ _ _ _ _ _ _ _ _ HQ). destruct (blg s); try done. cbn in Hm. by destruct Hm. }
          apply (b_early _ _ _ _ _ _ _ _ _ HQ). congruence. }
        destruct c; [destruct (bresp s t =? 0); [|done]..|]; (constructor; [|apply H]); intros u Hu; cbn; unfold upd; destruct (Nat.eqb_spec u t) as [->|]; intros Hb; try (by apply H); try (by apply Ho).
        destruct Hb; congruence.
      * destruct c as [[]|[]]; cbn [bloop]; cbv zeta; try done; try (apply up_on; try done; by left); case_match eqn:E; try done; try (apply up_on; try done; by left).
        -- apply andb_true_iff in E as [_ E]. apply up_on; try done. right. by apply closed_top.
        -- apply andb_true_iff in E as [_ E]. apply up_on; try done. destruct closed; cbn in E; [right; by apply closed_top|by left].
        -- apply up_on; try done. right. by apply closed_top.
        -- apply up_wstep; try done. by left.
      * unfold bpull. case_match; [|done]. apply up_wstep; try done. by left.
  - unfold bread. case_match; [|done]. constructor; [apply H|]. cbn. intros u Hu. apply elem_of_list_In, filter_In in Hu as [Hu _]. apply H. by apply elem_of_list_In.
Qed.
Lemma reach_up s : reach s -> up s.
Proof.
  intros (l & _ & ->). assert (G : forall s, binv s -> up s -> up (brun s l)).
  { induction l as [|x l IH]; intros s HQ H; [done|]. cbn. apply IH; [by apply (bstep_inv a owner swap n Hown)|by apply up_step]. }
  apply G; [apply (bstart_inv a owner swap n Hown); done|]. constructor; cbn; [intros t _ [?|?]; done|]. intros v Hv. by apply elem_of_nil in Hv.
Qed.

(** What is still to come: events to be passed bon, pulled, enacted; steps of the queries; commands
    to be taken and answered; queues to be found empty. *)
Definition mA (s : bst) : nat := 3 * (length evs - bnxt s) + 2 * sumt (fun t => length (btq s t)) n + sumt (fun t => length (bbatch s t)) n.
Definition mB (s : bst) : nat :=
  match brem s with
  | Finished => 0
  | Streaming => 1
  | Asked => match blg s with LResume i => 2 + (n - i) | LView => n + 3 | LAwait i => n + 4 + (n - i) | LCast i => 2 * n + 5 + (n - i) | LWait => 3 * n + 6 end
  end.
Definition mF (s : bst) : nat := length (fin s).
Definition mD (s : bst) : nat := sumt (fun t => 2 * length (bcmds s t) + (if held s t then 0 else 1)) n.
Definition mO (s : bst) : nat := sumt (fun t => if open_ s t then 1 else 0) n.
Definition less (s' s : bst) : Prop := mA s' < mA s \/ mA s' = mA s /\ (mB s' < mB s \/ mB s' = mB s /\ (mF s' < mF s \/ mF s' = mF s /\ (mD s' < mD s \/ mD s' = mD s /\ mO s' < mO s))).
Lemma less_trans s1 s2 s3 : less s1 s2 -> less s2 s3 -> less s1 s3.
Proof. unfold less. lia. Qed.
(** Nothing of this has changed. *)
Definition frame (s s' : bst) : Prop := (exists w, s' = bset_who a s w) /\ forall t, t < n -> open_ s' t = open_ s t.
Lemma frame_refl s : frame s s.
Proof. split; [exists (bwho s); by destruct s|done]. Qed.
Lemma frame_trans s1 s2 s3 : frame s1 s2 -> frame s2 s3 -> frame s1 s3.
Proof. intros ((w & ->) & E1) ((w' & ->) & E2). split; [by exists w'|]. intros t Ht. rewrite E2, <- E1 by done. done. Qed.
Lemma frame_measures s s' : frame s s' -> mA s' = mA s /\ mB s' = mB s /\ mF s' = mF s /\ mD s' = mD s /\ mO s' = mO s.
Proof. intros ((w & ->) & E). split_and!; try done. unfold mO. apply sumt_ext. intros t Ht. by rewrite (E t Ht). Qed.
Lemma frame_less s s' s'' : frame s s' -> less s'' s' -> less s'' s.
Proof. intros (E1 & E2 & E3 & E4 & E5)%frame_measures. unfold less. lia. Qed.
Lemma less_frame s s' s'' : less s' s -> frame s' s'' -> less s'' s.
Proof. intros H (E1 & E2 & E3 & E4 & E5)%frame_measures. unfold less in *. lia. Qed.

(** The steps of a thread that leave all of this alone. *)
Definition pass (s : bst) (t : nat) (c : wchoice a) : bool :=
  match c with
  | Ctl Term_Model.Go => negb (blooking a s t && negb (nil (btq s t)) && negb (top s t))
  | Ctl Term_Model.Close => closed_now a s t
  | Ctl (Term_Model.Own _) => false
  | Ctl Term_Model.Finish => nil (bbatch s t)
  | Ctl Term_Model.FinishCheck => nil (bbatch s t) && closed_now a s t
  | Ctl (Term_Model.More b) => nil (bbatch s t) && (negb b || closed_now a s t)
  | Ctl _ => true
  | Do Pop => nil (bbatch s t)
  | Do Run => true
  | _ => false
  end.
Lemma loop_pass s t c : plain a c -> bloop a owner swap n s t c = if pass s t c then bon s t c else s.
Proof.
  intros Hc. destruct c as [[]|[]]; cbn [bloop pass]; try done; try (by destruct (blooking a s t && negb (nil (btq s t)) && negb (top s t))).
  all: unfold plain, acts in Hc; rewrite !elem_of_cons, elem_of_nil in Hc; destruct Hc as [Hc|[Hc|[]]]; discriminate.
Qed.
Definition still (s : bst) (x : bactor a) : Prop :=
  bstep s x = s \/
  exists t c, x = BThread t (Loop c) /\ t < n /\ held s t = false /\ plain a c /\ pass s t c = true /\ bstep s x = bon s t c /\
    forall u, u < n -> open_ (bon s t c) u = open_ s u.
Lemma still_frame s x : still s x -> frame s (bstep s x).
Proof.
  intros [-> |(t & c & -> & Ht & _ & _ & _ & E & Ho)]; [apply frame_refl|]. rewrite E. split; [by eexists|done].
Qed.
Lemma open_less (w : wst a) t c u : Term_Model.open_ (trm (wstep w t c)) u = Term_Model.open_ (trm w) u \/ u = t /\ Term_Model.open_ (trm w) u = true /\ Term_Model.open_ (trm (wstep w t c)) u = false.
Proof. apply QLive_Proofs.open_less. Qed.
Lemma on_split s t c : t < n -> less (bon s t c) s \/ forall u, u < n -> open_ (bon s t c) u = open_ s u.
Proof.
  intros Ht. destruct (open_less (bwho s) t c t) as [E|(_ & E1 & E2)].
  - right. intros u Hu. destruct (open_less (bwho s) t c u) as [?|(-> & ? & ?)]; [done|]. cbn in *. congruence.
  - left. right. split; [done|]. right. split; [done|]. right. split; [done|]. right. split; [done|]. unfold mO.
    pose proof (sumt_change (fun u => if open_ (bon s t c) u then 1 else 0) (fun u => if open_ s u then 1 else 0) n t Ht) as Hs. cbn [Block_Model.bon bset_who bwho] in Hs. rewrite E1, E2 in Hs.
    assert (forall k, k < n -> k <> t -> (if Term_Model.open_ (trm (wstep (bwho s) t c)) k then 1 else 0) = (if open_ s k then 1 else 0)) as Hk.
    { intros k _ Hne. by rewrite (proj2 (wstep_other a owner swap n (bwho s) t c k Hne)). }
    specialize (Hs Hk). cbn [Block_Model.bon bset_who bwho]. lia.
Qed.
Lemma split s x : reach s -> allowed x -> less (bstep s x) s \/ still s x.
Proof.
  intros HR Hx. pose proof (reach_inv s HR) as HQ. destruct x as [| |t x|v]; cbn [Block_Model.bstep].
  - unfold still. cbn [Block_Model.bstep]. unfold bremit. destruct (brem s) eqn:Er; [|right; by left..]. destruct (nth_error evs (bnxt s)) as [[v y]|] eqn:En; left.
    + left. unfold mA. cbn. pose proof (sum_upd n (btq s) (owner v) (btq s (owner v) ++ [(v, y)]) (Hown v)) as Hs. rewrite app_length in Hs. cbn in Hs. assert (bnxt s < length evs) by (apply nth_error_Some; congruence). lia.
    + right. split; [done|]. left. unfold mB. cbn. rewrite Er. lia.
  - unfold still. cbn [Block_Model.bstep]. unfold blog_step. pose proof (b_asking _ _ _ _ _ _ _ _ _ HQ) as Ha.
    assert (Hb : forall s', bnxt s' = bnxt s -> btq s' = btq s -> bbatch s' = bbatch s -> mB s' < mB s -> less s' s).
    { intros s' E1 E2 E3 H. right. split; [unfold mA; by rewrite E1, E2, E3|by left]. }
    destruct (blg s) as [|i|i| |i] eqn:El.
    + destruct (brem s) eqn:Er; [right; by left| |right; by left]. left. apply Hb; try done. unfold mB. cbn. rewrite Er, El. lia.
    + specialize (Ha I). destruct (Nat.ltb_spec i n); [destruct (nil (bcmds s i)); [|right; by left]|]; left; apply Hb; try done; unfold mB; cbn; rewrite Ha, El; lia.
    + specialize (Ha I). destruct (Nat.ltb_spec i n); [destruct (bresp s i); [right; by left|]|]; left; apply Hb; try done; unfold mB; cbn; rewrite Ha, El; lia.
    + specialize (Ha I). destruct (nil (fin s)); [|right; by left]. left; apply Hb; try done; unfold mB; cbn; rewrite Ha, El; lia.
    + specialize (Ha I). destruct (Nat.ltb_spec i n); [destruct (nil (bcmds s i)); [|right; by left]|]; left; apply Hb; try done; unfold mB; cbn; rewrite Ha, ?El; lia.
  - assert (HD : forall e k c r, (2 * length (c t) + (if k t : bool then 0 else 1) < 2 * length (bcmds s t) + (if held s t then 0 else 1)) -> t < n -> (forall u, u <> t -> c u = bcmds s u /\ k u = held s u) -> less (bset_cmd a s e k c r) s).
    { intros e k c r H Ht Hu. right. split; [done|]. right. split; [done|]. right. split; [done|]. left. unfold mD. cbn.
      pose proof (sumt_change (fun t => 2 * length (c t) + (if k t then 0 else 1)) (fun t => 2 * length (bcmds s t) + (if held s t then 0 else 1)) n t Ht) as Hs.
      specialize (Hs ltac:(intros u _ Hne; cbn; by destruct (Hu u Hne) as [-> ->])). cbn in Hs, H |- *. lia. }
    unfold still. cbn [Block_Model.bstep]. unfold btstep. destruct (Nat.leb_spec n t) as [|Ht]; [right; by left|]. destruct (held s t) eqn:Ea.
    + destruct x; try (right; by left). destruct (bcmds s t) as [|[] l] eqn:Ec; try (right; by left). left. apply HD; try done; [rewrite !upd_eq; cbn; lia|]. intros u Hne. by rewrite !upd_ne.
    + destruct x as [|c|k r| |].
      * unfold btake. destruct (bcmds s t) as [|c l] eqn:Ec; [right; by left|]. destruct (breceiving a s t); [|right; by left].
        destruct c; [destruct (bresp s t =? 0); [|right; by left]..|]; left; apply HD; try done; rewrite ?upd_eq, ?Ea, ?Ec; cbn; try lia; intros u Hne; by rewrite !upd_ne.
      * assert (Hpl : plain a c \/ (exists v l, c = Do (AddEdges v l)) \/ exists v l, c = Do (DelEdges v l)).
        { destruct c as [|[]]; try done; try (by left); eauto; left; unfold plain, acts; rewrite !elem_of_cons; auto. }
        destruct Hpl as [Hpl|[(v & l & ->)|(v & l & ->)]].
        -- rewrite (loop_pass s t c Hpl). destruct (pass s t c) eqn:Ep; [|right; by left]. destruct (on_split s t c Ht) as [?|Ho]; [by left|]. right. right. exists t, c. split_and!; try done.
        -- cbn [bloop]. cbv zeta. destruct (_ && _) eqn:E; [|right; by left]. left. left. rewrite !andb_true_iff in E. destruct E as [[_ E] _]. apply negb_true_iff in E.
           unfold mA. cbn. pose proof (sum_upd n (bbatch s) t (rest_of a (bbatch s t) v) Ht) as Hs. enough (length (rest_of a (bbatch s t) v) < length (bbatch s t)) by lia. revert E. clear. unfold out, rest_of. generalize (bbatch s t). intros l.
           assert (Hle : forall l : list (nat * (nat * edge_t a)), length (List.filter (fun x => negb (fst x =? v)) l) <= length l) by (intros l'; induction l' as [|x l' IH]; cbn; [lia|]; destruct (negb _); cbn; lia).
           induction l as [|x l IH]; cbn; [done|]. destruct (fst x =? v) eqn:E; cbn; intros H; [specialize (Hle l); lia|]. specialize (IH H). lia.
        -- right. by left.
      * cbn in Hx. subst r. unfold bpull. destruct (bmay_pull a s t k 0) eqn:E; [|right; by left]. left. left. unfold bmay_pull in E. rewrite !andb_true_iff in E. destruct E as (((((_ & _) & E3) & _) & _) & E6).
        apply Nat.leb_le in E3. apply negb_true_iff, N.eqb_neq in E6. unfold mA. cbn.
        pose proof (sum_upd n (bbatch s) t (bbatch s t ++ firstn k (btq s t)) Ht) as Hs1. pose proof (sum_upd n (btq s) t (skipn k (btq s t)) Ht) as Hs2. rewrite app_length, firstn_length in Hs1. rewrite skipn_length in Hs2. lia.
      * right. by left.
      * right. by left.
  - unfold still. cbn [Block_Model.bstep]. unfold bread. destruct (existsb (Nat.eqb v) (fin s)) eqn:E; [|right; by left]. left. right. split; [done|]. right. split; [done|]. left. unfold mF. cbn [fin].
    revert E. clear. induction (fin s) as [|u l IH]; cbn; [done|]. rewrite (Nat.eqb_sym v u).
    assert (Hle : forall l : list nat, length (List.filter (fun u => negb (u =? v)) l) <= length l) by (intros l'; induction l' as [|x l' IH']; cbn; [lia|]; destruct (negb _); cbn; lia).
    destruct (u =? v); cbn; [intros _; specialize (Hle l); lia|]. intros E. specialize (IH E). lia.
Qed.

(** The check for termination stays sound. *)
Lemma who_step s x : reach s -> bwho (bstep s x) = bwho s \/ exists t y c, x = BThread t y /\ bwho (bstep s x) = wstep (bwho s) t c.
Proof.
  intros HR. destruct x as [| |t x|v]; cbn [Block_Model.bstep].
  - left. unfold bremit. destruct (brem s); try done. by destruct (nth_error evs (bnxt s)) as [[]|].
  - left. pose proof (reach_inv s HR) as HQ. unfold blog_step. destruct (blg s) eqn:El; try (repeat case_match; done).
    destruct (nil (fin s)); [|done]. cbn. apply reset_same, (b_early _ _ _ _ _ _ _ _ _ HQ). rewrite (b_asking _ _ _ _ _ _ _ _ _ HQ) by (by rewrite El). done.
  - unfold btstep. destruct (n <=? t); [by left|]. destruct (held s t); [left; destruct x; try done; by destruct (bcmds s t) as [|[]]|].
    destruct x as [|c|k r| |]; try (left; repeat case_match; done).
    + left. unfold btake. destruct (bcmds s t) as [|[]]; try done; case_match; try done; by case_match.
    + destruct c as [[]|[]]; cbn [bloop]; cbv zeta; try (by left); try (case_match; [|by left]); try (case_match; [by left|]); right; eexists t, _, _; done.
    + unfold bpull. case_match; [|by left]. right. eexists t, _, _. done.
  - left. unfold bread. by case_match.
Qed.
Definition snd_ (s : bst) : Prop := Term_Live.sound swap n (trm (bwho s)).
Definition fine (s : bst) (l : list (bactor a)) : Prop := swap = true \/ clears a owner swap n evs ask async verts s l.
Lemma fine_cons s x l : fine s (x :: l) -> (swap = true \/ clear s x) /\ fine (bstep s x) l.
Proof. unfold fine. cbn. naive_solver. Qed.
Lemma fine_app s l l' : fine s (l ++ l') -> fine s l /\ fine (brun s l) l'.
Proof.
  unfold fine. intros [H|H]; [by split; left|]. revert s H. induction l as [|x l IH]; intros s H; [split; by right|]. cbn in H. destruct H as [H1 H2].
  destruct (IH _ H2) as [[?|H3] H4]; [by split; left|]. split; [by right|done].
Qed.
Lemma sound_step s x : reach s -> snd_ s -> (swap = true \/ clear s x) -> snd_ (bstep s x).
Proof.
  intros HR H Hc. unfold snd_ in *. destruct (who_step s x HR) as [-> |(t & y & c & -> & ->)]; [done|].
  rewrite trm_step. destruct (lwork_one a owner (bwho s) t c) as [->|(k & ->)]; [done|]. cbn [Term_Model.exec fold_left]. by apply Term_Live.sound_step.
Qed.
Definition Inv (s : bst) : Prop := reach s /\ snd_ s.
Lemma inv_step s x : Inv s -> allowed x -> (swap = true \/ clear s x) -> Inv (bstep s x).
Proof. intros [H1 H2] Hx Hc. split; [by apply reach_step|by apply sound_step]. Qed.
Lemma inv_run l : forall s, Inv s -> (forall x, x ∈ l -> allowed x) -> fine s l -> Inv (brun s l).
Proof.
  induction l as [|x l IH]; intros s H Hl Hf; [done|]. apply fine_cons in Hf as [Hc Hf]. cbn. apply IH; try done.
  - apply inv_step; try done. apply Hl, elem_of_list_here.
  - intros y Hy. apply Hl. by apply elem_of_list_further.
Qed.
Lemma run_mono l : forall s, reach s -> (forall x, x ∈ l -> allowed x) -> less (brun s l) s \/ frame s (brun s l).
Proof.
  induction l as [|x l IH]; intros s H Hl; [right; apply frame_refl|]. cbn. assert (Hx : allowed x) by (apply Hl, elem_of_list_here).
  assert (IH' := IH (bstep s x) (reach_step s x H Hx) ltac:(intros y Hy; apply Hl; by apply elem_of_list_further)). unfold Block_Model.brun in IH'.
  destruct (split s x H Hx) as [Hs|Hs%still_frame].
  - left. destruct IH' as [?|?]; [by eapply less_trans|by eapply less_frame].
  - destruct IH' as [?|?]; [left; by eapply frame_less|right; by eapply frame_trans].
Qed.
Lemma done_empty_sound s : snd_ s -> done_empty a n (bwho s).
Proof.
  intros [_ [(EE & conf & HI & _)|[D Hcalm]]] u Hu Hdn.
  - pose proof (Term_Proofs.i_pc _ _ _ _ _ HI u Hu) as Hp. unfold Term_Proofs.pcok in Hp. by rewrite Hdn in Hp.
  - by apply (Term_Live.m_quiet _ _ _ _ Hcalm).
Qed.

(** Turns. *)
Notation turnr s y := (brun s (actors y)).
Definition goodt (y : turn a) : Prop := forall x, x ∈ actors y -> allowed x.
Record alike (s s' : bst) : Prop := Alike {
  al_frame : frame s s'; al_trm : trm (bwho s') = trm (bwho s); al_eng : eng (bwho s') = eng (bwho s); al_did : forall t, did (bwho s') t = did (bwho s) t }.
Lemma looking_at s t : blooking a s t = at_look (at_ s t).
Proof. unfold blooking. by destruct (at_ s t). Qed.
Lemma turn_cases s t x : Inv s -> allowed (BThread t x) -> fine s (actors (TThread t x)) ->
  less (turnr s (TThread t x)) s \/
  exists s1, alike s s1 /\ Inv s1 /\ turnr s (TThread t x) = bstep s1 (BThread t x) /\ (swap = true \/ clear s1 (BThread t x)) /\
    (t < n -> held s t = false -> bcmds s t <> [] -> breceiving a s t = false) /\
    (t < n -> held s t = false -> blooking a s t = true -> closed_now a s t = false).
Proof.
  intros HI Hx Hf. cbn [actors] in *. apply fine_cons in Hf as [Hc1 Hf]. apply fine_cons in Hf as [Hc2 Hf]. apply fine_cons in Hf as [Hc3 _].
  set (x1 := BThread t Take) in *. set (x2 := BThread t (Loop (Ctl Term_Model.Close))) in *. set (x3 := BThread t x) in *.
  change (turnr s (TThread t x)) with (bstep (bstep (bstep s x1) x2) x3). cbn [Block_Model.brun fold_left].
  pose proof (inv_step s x1 HI I Hc1) as HI1. pose proof (inv_step _ x2 HI1 I Hc2) as HI2.
  assert (Hm3 : less (bstep s x1) s -> less (bstep (bstep (bstep s x1) x2) x3) s).
  { intros H. destruct (run_mono [x2; x3] (bstep s x1) (proj1 HI1)) as [?|?]; [|by eapply less_trans|by eapply less_frame]. intros y Hy. rewrite !elem_of_cons, elem_of_nil in Hy. by destruct Hy as [->|[->|[]]]. }
  destruct (split s x1 (proj1 HI) I) as [H1|H1]; [by left; apply Hm3|].
  assert (E1 : bstep s x1 = s) by (destruct H1 as [?|(? & ? & [=] & _)]; done). clear H1. rewrite E1 in *.
  destruct (split s x2 (proj1 HI) I) as [H2|H2].
  { left. destruct (run_mono [x3] (bstep s x2) (proj1 HI2)) as [?|?]; [|by eapply less_trans|by eapply less_frame]. intros y Hy. apply elem_of_list_singleton in Hy. by subst. }
  right. exists (bstep s x2).
  assert (Hcl : t < n -> held s t = false -> bstep s x2 = if pass s t (Ctl Term_Model.Close) then bon s t (Ctl Term_Model.Close) else s).
  { intros Ht Ha. unfold x2. cbn [Block_Model.bstep]. unfold btstep. rewrite (proj2 (Nat.leb_gt n t) Ht), Ha. by apply loop_pass. }
  assert (Hlk : t < n -> held s t = false -> blooking a s t = true -> closed_now a s t = false).
  { intros Ht Ha Hl. destruct (closed_now a s t) eqn:E; [exfalso|done]. specialize (Hcl Ht Ha). cbn [pass] in Hcl. rewrite E in Hcl.
    apply still_frame in H2. destruct H2 as [_ H2]. specialize (H2 t Ht). rewrite Hcl in H2. rewrite looking_at in Hl. rewrite (proj1 (reach_placed s t (proj1 HI)) Hl) in H2.
    revert H2. cbn [Block_Model.bon bset_who bwho]. destruct (at_ s t) eqn:Hp; try done. unfold Whole_Model.wstep. rewrite Hp. cbn. unfold Term_Model.step. cbn [fst snd]. rewrite (proj2 (Nat.ltb_lt t n) Ht). unfold Term_Model.go. rewrite Hp. cbn. by Term_Proofs.fs. }
  split_and!; try done.
  - destruct H2 as [-> |(t' & c & [= <- <-] & Ht & Ha & _ & Hp & E & Ho)]; [constructor; [apply frame_refl|done|done|done]|].
    assert (HF : frame s (bstep s x2)) by (rewrite E; split; [by eexists|done]).
    assert (Hnl : at_look (at_ s t) = false). { rewrite <- looking_at. destruct (blooking a s t) eqn:El; [|done]. specialize (Hlk Ht Ha eq_refl). cbn [pass] in Hp. congruence. }
    pose proof (w_did _ _ _ (b_w _ _ _ _ _ _ _ _ _ (reach_inv s (proj1 HI))) t) as Hd.
    constructor; [done|..]; rewrite E; cbn [Block_Model.bon bset_who bwho].
    + rewrite trm_step. unfold lwork. destruct (at_ s t) eqn:Hat; try done; cbn; unfold Term_Model.step; cbn [fst snd]; rewrite (proj2 (Nat.ltb_lt t n) Ht); unfold Term_Model.go; rewrite Hat; done.
    + rewrite eng_step. unfold ework. by destruct (at_ s t).
    + intros u. destruct (decide (u = t)) as [->|Hne]; [|by apply did_other]. unfold Whole_Model.wstep. destruct (at_ s t) eqn:Hat; try done; cbn; rewrite upd_eq; by destruct Hd.
  - intros Ht Ha Hcm. destruct (breceiving a s t) eqn:Er; [exfalso|done]. revert E1. unfold x1. cbn [Block_Model.bstep]. unfold btstep. rewrite (proj2 (Nat.leb_gt n t) Ht), Ha.
    unfold btake. rewrite Er. destruct (bcmds s t) as [|c l] eqn:Ec; [done|]. intros E. apply (f_equal (fun s => length (bcmds s t))) in E. revert E.
    destruct (b_mode _ _ _ _ _ _ _ _ _ (reach_inv s (proj1 HI)) t Ht) as (m & _ & Hm).
    assert (Hr0 : bresp s t = 0) by (destruct m; cbn in Hm; destruct_and?; congruence). rewrite Hr0. destruct c; cbn; rewrite upd_eq, Ec; cbn; lia.
Qed.

(** Rounds without end. *)
Notation after := (after a owner swap n evs ask async verts).
Notation fair := (fair_turns a owner n evs verts).
Definition fairR (R : nat -> list (turn a)) : Prop := forall k, fair (R k).
Definition fineR (R : nat -> list (turn a)) (s : bst) : Prop := forall k, fine (after R s k) (steps_of (R k)).
Definition ev (P : bst -> Prop) (s : bst) : Prop := forall R, fairR R -> fineR R s -> exists k, P (after R s k).
Lemma after_shift R s j k : after R s (j + k) = after (fun i => R (j + i)) (after R s j) k.
Proof. induction k as [|k IH]; [by rewrite Nat.add_0_r|]. rewrite Nat.add_succ_r. cbn. by rewrite IH. Qed.
Lemma fineR_shift R s j : fineR R s -> fineR (fun i => R (j + i)) (after R s j).
Proof. intros H k. rewrite <- after_shift. apply H. Qed.
Lemma inv_after R s k : Inv s -> fairR R -> fineR R s -> Inv (after R s k).
Proof. intros HI HF Hf. induction k as [|k IH]; [done|]. cbn. apply inv_run; [done|apply HF|apply Hf]. Qed.
Lemma ev_now (P : bst -> Prop) s : P s -> ev P s.
Proof. intros H R _ _. by exists 0. Qed.
Lemma ev_then (P Q : bst -> Prop) s : Inv s -> ev P s -> (forall s', Inv s' -> P s' -> ev Q s') -> ev Q s.
Proof.
  intros HI HP HQ R HF Hf. destruct (HP R HF Hf) as (j & Hj). destruct (HQ _ (inv_after R s j HI HF Hf) Hj (fun i => R (j + i))) as (k & Hk).
  - intros i. apply HF.
  - by apply fineR_shift.
  - exists (j + k). by rewrite after_shift.
Qed.
Lemma ev_mono (P Q : bst -> Prop) s : ev P s -> (forall s', P s' -> Q s') -> ev Q s.
Proof. intros H HPQ R HF Hf. destruct (H R HF Hf) as (k & Hk). exists k. by apply HPQ. Qed.
Lemma steps_cons (y : turn a) l : steps_of (y :: l) = actors y ++ steps_of l.
Proof. done. Qed.

(** Something that helps, in every round. *)
Section progress.
Context (Case : bst -> Prop) (Pot : bst -> nat -> Prop) (help : bst -> turn a -> Prop) (Goal : bst -> Prop).
Hypothesis Hst : forall s m y z, Inv s -> Case s -> Pot s m -> help s z -> goodt y -> fine s (actors y) -> let s' := turnr s y in
  less s' s \/ frame s s' /\ (Goal s' \/ Case s' /\ ((exists m', m' < m /\ Pot s' m') \/ Pot s' m /\ help s' z)).
Hypothesis Hhelp : forall s m z, Inv s -> Case s -> Pot s m -> help s z -> goodt z -> fine s (actors z) -> let s' := turnr s z in
  less s' s \/ frame s s' /\ (Goal s' \/ Case s' /\ exists m', m' < m /\ Pot s' m').
Hypothesis Hex : forall s, Inv s -> Case s -> Goal s \/ exists z, help s z /\ forall l, fair l -> z ∈ l.
Hypothesis Hgoal : forall s y, Inv s -> Goal s -> goodt y -> fine s (actors y) -> less (turnr s y) s \/ frame s (turnr s y) /\ Goal (turnr s y).

Lemma goal_turns l : forall s, Inv s -> Goal s -> (forall x, x ∈ steps_of l -> allowed x) -> fine s (steps_of l) -> less (brun s (steps_of l)) s \/ frame s (brun s (steps_of l)) /\ Goal (brun s (steps_of l)).
Proof.
  induction l as [|y l IH]; intros s HI HG Hl Hf; [right; split; [apply frame_refl|done]|]. rewrite steps_cons in Hl, Hf |- *. rewrite brun_app. apply fine_app in Hf as [Hf1 Hf2].
  assert (Hy : goodt y) by (intros x Hx; apply Hl, elem_of_app; by left). assert (Hl' : forall x, x ∈ steps_of l -> allowed x) by (intros x Hx; apply Hl, elem_of_app; by right).
  assert (HI' : Inv (turnr s y)) by (by apply inv_run).
  destruct (Hgoal s y HI HG Hy Hf1) as [H|[H1 H2]].
  - left. destruct (run_mono (steps_of l) (turnr s y) (proj1 HI') Hl'); [by eapply less_trans|by eapply less_frame].
  - destruct (IH _ HI' H2 Hl' Hf2) as [H|[H3 H4]]; [left; by eapply frame_less|right; split; [by eapply frame_trans|done]].
Qed.
Definition low (s : bst) (m : nat) (s' : bst) : Prop := less s' s \/ frame s s' /\ (Goal s' \/ Case s' /\ exists m', m' < m /\ Pot s' m').
Lemma prog_turns l : forall s m z, Inv s -> Case s -> Pot s m -> help s z -> (forall x, x ∈ steps_of l -> allowed x) -> fine s (steps_of l) -> let s' := brun s (steps_of l) in
  (low s m s' \/ frame s s' /\ Case s' /\ Pot s' m /\ help s' z) /\ (z ∈ l -> low s m s').
Proof.
  induction l as [|y l IH]; intros s m z HI HC HP Hz Hl Hf.
  { split; [|intros H; by apply elem_of_nil in H]. right. split_and!; try done. apply frame_refl. }
  cbv zeta. rewrite steps_cons in Hl, Hf |- *. rewrite brun_app. apply fine_app in Hf as [Hf1 Hf2].
  assert (Hy : goodt y) by (intros x Hx; apply Hl, elem_of_app; by left). assert (Hl' : forall x, x ∈ steps_of l -> allowed x) by (intros x Hx; apply Hl, elem_of_app; by right).
  assert (HI' : Inv (turnr s y)) by (by apply inv_run). pose proof (Hst s m y z HI HC HP Hz Hy Hf1) as Hs1. pose proof (fun E : z = y => Hhelp s m z HI HC HP Hz) as Hh. set (s1 := turnr s y) in *. cbv zeta in Hs1.
  assert (Hless : less s1 s -> low s m (brun s1 (steps_of l))).
  { intros H. left. destruct (run_mono (steps_of l) s1 (proj1 HI') Hl'); [by eapply less_trans|by eapply less_frame]. }
  assert (Hgl : frame s s1 -> Goal s1 -> low s m (brun s1 (steps_of l))).
  { intros H1 H2. destruct (goal_turns l s1 HI' H2 Hl' Hf2) as [H|[H3 H4]]; [left; by eapply frame_less|right; split; [by eapply frame_trans|by left]]. }
  assert (Hlow : frame s s1 -> Case s1 -> (exists m', m' < m /\ Pot s1 m') -> low s m (brun s1 (steps_of l))).
  { intros H1 H2 (m' & Hm & HP'). destruct (Hex s1 HI' H2) as [HG|(z' & Hz' & _)]; [by apply Hgl|].
    destruct (IH s1 m' z' HI' H2 HP' Hz' Hl' Hf2) as [[[H|[H3 H4]]|(H3 & H4 & H5 & _)] _]; [left; by eapply frame_less| |]; right; (split; [by eapply frame_trans|]).
    - destruct H4 as [?|[H4 (m'' & ? & ?)]]; [by left|right; split; [done|]]. exists m''. split; [lia|done].
    - right. split; [done|]. by exists m'. }
  assert (Hall : less s1 s \/ frame s s1 /\ (Goal s1 \/ Case s1 /\ exists m', m' < m /\ Pot s1 m') -> low s m (brun s1 (steps_of l))).
  { intros [?|[? [?|[? ?]]]]; auto. }
  split.
  - destruct Hs1 as [?|[H1 [?|[H2 [?|[H3 H4]]]]]]; try (left; by auto).
    destruct (IH s1 m z HI' H2 H3 H4 Hl' Hf2) as [[[H|[H5 H6]]|(H5 & H6)] _]; [left; left; by eapply frame_less|left; right; split; [by eapply frame_trans|done]|right; split; [by eapply frame_trans|done]].
  - rewrite elem_of_cons. intros [E|Hin]; [subst z; apply Hall; by apply Hh|].
    destruct Hs1 as [?|[H1 [?|[H2 [?|[H3 H4]]]]]]; auto.
    destruct (IH s1 m z HI' H2 H3 H4 Hl' Hf2) as [_ H]. destruct (H Hin) as [H'|[H5 H6]]; [left; by eapply frame_less|right; split; [by eapply frame_trans|done]].
Qed.
Lemma progress_goal m : forall s, Inv s -> Case s -> Pot s m -> ev (fun s' => less s' s \/ frame s s' /\ Goal s') s.
Proof.
  induction m as [m IH] using (well_founded_induction lt_wf). intros s HI HC HP. destruct (Hex s HI HC) as [HG|(z & Hz & Hin)].
  { apply ev_now. right. split; [apply frame_refl|done]. }
  intros R HF Hf. destruct (prog_turns (R 0) s m z HI HC HP Hz (proj1 (HF 0)) (Hf 0)) as [_ H]. specialize (H (Hin _ (HF 0))).
  assert (HI1 : Inv (after R s 1)) by (by apply inv_after).
  destruct H as [H|[H1 [H2|[H2 (m' & Hm & HP')]]]]; [exists 1; by left|exists 1; right; by split|].
  destruct (IH m' Hm (after R s 1) HI1 H2 HP' (fun i => R (1 + i))) as (k & Hk); [intros i; apply HF|by apply fineR_shift|].
  exists (1 + k). rewrite after_shift. destruct Hk as [Hk|[Hk1 Hk2]]; [left; by eapply frame_less|right; split; [by eapply frame_trans|done]].
Qed.
End progress.

Lemma keep_run (P : bst -> Prop) : (forall s x, Inv s -> P s -> allowed x -> still s x -> P (bstep s x)) ->
  forall l s, Inv s -> P s -> (forall x, x ∈ l -> allowed x) -> fine s l -> less (brun s l) s \/ frame s (brun s l) /\ P (brun s l).
Proof.
  intros HP l. induction l as [|x l IH]; intros s HI H Hl Hf; [right; split; [apply frame_refl|done]|]. apply fine_cons in Hf as [Hc Hf]. cbn.
  assert (Hx : allowed x) by (apply Hl, elem_of_list_here). assert (Hl' : forall y, y ∈ l -> allowed y) by (intros y Hy; apply Hl; by apply elem_of_list_further).
  assert (HI' : Inv (bstep s x)) by (by apply inv_step). destruct (split s x (proj1 HI) Hx) as [Hs|Hs].
  - left. destruct (run_mono l (bstep s x) (proj1 HI') Hl'); [by eapply less_trans|by eapply less_frame].
  - pose proof (still_frame _ _ Hs) as HF. destruct (IH (bstep s x) HI' (HP s x HI H Hx Hs) Hl' Hf) as [?|[? ?]]; [left; by eapply frame_less|right; split; [by eapply frame_trans|done]].
Qed.

(** One turn is enough. *)
Lemma immediate (Case : bst -> Prop) z :
  (forall s x, Inv s -> Case s -> allowed x -> still s x -> Case (bstep s x)) ->
  (forall s, Inv s -> Case s -> goodt z -> fine s (actors z) -> less (turnr s z) s) -> (forall l, fair l -> z ∈ l) ->
  forall s, Inv s -> Case s -> ev (fun s' => less s' s) s.
Proof.
  intros H1 H2 Hin s HI HC. apply (ev_mono (fun s' => less s' s \/ frame s s' /\ False)); [|naive_solver].
  refine (progress_goal Case (fun _ _ => True) (fun _ y => y = z) (fun _ => False) _ _ _ _ 0 s HI HC I); try done.
  - intros s1 m y z' HI1 HC1 _ -> Hy Hf. destruct (keep_run Case H1 (actors y) s1 HI1 HC1 Hy Hf) as [?|[? ?]]; [by left|]. right. split; [done|]. right. split; [done|]. by right.
  - intros s1 m z' HI1 HC1 _ -> Hy Hf. left. by apply H2.
  - intros s1 _ _. right. by exists z.
Qed.
Lemma still_same s x : still s x -> fin (bstep s x) = fin s /\ brem (bstep s x) = brem s /\ blg (bstep s x) = blg s /\ btq (bstep s x) = btq s /\ bbatch (bstep s x) = bbatch s /\ top (bstep s x) = top s /\
  held (bstep s x) = held s /\ bcmds (bstep s x) = bcmds s /\ bresp (bstep s x) = bresp s /\ bnxt (bstep s x) = bnxt s.
Proof. intros ((w & ->) & _)%still_frame. by split_and!. Qed.

Lemma ev_stream s : Inv s -> brem s = Streaming -> ev (fun s' => less s' s) s.
Proof.
  intros HI Hr. apply (immediate (fun s => brem s = Streaming) TRemit); try done.
  - intros s1 x _ E _ Hs. apply still_same in Hs as (_ & -> & _). done.
  - intros s1 HI1 E _ _. cbn. destruct (split s1 BRemitter (proj1 HI1) I) as [?|Hs]; [done|exfalso]. destruct Hs as [Hs|(? & ? & [=] & _)]. revert Hs. cbn. unfold bremit. rewrite E.
    destruct (nth_error evs (bnxt s1)) as [[v y]|]; intros Hs; [apply (f_equal bnxt) in Hs; cbn in Hs; lia|apply (f_equal brem) in Hs; cbn in Hs; congruence].
  - by intros l (_ & ? & _).
Qed.
Definition ready (s : bst) : bool :=
  match blg s with
  | LWait => true
  | LView => nil (fin s)
  | LCast i | LResume i => negb (i <? n) || nil (bcmds s i)
  | LAwait i => negb (i <? n) || negb (bresp s i =? 0)
  end.
Lemma ev_logger s : Inv s -> brem s = Asked -> ready s = true -> ev (fun s' => less s' s) s.
Proof.
  intros HI Hr Hd. apply (immediate (fun s => brem s = Asked /\ ready s = true) TLog); try done.
  - intros s1 x _ [E1 E2] _ Hs. unfold ready. apply still_same in Hs as (-> & -> & -> & _ & _ & _ & _ & -> & -> & _). done.
  - intros s1 HI1 [E1 E2] _ _. cbn. destruct (split s1 BLogger (proj1 HI1) I) as [?|Hs]; [done|exfalso]. destruct Hs as [Hs|(? & ? & [=] & _)]. revert Hs. cbn. unfold blog_step.
    unfold ready in E2. destruct (blg s1) as [|i|i| |i] eqn:El; intros Hs.
    + rewrite E1 in Hs. apply (f_equal blg) in Hs. cbn in Hs. congruence.
    + destruct (i <? n); [cbn in E2; rewrite E2 in Hs|]; apply (f_equal blg) in Hs; cbn in Hs; rewrite El in Hs; try done. injection Hs. lia.
    + destruct (i <? n); [cbn in E2; destruct (bresp s1 i); [done|]|]; apply (f_equal blg) in Hs; cbn in Hs; rewrite El in Hs; try done. injection Hs. lia.
    + rewrite E2 in Hs. apply (f_equal blg) in Hs; cbn in Hs; congruence.
    + destruct (i <? n); [cbn in E2; rewrite E2 in Hs|]; apply (f_equal blg) in Hs; cbn in Hs; rewrite El in Hs; try done. injection Hs. lia.
  - by intros l (_ & _ & ? & _).
Qed.
Lemma ev_awake s t : Inv s -> t < n -> held s t = true -> bcmds s t = [BResume] -> ev (fun s' => less s' s) s.
Proof.
  intros HI Ht Ha Hc. apply (immediate (fun s => held s t = true /\ bcmds s t = [BResume]) (TThread t Awake)); try done.
  - intros s1 x _ [E1 E2] _ Hs. apply still_same in Hs as (_ & _ & _ & _ & _ & _ & -> & -> & _). done.
  - intros s1 HI1 [E1 E2] _ Hf. destruct (turn_cases s1 t Awake HI1 I Hf) as [?|(s2 & Ha2 & HI2 & -> & _)]; [done|]. destruct (al_frame _ _ Ha2) as [(w & Ew) _].
    assert (E1' : held s2 t = true) by (by rewrite Ew). assert (E2' : bcmds s2 t = [BResume]) by (by rewrite Ew).
    apply (frame_less s1 s2); [by apply Ha2|]. destruct (split s2 (BThread t Awake) (proj1 HI2) I) as [?|Hs]; [done|exfalso]. destruct Hs as [Hs|(? & ? & [=] & _)].
    revert Hs. cbn [Block_Model.bstep]. unfold btstep. rewrite (proj2 (Nat.leb_gt n t) Ht), E1', E2'. intros Hs. apply (f_equal (fun s => held s t)) in Hs. cbn in Hs. rewrite upd_eq in Hs. congruence.
  - intros l (_ & _ & _ & H & _). apply H; [done|]. unfold duties. rewrite !elem_of_cons. naive_solver.
Qed.
(** A step of a thread: of the engine, nothing, or of the bloop. *)
Lemma wstep_kind (w : wst a) u c : winv a n w -> u < n -> plain a c -> let w' := wstep w u c in
  (exists k, c = Do k /\ k ∈ acts a /\ can a (eng w) u k = true /\ eng w' = estep a owner (eng w) u k /\
     (forall v, Term_Model.queue (trm w') v <= Term_Model.queue (trm w) v + 1)%N /\
     exists got sent own sent', Term_Model.at_ (trm w) u = Term_Model.Work got sent own /\ Term_Model.at_ (trm w') u = Term_Model.Work got sent' own) \/
  (w' = w /\ ework a w u c = [] /\ lwork a owner w u c = []) \/
  (exists k, c = Ctl k /\ w' = loop_on a swap n w u k /\
     (working (Term_Model.at_ (trm w) u) -> todo (eng w) u = [] /\ is_send k = false /\ (k = Term_Model.Finish \/ k = Term_Model.FinishCheck \/ did w u = 0%N))).
Proof. exact (QLive_Proofs.wstep_kind a owner swap n Hown e0 sent0 F1 F2 F3 w u c). Qed.

(** A thread that is open comes to the start of an iteration, and to look for events. *)
Notation rk := QLive_Proofs.rk.
Section opens.
Context (called : bool) (t : nat).
Definition CaseO (s : bst) : Prop := t < n /\ held s t = false /\ open_ s t = true /\ (if called then bcmds s t <> [] else top s t = false /\ bfinished a s = true).
Definition PotO (s : bst) (m : nat) : Prop := exists b, budget a owner (eng (bwho s)) b /\ m = 3 * b + rk called (at_ s t) (N.to_nat (Term_Model.queue (trm (bwho s)) t)).
Definition progO (s : bst) : tchoice a :=
  match at_ s t with
  | Term_Model.Work got _ _ =>
      match todo (eng (bwho s)) t, bbatch s t with
      | _ :: _, _ => Loop (Do Run)
      | [], (v, _) :: _ => Loop (Do (AddEdges v []))
      | [], [] => if (did (bwho s) t <? got)%N then Loop (Do Pop) else Loop (Ctl Term_Model.Finish)
      end
  | Term_Model.Look _ => if nil (btq s t) || top s t then Loop (Ctl Term_Model.Go) else Pull 1 0
  | _ => Loop (Ctl Term_Model.Go)
  end.
Definition due (s : bst) : Prop := if called then breceiving a s t = false else at_look (at_ s t) = true -> nil (btq s t) = false.
Lemma case_frame s s' : frame s s' -> CaseO s -> CaseO s'.
Proof. intros ((w & ->) & Ho) (H1 & H2 & H3 & H4). split_and!; try done. by rewrite Ho. Qed.
Lemma onO s u c m : Inv s -> CaseO s -> PotO s m -> u < n -> plain a c -> pass s u c = true -> open_ (bon s u c) t = true -> (u = t -> due s) ->
  (exists m', m' < m /\ PotO (bon s u c) m') \/ (PotO (bon s u c) m /\ progO (bon s u c) = progO s /\ (u = t -> Loop c <> progO s)).
Proof.
  intros [HR _] (Ht & Ha & Ho & HC) (b & HB & ->) Hu Hc Hpass Ho' Hdue. pose proof (b_w _ _ _ _ _ _ _ _ _ (reach_inv s HR)) as HW. unfold Block_Model.bon in *. cbn [bset_who bwho] in *.
  destruct (wstep_kind (bwho s) u c HW Hu Hc) as [(k & -> & Hk & Hcan & Ee & Hq & got & snt & own & snt' & Ew & Ew')|[(E & E1 & E2)|(k & -> & E & Hwk)]].
  - left. destruct (budget_spend a owner n Hown _ _ u k HB Hk Hcan) as (b' & -> & HB'). eexists. split; [|exists b'; split; [cbn [bset_who bwho]; rewrite Ee; done|reflexivity]]. cbn [bset_who bwho].
    specialize (Hq t). assert (Hrk : forall p q q', q' <= q + 1 -> rk called p q' <= rk called p q + 2) by (intros p q q' Hq'; unfold rk; destruct called, p; lia).
    destruct (decide (t = u)) as [->|Hne].
    + rewrite Ew', Ew. unfold rk. destruct called; lia.
    + rewrite (proj1 (wstep_other a owner swap n (bwho s) u (Do k) t Hne)). specialize (Hrk (at_ s t) (N.to_nat (Term_Model.queue (trm (bwho s)) t)) (N.to_nat (Term_Model.queue (trm (wstep (bwho s) u (Do k))) t))). lia.
  - right. rewrite E in *. assert (Es : bset_who a s (bwho s) = s) by (by destruct s). rewrite Es. split_and!; [by exists b|done|]. intros -> Ep. unfold progO in Ep. unfold ework, lwork in E1, E2.
    pose proof (w_batch _ _ _ HW t) as Hb. destruct (at_ s t) as [got|got|got snt own| |i acc|acc|i acc| |acc|i acc|acc|acc|i|i| |i|] eqn:Hp; try (injection Ep as ->; done).
    + destruct (nil (btq s t) || top s t); [injection Ep as ->; done|done].
    + destruct (todo (eng (bwho s)) t) eqn:Et; [|injection Ep as ->; done]. destruct (bbatch s t) as [|[v ?] ?].
      * cbn [pulled] in Hb. destruct (did (bwho s) t <? got)%N eqn:Hl; injection Ep as ->; [done|]. apply N.ltb_ge in Hl.
        rewrite (proj2 (N.eqb_eq (did (bwho s) t) got)) in E2 by lia. done.
      * injection Ep as ->. unfold plain, acts in Hc. rewrite !elem_of_cons, elem_of_nil in Hc. destruct Hc as [Hc|[Hc|[]]]; discriminate.
  - rewrite E in *. cbn [loop_on trm] in Ho'.
    assert (Hsame : forall u', at_ (bset_who a s (loop_on a swap n (bwho s) u k)) t = at_ s t -> Term_Model.queue (trm (loop_on a swap n (bwho s) u k)) t = Term_Model.queue (trm (bwho s)) t ->
      did (loop_on a swap n (bwho s) u k) t = did (bwho s) t -> (u = t -> Loop u' <> progO s) ->
      PotO (bset_who a s (loop_on a swap n (bwho s) u k)) (3 * b + rk called (at_ s t) (N.to_nat (Term_Model.queue (trm (bwho s)) t))) /\ progO (bset_who a s (loop_on a swap n (bwho s) u k)) = progO s /\ (u = t -> Loop u' <> progO s)).
    { intros u' A1 A2 A3 A4. split_and!; try done.
      - exists b. split; [done|]. cbn [bset_who bwho] in *. by rewrite A1, A2.
      - unfold progO. rewrite A1. cbn [bset_who bwho] in *. rewrite A3. done. }
    destruct (decide (u = t)) as [->|Hne].
    + assert (Hck : at_check (at_ s t) = false). { destruct (at_check (at_ s t)) eqn:Ec; [|done]. apply (proj2 (reach_placed s t HR)) in Ec. congruence. }
      specialize (Hdue eq_refl).
      destruct (QLive_Proofs.rk_step a owner swap n Hown e0 sent0 F1 F2 F3 called t (trm (bwho s)) k) as [Hlt|[A1 A2]]; try done.
      * intros Hw. by apply Hwk.
      * intros x ->. done.
      * unfold due in Hdue. destruct called.
        -- intros g Hg. unfold breceiving in Hdue. by rewrite Hg in Hdue.
        -- intros Hl ->. cbn [pass] in Hpass. rewrite looking_at, Hl, (Hdue Hl), (proj1 HC) in Hpass. done.
      * left. eexists. split; [|exists b; split; [done|reflexivity]]. cbn [bset_who bwho loop_on trm eng]. lia.
      * right. apply Hsame; try done.
        -- cbn. rewrite upd_eq. destruct (w_did _ _ _ HW t) as [->|Hw]; [done|]. destruct (Hwk Hw) as (_ & _ & [->|[->|Hz]]); [exfalso|exfalso|done];
           unfold Term_Model.step in A1; cbn [fst snd] in A1; rewrite (proj2 (Nat.ltb_lt t n) Ht) in A1; unfold Term_Model.go in A1; destruct (at_ s t) eqn:Hp; try done; cbn in A1; Term_Proofs.fs; congruence.
        -- intros _ Ep. unfold progO in Ep. unfold Term_Model.step in A1, A2. cbn [fst snd] in A1, A2. rewrite (proj2 (Nat.ltb_lt t n) Ht) in A1, A2. unfold Term_Model.go, Term_Model.received in A1, A2. rewrite Ho in A1, A2.
           unfold due in Hdue. destruct (at_ s t) as [got|got|got snt own| |i acc|acc|i acc| |acc|i acc|acc|acc|i|i| |i|] eqn:Hp; try discriminate Hck.
           ++ injection Ep as ->. revert A1 A2. repeat Term_Live.ifs; cbn; Term_Proofs.fs; try done; try lia; intros; try congruence; lia.
           ++ destruct (nil (btq s t) || top s t) eqn:En; [|done]. injection Ep as ->. destruct called; [|rewrite (Hdue eq_refl), (proj1 HC) in En; discriminate En]. revert A1 A2. repeat Term_Live.ifs; cbn; Term_Proofs.fs; try done; intros; congruence.
           ++ destruct (todo (eng (bwho s)) t); [|done]. destruct (bbatch s t) as [|[v ?] ?]; [|done]. destruct (did (bwho s) t <? got)%N; [done|]. injection Ep as ->. revert A1 A2. cbv zeta. repeat Term_Live.ifs; cbn; Term_Proofs.fs; try done; intros; congruence.
    + right. apply Hsame; cbn.
      * apply loop_other. congruence.
      * apply queue_other; [congruence|]. intros Hw. by apply Hwk.
      * apply upd_ne. congruence.
      * done.
Qed.
Lemma alike_pot s s' m : alike s s' -> PotO s m -> PotO s' m.
Proof. intros H (b & HB & ->). exists b. rewrite (al_eng _ _ H), (al_trm _ _ H). done. Qed.
Lemma alike_prog s s' : alike s s' -> progO s' = progO s.
Proof. intros H. unfold progO. rewrite (al_eng _ _ H), (al_trm _ _ H), (al_did _ _ H). destruct (al_frame _ _ H) as [(w & ->) _]. done. Qed.
Lemma turn_due s s1 : CaseO s -> alike s s1 ->
  (t < n -> held s t = false -> bcmds s t <> [] -> breceiving a s t = false) ->
  (t < n -> held s t = false -> blooking a s t = true -> closed_now a s t = false) -> due s1.
Proof.
  intros (Ht & Ha & Ho & HC) H H1 H2. unfold due, breceiving. rewrite (al_trm _ _ H). destruct (al_frame _ _ H) as [(w & ->) _]. cbn [bset_who btq]. destruct called.
  - by apply H1.
  - intros Hl. rewrite looking_at in H2. specialize (H2 Ht Ha Hl). unfold closed_now in H2. destruct HC as [E HC]. rewrite E, HC, andb_true_r in H2. done.
Qed.
Lemma stepO s m y : Inv s -> CaseO s -> PotO s m -> goodt y -> fine s (actors y) -> let s' := turnr s y in
  less s' s \/ frame s s' /\ CaseO s' /\ ((exists m', m' < m /\ PotO s' m') \/ PotO s' m /\ progO s' = progO s).
Proof.
  intros HI HC HP Hy Hf. cbv zeta. destruct y as [| |u x|v].
  - cbn. destruct (split s BRemitter (proj1 HI) I) as [?|[Hs|(? & ? & [=] & _)]]; [by left|right]. cbn in Hs. rewrite Hs. split_and!; [apply frame_refl|done|by right].
  - cbn. destruct (split s BLogger (proj1 HI) I) as [?|[Hs|(? & ? & [=] & _)]]; [by left|right]. cbn in Hs. rewrite Hs. split_and!; [apply frame_refl|done|by right].
  - assert (Hx : allowed (BThread u x)) by (apply Hy; cbn; rewrite !elem_of_cons; auto).
    destruct (turn_cases s u x HI Hx Hf) as [?|(s1 & Hal & HI1 & -> & _ & T1 & T2)]; [by left|].
    pose proof (al_frame _ _ Hal) as HF. pose proof (case_frame _ _ HF HC) as HC1. pose proof (alike_pot _ _ _ Hal HP) as HP1. rewrite <- (alike_prog _ _ Hal).
    destruct (split s1 (BThread u x) (proj1 HI1) Hx) as [?|Hst]; [left; by eapply frame_less|right]. pose proof (still_frame _ _ Hst) as HF2.
    split_and!; [by eapply frame_trans|by eapply case_frame|]. destruct Hst as [->|(u' & c & [= <- ->] & Hu & Hak & Hc & Hpass & -> & Hop)]; [by right|].
    destruct (onO s1 u c m HI1 HC1 HP1 Hu Hc Hpass) as [?|(? & ? & _)]; try (by left); [| |by right].
    + rewrite Hop; [apply HC1|apply HC].
    + intros ->. by apply (turn_due s).
  - cbn. destruct (split s (BFinisher v) (proj1 HI) I) as [?|[Hs|(? & ? & [=] & _)]]; [by left|right]. cbn in Hs. rewrite Hs. split_and!; [apply frame_refl|done|by right].
Qed.
Lemma helpO s m : Inv s -> CaseO s -> PotO s m -> goodt (TThread t (progO s)) -> fine s (actors (TThread t (progO s))) -> let s' := turnr s (TThread t (progO s)) in
  less s' s \/ frame s s' /\ CaseO s' /\ exists m', m' < m /\ PotO s' m'.
Proof.
  intros HI HC HP Hy Hf. cbv zeta.
  assert (Hx : allowed (BThread t (progO s))) by (apply Hy; cbn; rewrite !elem_of_cons; auto).
  destruct (turn_cases s t (progO s) HI Hx Hf) as [?|(s1 & Hal & HI1 & -> & _ & T1 & T2)]; [by left|].
  pose proof (al_frame _ _ Hal) as HF. pose proof (case_frame _ _ HF HC) as HC1. pose proof (alike_pot _ _ _ Hal HP) as HP1. rewrite <- (alike_prog _ _ Hal) in Hx |- *. clear HP Hf Hy.
  pose proof (turn_due s s1 HC Hal (T1 : _) (T2 : _)) as Hdue.
  destruct (split s1 (BThread t (progO s1)) (proj1 HI1) Hx) as [?|Hst]; [left; by eapply frame_less|]. pose proof (still_frame _ _ Hst) as HF2.
  destruct HC1 as (Ht & Ha & Ho & HCc). 
  assert (Hplain : forall c, progO s1 = Loop c -> plain a c -> pass s1 t c = true -> less (bstep s1 (BThread t (progO s1))) s \/
    frame s (bstep s1 (BThread t (progO s1))) /\ CaseO (bstep s1 (BThread t (progO s1))) /\ exists m', m' < m /\ PotO (bstep s1 (BThread t (progO s1))) m').
  { intros c Ep Hc Hpass. right. split_and!; [by eapply frame_trans|eapply case_frame; [done|by split_and!]|].
    assert (E : bstep s1 (BThread t (progO s1)) = bon s1 t c).
    { cbn [Block_Model.bstep]. unfold btstep. rewrite (proj2 (Nat.leb_gt n t) Ht), Ha, Ep. rewrite loop_pass by done. by rewrite Hpass. }
    destruct (onO s1 t c m HI1 ltac:(by split_and!) HP1 Ht Hc Hpass) as [?|(_ & _ & X)].
    - rewrite <- E. by rewrite (proj2 HF2).
    - done.
    - by rewrite E.
    - by destruct (X eq_refl). }
  assert (Hck : at_check (at_ s1 t) = false). { destruct (at_check (at_ s1 t)) eqn:Ec; [|done]. apply (proj2 (reach_placed s1 t (proj1 HI1))) in Ec. congruence. }
  assert (Hdist : progO s1 = Pull 1 0 /\ nil (btq s1 t) = false /\ top s1 t = false /\ at_look (at_ s1 t) = true \/ (exists v x l, progO s1 = Loop (Do (AddEdges v [])) /\ bbatch s1 t = (v, x) :: l /\ todo (eng (bwho s1)) t = []) \/
    exists c, progO s1 = Loop c /\ plain a c /\ pass s1 t c = true).
  { unfold progO. destruct (at_ s1 t) as [got|got|got snt own| |i acc|acc|i acc| |acc|i acc|acc|acc|i|i| |i|] eqn:Hp; try discriminate Hck.
    - right. right. eexists. split_and!; [done|done|]. cbn. by rewrite looking_at, Hp.
    - destruct (nil (btq s1 t) || top s1 t) eqn:En; [|left; apply orb_false_iff in En as [? ?]; done]. right. right. eexists. split_and!; [done|done|]. cbn. rewrite <- andb_assoc, <- negb_orb, En. by rewrite andb_false_r.
    - right. destruct (todo (eng (bwho s1)) t) eqn:Et.
      + destruct (bbatch s1 t) as [|[v x] l] eqn:Eb; [right|left; by exists v, x, l]. destruct (did (bwho s1) t <? got)%N; eexists; (split_and!; [done| |cbn; by rewrite Eb]); cbn; unfold acts; rewrite ?elem_of_cons; auto.
      + right. eexists. split_and!; [done| |done]. cbn. unfold acts. apply elem_of_list_here. }
  destruct Hdist as [(Ep & En & Etp & El)|[(v & x & l & Ep & Eb & Et)|(c & Ep & Hc & Hpass)]]; [exfalso|exfalso|by apply (Hplain c)].
  - apply still_same in Hst as (_ & _ & _ & E & _). apply (f_equal (fun f => f t)) in E. revert E. cbn [Block_Model.bstep]. unfold btstep. rewrite (proj2 (Nat.leb_gt n t) Ht), Ha, Ep. unfold bpull, bmay_pull.
    rewrite looking_at, El, Ho, Etp. destruct (btq s1 t) as [|e q] eqn:Eq; [done|]. cbn. change (negb (1 + 0 =? 0)%N) with true. cbn. rewrite upd_eq. intros E. apply (f_equal length) in E. rewrite skipn_length in E. cbn in E. lia.
  - destruct (h_did _ (reach_held s1 (proj1 HI1)) t) as (Hd0 & got & snt & own & Hw & Hown0); [by rewrite Eb|]. assert (Hov : owner v = t) by (apply (h_own _ (reach_held s1 (proj1 HI1)) t v x); left; rewrite Eb; apply elem_of_list_here).
    apply still_same in Hst as (_ & _ & _ & _ & E & _). apply (f_equal (fun f => f t)) in E. revert E. cbn [Block_Model.bstep]. unfold btstep. rewrite (proj2 (Nat.leb_gt n t) Ht), Ha, Ep. cbn [bloop].
    assert (Eo : nil (out (bbatch s1 t) v) = false) by (rewrite Eb; unfold out; cbn; by rewrite Nat.eqb_refl). rewrite Hov, Nat.eqb_refl, Eo.
    assert (Ee : ework a (bwho s1) t (Do (AddEdges v (out (bbatch s1 t) v))) = [(t, AddEdges v (out (bbatch s1 t) v))]).
    { unfold ework. rewrite Hw, Et, Hd0. by rewrite (proj2 (N.eqb_neq own 0) Hown0). }
    rewrite Ee. cbn. rewrite upd_eq. intros E. unfold rest_of in E. rewrite Eb in E. cbn in E. rewrite Nat.eqb_refl in E. cbn in E. apply (f_equal length) in E. cbn in E. assert (X : length (List.filter (fun x => negb (fst x =? v)) l) <= length l) by (clear; induction l as [|y l IH]; [done|cbn; destruct (negb (fst y =? v)); cbn; lia]). lia.
Qed.
Lemma ev_open s : Inv s -> CaseO s -> ev (fun s' => less s' s) s.
Proof.
  intros HI HC. destruct (Hfin s (proj1 HI)) as (b & HB). apply (ev_mono (fun s' => less s' s \/ frame s s' /\ False)); [|naive_solver].
  refine (progress_goal CaseO PotO (fun s z => z = TThread t (progO s)) (fun _ => False) _ _ _ _ _ s HI HC _); [| | |done|by exists b].
  - intros s1 m y z HI1 HC1 HP1 -> Hy Hf. destruct (stepO s1 m y HI1 HC1 HP1 Hy Hf) as [?|(? & ? & [?|[? E]])]; [by left|right; split; [done|right; split; [done|by left]]|right; split; [done|right; split; [done|right; split; [done|by rewrite E]]]].
  - intros s1 m z HI1 HC1 HP1 -> Hy Hf. destruct (helpO s1 m HI1 HC1 HP1 Hy Hf) as [?|(? & ? & ?)]; [by left|right; split; [done|right; by split]].
  - intros s1 HI1 HC1. right. eexists. split; [done|]. intros l (_ & _ & _ & H & H' & _). unfold progO. destruct HC1 as (Ht & _).
    assert (HD : forall x, x ∈ duties -> TThread t x ∈ l) by (intros x Hx; by apply H).
    assert (HG : TThread t (Loop (Ctl Term_Model.Go)) ∈ l) by (apply HD; unfold duties; rewrite !elem_of_cons; auto).
    destruct (at_ s1 t) as [got|got|got snt own| |i acc|acc|i acc| |acc|i acc|acc|acc|i|i| |i|]; try done.
    + destruct (nil (btq s1 t) || top s1 t); [done|]. apply HD; unfold duties; rewrite !elem_of_cons; auto 10.
    + destruct (todo (eng (bwho s1)) t); [|apply HD; unfold duties; rewrite !elem_of_cons; auto 10].
      destruct (bbatch s1 t) as [|[v x] q] eqn:Eb; [destruct (did (bwho s1) t <? got)%N; apply HD; unfold duties; rewrite !elem_of_cons; auto 10|].
      pose proof (reach_held s1 (proj1 HI1)) as HH. assert (Hin : (v, x) ∈ bbatch s1 t) by (rewrite Eb; apply elem_of_list_here).
      rewrite <- (h_own _ HH t v x (or_introl Hin)). apply H'. apply elem_of_list_In. apply (in_map fst evs (v, x)). apply elem_of_list_In. apply (h_evs _ HH t). by left.
Qed.
End opens.

(** When every thread is closed, the algorithm comes to rest. *)
Definition CaseC (s : bst) : Prop := forall t, t < n -> open_ s t = false.
Definition PotC (s : bst) (m : nat) : Prop := exists b, budget a owner (eng (bwho s)) b /\ Live_Proofs.rem a n (bwho s) b = m.
Definition helpC (s : bst) (z : turn a) : Prop := exists t, t < n /\ at_rest (trm (bwho s)) t = false /\ z = TThread t (Loop (Live_Proofs.prog a (bwho s) t)).
Definition calm (s : bst) : Prop := Term_Proofs.quiet n (trm (bwho s)).
Lemma closed_frame s s' : frame s s' -> CaseC s -> CaseC s'.
Proof. intros (_ & Ho) H t Ht. by rewrite Ho, H. Qed.
Lemma closed_pass s t c : reach s -> CaseC s -> t < n -> c ∈ turns a -> pass s t c = true.
Proof.
  intros HR HC Ht Hc. pose proof (reach_inv s HR) as HQ. pose proof (b_batch_open _ _ _ _ _ _ _ _ _ HQ t (HC t Ht)) as Hb.
  assert (Hl : blooking a s t = false). { rewrite looking_at. destruct (at_look (at_ s t)) eqn:E; [|done]. apply (proj1 (reach_placed s t HR)) in E. rewrite (HC t Ht) in E. done. }
  unfold turns in Hc. rewrite !elem_of_cons, elem_of_nil in Hc. destruct Hc as [->|[->|[->|[->|[]]]]]; cbn; rewrite ?Hl, ?Hb; done.
Qed.
Lemma closed_free s t : reach s -> CaseC s -> t < n -> held s t = false.
Proof.
  intros HR HC Ht. destruct (held s t) eqn:Hh; [|done]. pose proof (u_open s (reach_up s HR) t Ht (or_intror Hh)) as Ho. by rewrite (HC t Ht) in Ho.
Qed.
Lemma alike_potC s s' m : alike s s' -> PotC s m -> PotC s' m.
Proof. intros H (b & HB & <-). exists b. unfold Live_Proofs.rem. rewrite (al_eng _ _ H), (al_trm _ _ H). done. Qed.
Lemma alike_progC s s' t : alike s s' -> Live_Proofs.prog a (bwho s') t = Live_Proofs.prog a (bwho s) t.
Proof. intros H. unfold Live_Proofs.prog. by rewrite (al_eng _ _ H), (al_trm _ _ H), (al_did _ _ H). Qed.
Lemma onC s u c m : Inv s -> CaseC s -> PotC s m -> u < n -> plain a c -> 
  exists m', m' <= m /\ PotC (bon s u c) m' /\ (forall w, w < n -> at_rest (trm (bwho s)) w = false -> m' < m \/ at_rest (trm (bwho (bon s u c))) w = false /\ Live_Proofs.prog a (bwho (bon s u c)) w = Live_Proofs.prog a (bwho s) w) /\
    (at_rest (trm (bwho s)) u = false -> Live_Proofs.prog a (bwho s) u = c -> m' < m).
Proof.
  intros [HR HS] HC (b & HB & <-) Hu Hc. assert (HG : Live_Proofs.good a owner n (bwho s) b) by (constructor; [apply (b_w _ _ _ _ _ _ _ _ _ (reach_inv s HR))|exact HC|done]).
  destruct (step_rem a owner swap n Hown (bwho s) u c b HG Hc (done_empty_sound s HS)) as (b' & HG' & R1 & R2 & R3). exists (Live_Proofs.rem a n (wstep (bwho s) u c) b'). split_and!.
  - done.
  - exists b'. split; [apply HG'|done].
  - intros w Hw Hr. destruct (R2 w Hw Hr) as [?|Hs]; [by left|right]. apply same_prog in Hs as [E1 E2]. cbn [Block_Model.bon bset_who bwho]. by rewrite E1, E2.
  - intros Hr Hp. by apply R3.
Qed.
Lemma alike_helpC s s' z : alike s s' -> helpC s z -> helpC s' z.
Proof. intros H (t & Ht & Hr & ->). exists t. rewrite (al_trm _ _ H), (alike_progC _ _ _ H). done. Qed.
Lemma stepC s m y z : Inv s -> CaseC s -> PotC s m -> helpC s z -> goodt y -> fine s (actors y) -> let s' := turnr s y in
  less s' s \/ frame s s' /\ CaseC s' /\ ((exists m', m' < m /\ PotC s' m') \/ PotC s' m /\ helpC s' z).
Proof.
  intros HI HC HP Hz Hy Hf. cbv zeta. destruct y as [| |u x|v].
  - cbn. destruct (split s BRemitter (proj1 HI) I) as [?|[Hs|(? & ? & [=] & _)]]; [by left|right]. cbn in Hs. rewrite Hs. split_and!; [apply frame_refl|done|by right].
  - cbn. destruct (split s BLogger (proj1 HI) I) as [?|[Hs|(? & ? & [=] & _)]]; [by left|right]. cbn in Hs. rewrite Hs. split_and!; [apply frame_refl|done|by right].
  - assert (Hx : allowed (BThread u x)) by (apply Hy; cbn; rewrite !elem_of_cons; auto).
    destruct (turn_cases s u x HI Hx Hf) as [?|(s1 & Hal & HI1 & -> & _ & _)]; [by left|].
    pose proof (al_frame _ _ Hal) as HF. pose proof (closed_frame _ _ HF HC) as HC1. pose proof (alike_potC _ _ _ Hal HP) as HP1. pose proof (alike_helpC _ _ _ Hal Hz) as Hz1.
    destruct (split s1 (BThread u x) (proj1 HI1) Hx) as [?|Hst]; [left; by eapply frame_less|right]. pose proof (still_frame _ _ Hst) as HF2.
    split_and!; [by eapply frame_trans|by eapply closed_frame|]. destruct Hst as [->|(u' & c & [= <- ->] & Hu & Hak & Hc & Hpass & -> & Hop)]; [by right|].
    destruct (onC s1 u c m HI1 HC1 HP1 Hu Hc) as (m' & H1 & H2 & H3 & _). destruct Hz1 as (t & Ht & Hr & ->). destruct (H3 t Ht Hr) as [?|[E1 E2]]; [left; by exists m'|].
    destruct (decide (m' < m)); [left; by exists m'|right]. assert (m' = m) by lia. subst m'. split; [done|]. exists t. by rewrite E1, E2.
  - cbn. destruct (split s (BFinisher v) (proj1 HI) I) as [?|[Hs|(? & ? & [=] & _)]]; [by left|right]. cbn in Hs. rewrite Hs. split_and!; [apply frame_refl|done|by right].
Qed.
Lemma ev_rest s : Inv s -> CaseC s -> ev (fun s' => less s' s \/ frame s s' /\ calm s') s.
Proof.
  intros HI HC. destruct (Hfin s (proj1 HI)) as (b & HB).
  refine (progress_goal CaseC PotC helpC calm _ _ _ _ _ s HI HC _); [| | | |by exists b].
  - intros s1 m y z HI1 HC1 HP1 Hz Hy Hf. destruct (stepC s1 m y z HI1 HC1 HP1 Hz Hy Hf) as [?|(? & ? & ?)]; [by left|right; split; [done|right; by split]].
  - intros s1 m z HI1 HC1 HP1 (t & Ht & Hr & ->) Hy Hf. set (c := Live_Proofs.prog a (bwho s1) t) in *. cbv zeta.
    assert (Hx : allowed (BThread t (Loop c))) by (apply Hy; cbn; rewrite !elem_of_cons; auto). pose proof (Live_Proofs.prog_turns a (bwho s1) t : c ∈ turns a) as Hin.
    destruct (turn_cases s1 t (Loop c) HI1 Hx Hf) as [?|(s2 & Hal & HI2 & -> & _ & _)]; [by left|].
    pose proof (al_frame _ _ Hal) as HF. pose proof (closed_frame _ _ HF HC1) as HC2. pose proof (alike_potC _ _ _ Hal HP1) as HP2.
    destruct (split s2 (BThread t (Loop c)) (proj1 HI2) Hx) as [?|Hst]; [left; by eapply frame_less|right]. pose proof (still_frame _ _ Hst) as HF2.
    split; [by eapply frame_trans|]. right. split; [by eapply closed_frame|].
    assert (Hc : plain a c). { unfold turns in Hin. rewrite !elem_of_cons, elem_of_nil in Hin. unfold plain, acts. destruct Hin as [->|[->|[->|[->|[]]]]]; rewrite ?elem_of_cons; auto. }
    assert (Ha : held s2 t = false) by (by apply closed_free; [apply HI2| |]).
    assert (E : bstep s2 (BThread t (Loop c)) = bon s2 t c).
    { cbn [Block_Model.bstep]. unfold btstep. rewrite (proj2 (Nat.leb_gt n t) Ht), Ha. rewrite loop_pass by done. by rewrite (closed_pass s2 t c (proj1 HI2) HC2 Ht Hin). }
    rewrite E. destruct (onC s2 t c m HI2 HC2 HP2 Ht Hc) as (m' & H1 & H2 & _ & H4). exists m'. split; [|done]. apply H4; [by rewrite (al_trm _ _ Hal)|]. by apply (alike_progC s1 s2).
  - intros s1 HI1 HC1. destruct (rest_dec a owner n Hown (bwho s1)) as [Hr|(t & Ht & Hr)]; [left; by apply rest_quiet|right]. exists (TThread t (Loop (Live_Proofs.prog a (bwho s1) t))). split; [by exists t|].
    intros l (_ & _ & _ & H & _). apply H; [done|]. pose proof (Live_Proofs.prog_turns a (bwho s1) t) as Hin. unfold turns in Hin. rewrite !elem_of_cons, elem_of_nil in Hin. unfold duties. rewrite !elem_of_cons. destruct Hin as [->|[->|[->|[->|[]]]]]; auto 10.
  - intros s1 y HI1 HG Hy Hf. apply keep_run; try done. intros s2 x HI2 HG2 Hx [->|(u & c & -> & Hu & _ & _ & _ & -> & _)]; [done|].
    exact (proj1 (quiet_run a owner swap n Hown [(u, c)] (bwho s2) (b_w _ _ _ _ _ _ _ _ _ (reach_inv s2 (proj1 HI2))) HG2)).
Qed.

(** And then they leave. *)
Definition texec := Term_Model.exec swap n.
Definition ttidy (k : Term_Model.st) (l : list (nat * Term_Model.choice)) : Prop := swap = true \/ Term_Proofs.tidy swap n k l.
Lemma ttidy_app k l1 l2 : ttidy k l1 -> ttidy (texec k l1) l2 -> ttidy k (l1 ++ l2).
Proof. intros [?|H1] [?|H2]; try (by left). right. by apply Term_Live.tidy_app. Qed.
Lemma texec_app k l1 l2 : texec k (l1 ++ l2) = texec (texec k l1) l2.
Proof. unfold texec, Term_Model.exec. by rewrite fold_left_app. Qed.
Lemma calm_closed s : calm s -> CaseC s.
Proof. intros H t Ht. by apply H. Qed.
Lemma calm_step s x : Inv s -> calm s -> allowed x -> (swap = true \/ clear s x) -> less (bstep s x) s \/ frame s (bstep s x) /\ calm (bstep s x) /\
  exists tl, trm (bwho (bstep s x)) = texec (trm (bwho s)) tl /\ ttidy (trm (bwho s)) tl /\ forall t, t < n -> x = BThread t (Loop (Ctl Term_Model.Go)) -> (t, Term_Model.Go) ∈ tl.
Proof.
  intros HI HG Hx Hcl. destruct (split s x (proj1 HI) Hx) as [?|Hst]; [by left|right]. split; [by apply still_frame|]. pose proof (reach_inv s (proj1 HI)) as HQ.
  split. { destruct Hst as [->|(u & c & -> & Hu & _ & _ & _ & -> & _)]; [done|]. exact (proj1 (quiet_run a owner swap n Hown [(u, c)] (bwho s) (b_w _ _ _ _ _ _ _ _ _ HQ) HG)). }
  assert (Hon : forall u c, bstep s x = bon s u c -> (exists y, x = BThread u y) -> exists tl, trm (bwho (bstep s x)) = texec (trm (bwho s)) tl /\ ttidy (trm (bwho s)) tl /\ (u < n -> c = Ctl Term_Model.Go -> (u, Term_Model.Go) ∈ tl)).
  { intros u c -> (y & ->). exists (lwork a owner (bwho s) u c). split_and!.
    - cbn [Block_Model.bon bset_who bwho]. apply trm_step.
    - destruct (lwork_one a owner (bwho s) u c) as [->|(k & ->)]; [by right|]. destruct Hcl as [?|Hcl]; [by left|right]. cbn. by split.
    - intros Hu ->. unfold lwork. destruct (HG u Hu) as (Hi & _). destruct (at_ s u); try discriminate Hi; apply elem_of_list_here. }
  destruct Hst as [Hs|(u & c & -> & Hu & Ha & Hc & Hpass & E & _)].
  - assert (Hd : (exists t, t < n /\ x = BThread t (Loop (Ctl Term_Model.Go))) \/ ~ (exists t, t < n /\ x = BThread t (Loop (Ctl Term_Model.Go)))).
    { destruct x as [| |t [|[[]|]| | |]|]; try (right; intros (? & ? & [=]); done). destruct (decide (t < n)); [left; by exists t|right]. intros (? & ? & [=]). subst. done. }
    destruct Hd as [(t & Ht & ->)|Hno].
    + pose proof (closed_free s t (proj1 HI) (calm_closed s HG) Ht) as Ha.
      assert (E : bstep s (BThread t (Loop (Ctl Term_Model.Go))) = bon s t (Ctl Term_Model.Go)).
      { cbn [Block_Model.bstep]. unfold btstep. rewrite (proj2 (Nat.leb_gt n t) Ht), Ha. rewrite loop_pass by done. rewrite (closed_pass s t _ (proj1 HI) (calm_closed s HG) Ht); [done|]. apply elem_of_list_here. }
      destruct (Hon t _ E ltac:(by eexists)) as (tl & H1 & H2 & H3). exists tl. split_and!; try done. intros t' Ht' [= <-]. by apply H3.
    + exists []. rewrite Hs. split_and!; [done|by right|]. intros t Ht ->. destruct Hno. by exists t.
  - destruct (Hon u _ E ltac:(by eexists)) as (tl & H1 & H2 & H3). exists tl. split_and!; try done. intros t' Ht' [= <- ->]. by apply H3.
Qed.
Lemma calm_steps l : forall s, Inv s -> calm s -> (forall x, x ∈ l -> allowed x) -> fine s l -> less (brun s l) s \/ frame s (brun s l) /\ calm (brun s l) /\
  exists tl, trm (bwho (brun s l)) = texec (trm (bwho s)) tl /\ ttidy (trm (bwho s)) tl /\ forall t, t < n -> BThread t (Loop (Ctl Term_Model.Go)) ∈ l -> (t, Term_Model.Go) ∈ tl.
Proof.
  induction l as [|x l IH]; intros s HI HG Hl Hf.
  { right. split_and!; [apply frame_refl|done|]. exists []. split_and!; [done|by right|]. intros t _ H. by apply elem_of_nil in H. }
  apply fine_cons in Hf as [Hc Hf]. cbn [Block_Model.brun fold_left].
  assert (Hx : allowed x) by (apply Hl, elem_of_list_here). assert (Hl' : forall y, y ∈ l -> allowed y) by (intros y Hy; apply Hl; by apply elem_of_list_further).
  assert (HI' : Inv (bstep s x)) by (by apply inv_step). change (fold_left bstep l (bstep s x)) with (brun (bstep s x) l).
  destruct (calm_step s x HI HG Hx Hc) as [Hs|(HF & HG' & tl & E & Ht & Hin)].
  - left. destruct (run_mono l (bstep s x) (proj1 HI') Hl'); [by eapply less_trans|by eapply less_frame].
  - destruct (IH (bstep s x) HI' HG' Hl' Hf) as [?|(HF2 & HG2 & tl2 & E2 & Ht2 & Hin2)]; [left; by eapply frame_less|right]. split_and!; [by eapply frame_trans|done|].
    exists (tl ++ tl2). rewrite E in E2, Ht2. split_and!; [by rewrite texec_app|by apply ttidy_app|]. intros t Hn Hi. apply elem_of_app. apply elem_of_cons in Hi as [Hi|Hi]; [left; by apply Hin|right; by apply Hin2].
Qed.
Lemma calm_rounds R s : Inv s -> calm s -> fairR R -> fineR R s -> forall k, less (after R s k) s \/ frame s (after R s k) /\ calm (after R s k) /\
  exists trs, length trs = k /\ trm (bwho (after R s k)) = texec (trm (bwho s)) (concat trs) /\ ttidy (trm (bwho s)) (concat trs) /\ Forall (Term_Live.fair n) trs.
Proof.
  intros HI HG HF Hf k. induction k as [|k IH].
  { right. split_and!; [apply frame_refl|done|]. exists []. split_and!; try done. by right. }
  pose proof (inv_after R s k HI HF Hf) as HIk. cbn [Nat.add BLive_Model.after]. destruct IH as [Hs|(HFr & HGk & trs & Hlen & E & Ht & Hfa)].
  - left. destruct (run_mono (steps_of (R k)) (after R s k) (proj1 HIk) (proj1 (HF k))); [by eapply less_trans|by eapply less_frame].
  - destruct (calm_steps (steps_of (R k)) (after R s k) HIk HGk (proj1 (HF k)) (Hf k)) as [?|(HF2 & HG2 & tl & E2 & Ht2 & Hin2)]; [left; by eapply frame_less|right].
    split_and!; [by eapply frame_trans|done|]. exists (trs ++ [tl]). rewrite concat_app. cbn [concat]. rewrite app_nil_r, app_length, texec_app. cbn. rewrite E in E2, Ht2. split_and!; [lia|done|by apply ttidy_app|].
    apply List.Forall_app. split; [done|]. constructor; [|done]. intros t Hn. apply Hin2; [done|]. destruct (HF k) as (_ & _ & _ & H & _).
    specialize (H t (Loop (Ctl Term_Model.Go)) Hn ltac:(apply elem_of_list_here)). apply elem_of_list_In. unfold steps_of. apply in_concat. exists (actors (TThread t (Loop (Ctl Term_Model.Go)))). split; [by apply in_map, elem_of_list_In|cbn; auto].
Qed.
Definition all_done (s : bst) : Prop := forall t, t < n -> at_ s t = Term_Model.Done.
Lemma ev_calm s : Inv s -> calm s -> ev (fun s' => less s' s \/ frame s s' /\ all_done s') s.
Proof.
  intros HI HG R HF Hf. exists (7 * (10 * n + 31)). destruct (calm_rounds R s HI HG HF Hf (7 * (10 * n + 31))) as [?|(H1 & _ & trs & Hlen & E & Ht & Hfa)]; [by left|right]. split; [done|].
  intros t Hn. rewrite E. apply Term_Live.all_leave; try done; [apply HI|lia].
Qed.
Lemma ev_closed s : Inv s -> CaseC s -> ev (fun s' => less s' s \/ frame s s' /\ all_done s') s.
Proof.
  intros HI HC. apply (ev_then _ _ s HI (ev_rest s HI HC)). intros s1 HI1 [H|[HF HG]]; [apply ev_now; by left|].
  apply (ev_mono _ _ _ (ev_calm s1 HI1 HG)). intros s2 [H|[H1 H2]]; [left; by eapply frame_less|right; split; [by eapply frame_trans|done]].
Qed.

(** Everything has come to an end. *)
Definition over (s : bst) : Prop := brem s = Finished /\ fin s = [] /\ forall t, t < n -> at_ s t = Term_Model.Done /\ top s t = false /\ held s t = false.
Lemma some_or_none (P : nat -> Prop) : (forall t, P t \/ ~ P t) -> (exists t, t < n /\ P t) \/ forall t, t < n -> ~ P t.
Proof. exact (QLive_Proofs.some_or_none a owner n Hown e0 sent0 F1 F2 F3 P). Qed.
Lemma ev_read s v : Inv s -> v ∈ fin s -> ev (fun s' => less s' s) s.
Proof.
  intros HI Hv. apply (immediate (fun s => v ∈ fin s) (TRead v)); try done.
  - intros s1 x _ E _ Hs. apply still_same in Hs as (-> & _). done.
  - intros s1 HI1 E _ _. cbn. destruct (split s1 (BFinisher v) (proj1 HI1) I) as [?|Hs]; [done|exfalso]. destruct Hs as [Hs|(? & ? & [=] & _)]. revert Hs. cbn. unfold bread.
    assert (Ex : existsb (Nat.eqb v) (fin s1) = true) by (apply existsb_exists; exists v; split; [by apply elem_of_list_In|apply Nat.eqb_refl]). rewrite Ex. intros Hs. apply (f_equal fin) in Hs. cbn in Hs.
    rewrite <- Hs in E. apply elem_of_list_In, filter_In in E as [_ E]. by rewrite Nat.eqb_refl in E.
  - intros l (_ & _ & _ & _ & _ & H). apply H, (u_fin s (reach_up s (proj1 HI)) v Hv).
Qed.
Lemma onward s : Inv s -> ev (fun s' => less s' s \/ over s') s.
Proof.
  intros HI. assert (HL : ev (fun s' => less s' s) s -> ev (fun s' => less s' s \/ over s') s) by (intros H; apply (ev_mono _ _ _ H); auto).
  pose proof (reach_inv s (proj1 HI)) as HQ. pose proof (b_mode _ _ _ _ _ _ _ _ _ HQ) as HM.
  assert (Hst : brem s = Streaming \/ brem s <> Streaming) by (destruct (brem s); auto). destruct Hst as [Hst|Hst]; [by apply HL, ev_stream|].
  destruct (some_or_none (fun t => held s t = true /\ bcmds s t = [BResume])) as [(t & Ht & H1 & H2)|Hno1].
  { intros t. destruct (held s t); [|right; by intros [? _]]. destruct (bcmds s t) as [|[] []]; auto; right; by intros [_ ?]. }
  { by apply HL, (ev_awake s t). }
  destruct (some_or_none (fun t => held s t = false /\ open_ s t = true /\ bcmds s t <> [])) as [(t & Ht & H1 & H2 & H3)|Hno2].
  { intros t. destruct (held s t); [right; by intros [? _]|]. destruct (open_ s t); [|right; by intros (_ & ? & _)]. destruct (bcmds s t); [right; by intros (_ & _ & ?)|left]. done. }
  { apply HL, (ev_open true t); done. }
  assert (Hfreed : forall t, t < n -> ~ b_in a async BFreed s t).
  { intros t Ht (Hb & Hc & _). destruct (held s t) eqn:Hh; [by apply (Hno1 t Ht)|]. apply (Hno2 t Ht). split_and!; [done| |congruence].
    apply (u_open s (reach_up s (proj1 HI)) t Ht). unfold blocked in Hb. destruct async; [left; apply Hb|]. destruct Hb as (_ & ? & _). congruence. }
  destruct (brem s) eqn:Er; [done| |].
  - (* the Remitter waits for the answer *)
    assert (Hop : forall t, open_ s t = true) by (intros t; apply (b_early _ _ _ _ _ _ _ _ _ HQ); congruence).
    destruct (ready s) eqn:Erd; [by apply HL, ev_logger|]. unfold ready in Erd. destruct (blg s) as [|i|i| |i] eqn:El; try discriminate Erd.
    + exfalso. apply orb_false_iff in Erd as [E1 E2]. apply negb_false_iff, Nat.ltb_lt in E1. destruct (HM i E1) as (m & Hm & Hi). unfold bmodes in Hm. rewrite (proj2 (Nat.ltb_ge i i) (Nat.le_refl i)) in Hm.
      destruct Hm as [->| ->]; [|by apply (Hfreed i)]. destruct Hi as (_ & _ & Hi & _). by rewrite Hi in E2.
    + exfalso. apply orb_false_iff in Erd as [E1 E2]. apply negb_false_iff, Nat.ltb_lt in E1. apply negb_false_iff, Nat.eqb_eq in E2. destruct (HM i E1) as (m & Hm & Hi). unfold bmodes in Hm. rewrite (proj2 (Nat.ltb_ge i i) (Nat.le_refl i)) in Hm.
      destruct Hm as [->| ->]; cbn in Hi; destruct_and?; [|congruence]. apply (Hno2 i E1). split_and!; [done|done|congruence].
    + destruct (fin s) as [|v l] eqn:Ef; [done|]. apply HL, (ev_read s v HI). rewrite Ef. apply elem_of_list_here.
    + exfalso. apply orb_false_iff in Erd as [E1 E2]. apply negb_false_iff, Nat.ltb_lt in E1. destruct (HM i E1) as (m & Hm & Hi). unfold bmodes in Hm. rewrite (proj2 (Nat.ltb_ge i i) (Nat.le_refl i)) in Hm. subst m.
      cbn in Hi. destruct Hi as (_ & Hi & _). by rewrite Hi in E2.
  - (* all events have been sent *)
    assert (El : blg s = LWait). { destruct (blg s) eqn:El; [done| | | |]; pose proof (b_asking _ _ _ _ _ _ _ _ _ HQ) as Hq; rewrite El in Hq; specialize (Hq I); congruence. }
    assert (Hfree : forall t, t < n -> b_in a async BFree s t).
    { intros t Ht. destruct (HM t Ht) as (m & Hm & Hi). rewrite El in Hm. cbn in Hm. destruct Hm as [->| ->]; [done|]. by destruct (Hfreed t Ht). }
    destruct (fin s) as [|v l] eqn:Ef; [|apply HL, (ev_read s v HI); rewrite Ef; apply elem_of_list_here].
    destruct (some_or_none (fun t => open_ s t = true)) as [(t & Ht & H1)|Hno3]; [intros t; destruct (open_ s t); auto|..].
    { apply HL, (ev_open false t); [done|]. destruct (Hfree t Ht) as (? & ? & _). split_and!; try done. unfold bfinished. by rewrite Er. }
    assert (HC : CaseC s) by (intros t Ht; specialize (Hno3 t Ht); by destruct (open_ s t)).
    apply (ev_mono _ _ _ (ev_closed s HI HC)). intros s1 [H|[HF HD]]; [by left|right]. destruct HF as [(w & Ew) _]. split; [by rewrite Ew|]. split; [by rewrite Ew|]. intros t Ht. destruct (Hfree t Ht) as (? & ? & _). split_and!; [by apply HD|by rewrite Ew|by rewrite Ew].
Qed.
Lemma less_wf : well_founded less.
Proof.
  assert (G : forall x1 x2 x5 x3 x4 s, mA s = x1 -> mB s = x2 -> mF s = x5 -> mD s = x3 -> mO s = x4 -> Acc less s).
  { intros x1. induction x1 as [x1 IH1] using (well_founded_induction lt_wf). intros x2. induction x2 as [x2 IH2] using (well_founded_induction lt_wf). intros x5. induction x5 as [x5 IH5] using (well_founded_induction lt_wf).
    intros x3. induction x3 as [x3 IH3] using (well_founded_induction lt_wf). intros x4. induction x4 as [x4 IH4] using (well_founded_induction lt_wf).
    intros s E1 E2 E5 E3 E4. constructor. intros s' [H|(F1' & [H|(F2' & [H|(F5' & [H|(F3' & H)])])])].
    - eapply (IH1 (mA s')); [lia|done..].
    - eapply (IH2 (mB s')); [lia|lia|done..].
    - eapply (IH5 (mF s')); [lia|lia|lia|done..].
    - eapply (IH3 (mD s')); [lia|lia|lia|lia|done..].
    - eapply (IH4 (mO s')); [lia|lia|lia|lia|lia|done]. }
  intros s. by eapply G.
Qed.
Lemma ev_over s : Inv s -> ev over s.
Proof.
  induction s as [s IH] using (well_founded_induction less_wf). intros HI. apply (ev_then _ _ s HI (onward s HI)). intros s1 HI1 [H|H]; [by apply IH|by apply ev_now].
Qed.
End live.
