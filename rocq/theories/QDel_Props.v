(** C87: a query sees the graph of exactly the additions and deletions before it, converged. *)
From Verif Require Import Base RBO_Spec QcUtil Engine_Spec Engine_Model Engine_Proofs Engine_Shape Engine_Props.
From Verif Require Import Rank_Spec Rank_Model Rank_Proofs Rank_Run Rank_Wake Rank_Props Rank_Error Rank_Close RankRest_Props.
From Verif Require Import Whole_Model Whole_Proofs Whole_Props QDel_Spec QDel_Model QDel_Lists QDel_Proofs.
From Verif Require Term_Model Term_Proofs Colour_Spec Colour_Model Colour_Props.
From Coq Require Import QArith Qcanon.
Open Scope nat_scope.

Section query.
Context (a : alg) (owner : nat -> nat) (swap : bool) (n : nat) (Hown : forall v, owner v < n).
Context (evs : list (nat * change (edge_t a))) (ask : nat -> bool).
Notation qrun := (qrun a owner swap n evs ask).

(** A query is looking at the graph, or the program has ended. *)
Definition looks (s : qst a) : Prop := lg s = LView \/ forall t, t < n -> left (who s) t /\ epoch s t = false.

(** What is seen then: nothing is left to do for the algorithm, EnsureCompleteness would not
    panic; the first [nxt s] events never delete an edge that is not there, and the graph is what they
    leave, up to which of several parallel edges were deleted: the edges of a vertex are some of those ever
    added, in their order, and the right number of them goes to each destination. *)
Theorem C87_view e sent0 sched : fresh n e sent0 -> let s := qrun (qstart a e sent0) sched in looks s ->
  idle (eng (who s)) /\ complete n (who s) = true /\
  (forall v, let cs := changes (firstn (nxt s) evs) v in
     (exists r, after (edges e v) cs = Some r /\ same r (edges (eng (who s)) v)) /\ sublist (edges (eng (who s)) v) (edges e v ++ added cs)) /\
  (lg s = LView -> ask (nxt s) = true) /\ (0 < n -> lg s <> LView -> nxt s = length evs).
Proof.
  intros (F1 & F2 & F3) s Hl.
  assert (H : qinv a owner swap n evs ask e s) by (by apply (qrun_inv a owner swap n Hown), (qstart_inv a owner swap n Hown)).
  assert (HD : forall t, t < n -> Term_Model.at_ (trm (who s)) t = Term_Model.Done).
  { intros t Ht. destruct Hl as [Hl|Hl]; [by destruct (view_done _ _ _ _ _ _ _ s H Hl t Ht) as (_ & _ & _ & _ & ?)|by apply Hl]. }
  destruct (all_done_rest a owner swap n Hown evs ask e s H HD) as (HI & HC & HE). split_and!; try done.
  - intros v cs. destruct (HE v) as (dn & r & E1 & E2 & E3 & E4). rewrite app_nil_r in E1. unfold cs. rewrite E1. split; [by exists r|done].
  - intros E. apply (q_nxt _ _ _ _ _ _ _ _ H), (q_asking _ _ _ _ _ _ _ _ H). by rewrite E.
  - intros Hn E. destruct Hl as [Hl|Hl]; [done|]. apply (q_nxt _ _ _ _ _ _ _ _ H).
    destruct (q_trm _ _ _ _ _ _ _ _ H) as (own & q & c & l & Et).
    assert (HQ : Term_Proofs.quiet n (trm (who s))) by (rewrite Et; apply Term_All.all_left_quiet; rewrite <- Et; exact HD).
    destruct (HQ 0 Hn) as (_ & _ & Ho). destruct (q_open _ _ _ _ _ _ _ _ H 0 Hn Ho) as [_ [?|[E' _]]]; [done|]. destruct (Hl 0 Hn). congruence.
Qed.

(** A deletion finds its edge: if the whole stream deletes only edges that are there, taking the
    events of a vertex in their order, no deletion in any batch panics, however the stream is cut into
    batches and whatever was deleted before. *)
Theorem C87_no_panic e sent0 sched t v : fresh n e sent0 -> let s := qrun (qstart a e sent0) sched in
  after (edges e v) (changes evs v) <> None -> owner v = t ->
  gone a (edges (eng (who s)) v) (del_run a (changes (batch s t) v)) <> None.
Proof.
  intros (F1 & F2 & F3) s Hok Hv Hg.
  assert (H : qinv a owner swap n evs ask e s) by (by apply (qrun_inv a owner swap n Hown), (qstart_inv a owner swap n Hown)).
  apply gone_none in Hg. destruct (q_graph _ _ _ _ _ _ _ _ H v) as (dn & r & E1 & E2 & E3 & _). rewrite Hv in E1.
  pose proof (same_after (map Minus (del_run a (changes (batch s t) v))) _ _ E3) as Hs. rewrite Hg in Hs. destruct (after r _) eqn:Er; [done|].
  apply Hok. rewrite <- (firstn_skipn (nxt s) evs), changes_app, E1, (del_run_split a (changes (batch s t) v)), <- !app_assoc, after_app, E2, after_app, Er. done.
Qed.

(** While a query looks, nobody else can do anything. *)
Theorem C87_frozen e sent0 sched x : fresh n e sent0 -> let s := qrun (qstart a e sent0) sched in
  lg s = LView -> x <> Logger -> qstep a owner swap n evs ask s x = s.
Proof.
  intros (F1 & F2 & F3) s Hl Hx.
  assert (H : qinv a owner swap n evs ask e s) by (by apply (qrun_inv a owner swap n Hown), (qstart_inv a owner swap n Hown)).
  destruct x as [| |t x]; [|done|]; cbn [qstep].
  - unfold remit. by rewrite (q_asking _ _ _ _ _ _ _ _ H) by (by rewrite Hl).
  - unfold tstep. destruct (Nat.leb_spec n t) as [|Ht]; [done|]. destruct (view_done _ _ _ _ _ _ _ s H Hl t Ht) as (_ & Ea & Ec & _). rewrite Ea, Ec. by destruct x.
Qed.

(** Every query that is due has been looked at, once, in order; while one is due and not looked
    at, the stream waits. *)
Theorem C87_all_seen e sent0 sched : fresh n e sent0 -> let s := qrun (qstart a e sent0) sched in
  seen s = List.filter ask (seq 1 (nxt s)) \/
  seen s ++ [nxt s] = List.filter ask (seq 1 (nxt s)) /\ qstep a owner swap n evs ask s Remitter = s.
Proof.
  intros (F1 & F2 & F3) s.
  assert (H : qinv a owner swap n evs ask e s) by (by apply (qrun_inv a owner swap n Hown), (qstart_inv a owner swap n Hown)).
  destruct (q_seen _ _ _ _ _ _ _ _ H) as [Q1 Q2]. unfold asked_upto in *. cbn [qstep]. unfold remit. destruct (rem s) eqn:Er; [left; apply Q2; by left| |left; apply Q2; by left].
  destruct (lg s) eqn:El; try (right; split; [apply Q1; split; [done|by intros []]|done]). left. apply Q2. by right.
Qed.

(** All that is ever added has been added by the time of a look. *)
Definition adds (u : nat) (l : list (nat * choice a)) : list (nat * edge_t a) :=
  concat (map (fun '(_, c) => match c with AddEdges v es => if v =? u then es else [] | _ => [] end) l).
Definition pend (u : nat) (s : qst a) : list (nat * edge_t a) := added (changes (batch s (owner u)) u ++ changes (tq s (owner u)) u).
Lemma adds_app u l l' : adds u (l ++ l') = adds u l ++ adds u l'.
Proof. unfold adds. by rewrite map_app, concat_app. Qed.
Lemma adds_step u s x : exists k, nxt (qstep a owner swap n evs ask s x) = k + nxt s /\
  adds u (qwork a owner n s x) ++ pend u (qstep a owner swap n evs ask s x) = pend u s ++ added (changes (firstn k (skipn (nxt s) evs)) u).
Proof.
  assert (Hsame : forall s', nxt s' = nxt s -> batch s' = batch s -> tq s' = tq s -> exists k, nxt s' = k + nxt s /\ pend u s' = pend u s ++ added (changes (firstn k (skipn (nxt s) evs)) u)).
  { intros s' E1 E2 E3. exists 0. split; [done|]. unfold pend. rewrite E2, E3. cbn. by rewrite app_nil_r. }
  destruct x as [| |t x]; cbn [qstep qwork].
  - cbn [adds map concat app]. unfold remit. destruct (rem s); try by apply Hsame. destruct (nth_error evs (nxt s)) as [[v y]|] eqn:En; [|by apply Hsame].
    exists 1. split; [done|]. assert (Ek : skipn (nxt s) evs = (v, y) :: skipn (S (nxt s)) evs).
    { clear -En. revert En. generalize (nxt s). induction evs as [|z l IH]; intros [|k] E; try done; [by injection E as ->|]. by apply IH. }
    rewrite Ek. cbn [firstn]. unfold pend. cbn [tq batch]. rewrite <- added_app, <- app_assoc. f_equal. f_equal. rewrite changes_cons. cbn [fst snd]. unfold upd.
    destruct (Nat.eqb_spec (owner u) (owner v)) as [E|E].
    + rewrite changes_app, E. f_equal. rewrite changes_cons. done.
    + destruct (Nat.eqb_spec v u) as [->|]; [done|]. unfold changes at 2. cbn. by rewrite app_nil_r.
  - cbn [adds map concat app]. unfold log_step. destruct (lg s); repeat case_match; by apply Hsame.
  - unfold tstep. destruct (n <=? t).
    { assert (adds u (match x with Loop _ => [] | _ => [] end) = []) as _ by (by destruct x). destruct x; cbn [orb adds map concat app]; by apply Hsame. }
    destruct (acked s t).
    { destruct x; cbn [orb adds map concat app]; try by apply Hsame. destruct (cmds s t) as [|[]]; by apply Hsame. }
    cbn [orb].
    assert (Hen : forall v del, exists k, nxt (enacted a owner swap n s t v del) = k + nxt s /\
      adds u (match enact a s t v del with Some (c, _) => if owner v =? t then ework a (who s) t (Do c) else [] | None => [] end) ++ pend u (enacted a owner swap n s t v del) =
      pend u s ++ added (changes (firstn k (skipn (nxt s) evs)) u)).
    { intros v del. unfold enacted. destruct (enact a s t v del) as [[c k]|] eqn:Ee; [|by apply Hsame]. destruct (Nat.eqb_spec (owner v) t) as [Hv|]; [|by apply Hsame].
      cbn [andb]. destruct (nil (ework a (who s) t (Do c))) eqn:Ew; [apply nil_true in Ew; rewrite Ew; by apply Hsame|]. cbn [negb].
      assert (Ec : ework a (who s) t (Do c) = [(t, c)]).
      { unfold enact in Ee. unfold ework in Ew |- *. destruct (Term_Model.at_ (trm (who s)) t); try done. destruct del.
        - destruct (del_run _ _); [done|]. destruct (gone _ _ _); [|done]. injection Ee as <- <-. destruct (todo _ t); [|done]. by destruct (_ || _).
        - destruct (add_run _ _); [done|]. injection Ee as <- <-. destruct (todo _ t); [|done]. by destruct (_ || _). }
      rewrite Ec. exists 0. split; [done|]. cbn [firstn changes List.filter map]. change (added []) with (@Datatypes.nil (nat * edge_t a)). rewrite app_nil_r. unfold pend. cbn [set_top tq batch].
      rewrite !added_app. unfold upd. destruct (Nat.eqb_spec (owner u) t) as [Eu|Eu].
      2:{ assert (adds u [(t, c)] = []) as ->; [|done]. unfold adds. cbn. unfold enact in Ee. destruct del.
          - destruct (del_run _ _); [done|]. destruct (gone _ _ _); [|done]. by injection Ee as <- <-.
          - destruct (add_run _ _); [done|]. injection Ee as <- <-. destruct (Nat.eqb_spec v u); [congruence|done]. }
      rewrite app_assoc. f_equal. rewrite Eu. destruct (decide (u = v)) as [->|Hne].
      - rewrite changes_rest. unfold enact in Ee. destruct del.
        + destruct (del_run _ _) as [|d ds] eqn:Ed; [done|]. destruct (gone _ _ _); [|done]. injection Ee as <- <-. unfold adds. cbn [map concat app].
          rewrite (del_run_split a (changes (batch s t) v)) at 2. rewrite Ed, added_app, added_minus. done.
        + destruct (add_run _ _) as [|d ds] eqn:Ed; [done|]. injection Ee as <- <-. unfold adds. cbn [map concat app]. rewrite Nat.eqb_refl, app_nil_r.
          rewrite (add_run_split a (changes (batch s t) v)) at 2. rewrite Ed, added_app, added_plus. done.
      - rewrite changes_rest_ne by done. assert (adds u [(t, c)] = []) as ->; [|done]. unfold adds. cbn. unfold enact in Ee. destruct del.
        + destruct (del_run _ _); [done|]. destruct (gone _ _ _); [|done]. by injection Ee as <- <-.
        + destruct (add_run _ _); [done|]. injection Ee as <- <-. destruct (Nat.eqb_spec v u); [congruence|done]. }
    assert (Hno : forall l y, no_edges a (Do y) -> (l = [] \/ l = ework a (who s) t (Do y)) -> adds u l = []).
    { intros l y Hy [->| ->]; [done|]. unfold ework. destruct (Term_Model.at_ (trm (who s)) t); try done. destruct y; try done; destruct (todo (eng (who s)) t); try done; by repeat case_match. }
    assert (Hdo : forall y, no_edges a (Do y) -> forall l, (l = [] \/ l = ework a (who s) t (Do y)) -> forall s', nxt s' = nxt s -> batch s' = batch s -> tq s' = tq s ->
      exists k, nxt s' = k + nxt s /\ adds u l ++ pend u s' = pend u s ++ added (changes (firstn k (skipn (nxt s) evs)) u)).
    { intros y Hy l Hl s' E1 E2 E3. rewrite (Hno l y Hy Hl). by apply Hsame. }
    destruct x as [|x|k r| |]; cbn [adds map concat app]; try by apply Hsame.
    + destruct (cmds s t); [by apply Hsame|]. case_match; by apply Hsame.
    + destruct x as [c|c].
      * cbn [adds map concat app]. destruct c; cbn [loop]; repeat case_match; by apply Hsame.
      * destruct c; cbn [loop]; try apply Hen.
        -- apply (Hdo Run); try done. by right.
        -- destruct (nil (batch s t)); (apply (Hdo Pop); try done); [by right|by left].
        -- apply (Hdo (SendInit v m)); try done. by right.
    + unfold pull. case_match; [|by apply Hsame]. exists 0. split; [done|]. cbn [firstn changes List.filter map]. change (added []) with (@Datatypes.nil (nat * edge_t a)). rewrite app_nil_r.
      unfold pend. cbn [set_top tq batch]. f_equal. unfold upd. destruct (Nat.eqb_spec (owner u) t) as [E|E]; [|done].
      rewrite E, changes_app, <- app_assoc, <- (changes_app (firstn k _)), firstn_skipn. done.
    + case_match; by apply Hsame.
Qed.
Lemma firstn_skip {X} (l : list X) i j : firstn (i + j) l = firstn j l ++ firstn i (skipn j l).
Proof. revert l. induction j as [|j IH]; intros l; [by rewrite Nat.add_0_r|]. rewrite <- plus_n_Sm. destruct l as [|x l]; [by destruct i|]. cbn. by rewrite IH. Qed.
Lemma adds_run u l : forall s done, done ++ pend u s = added (changes (firstn (nxt s) evs) u) ->
  (done ++ adds u (qworks a owner swap n evs ask s l)) ++ pend u (qrun s l) = added (changes (firstn (nxt (qrun s l)) evs) u).
Proof.
  induction l as [|x l IH]; intros s dn H; [by rewrite app_nil_r|]. cbn [qworks]. rewrite adds_app, app_assoc. apply (IH (qstep a owner swap n evs ask s x)).
  destruct (adds_step u s x) as (k & Ek & E). rewrite <- app_assoc, E, app_assoc, H, Ek, <- added_app, <- changes_app, <- firstn_skip. done.
Qed.
Lemma adds_looks e sent0 sched u : fresh n e sent0 -> let s0 := qstart a e sent0 in looks (qrun s0 sched) ->
  adds u (qworks a owner swap n evs ask s0 sched) = added (changes (firstn (nxt (qrun s0 sched)) evs) u).
Proof.
  intros (F1 & F2 & F3) s0 Hl. rewrite <- (adds_run u sched s0 []); [|done]. cbn [app].
  assert (H : qinv a owner swap n evs ask e (qrun s0 sched)) by (by apply (qrun_inv a owner swap n Hown), (qstart_inv a owner swap n Hown)).
  set (s := qrun s0 sched) in *.
  assert (HD : forall t, t < n -> Term_Model.at_ (trm (who s)) t = Term_Model.Done).
  { intros t Ht. destruct Hl as [Hl|Hl]; [by destruct (view_done _ _ _ _ _ _ _ s H Hl t Ht) as (_ & _ & _ & _ & ?)|by apply Hl]. }
  destruct (q_trm _ _ _ _ _ _ _ _ H) as (own & q & c & l & Et).
  assert (HQ : Term_Proofs.quiet n (trm (who s))) by (rewrite Et; apply Term_All.all_left_quiet; rewrite <- Et; exact HD).
  destruct (HQ (owner u) (Hown u)) as (_ & _ & Ho). unfold pend.
  rewrite (q_batch_open _ _ _ _ _ _ _ _ H _ Ho), (proj1 (q_open _ _ _ _ _ _ _ _ H _ (Hown u) Ho)). cbn. by rewrite app_nil_r.
Qed.
End query.
Arguments looks {a} _ _.

Definition none {E : Type} : nat -> list (nat * E) := fun _ => [].
Lemma fresh_start {a} n (e : est a) : (forall t, todo e t = []) -> (forall t, queue e t = []) -> fresh n e (fun _ => 0%N).
Proof. intros H1 H2. split_and!; [done|intros; apply H2|]. rewrite !sumN_zero; [done|intros i _; by rewrite H2|done]. Qed.
Lemma from_start {a} evs (e : est a) sent0 : from_evs a evs (qstart a e sent0).
Proof. intros t x [H|H]; by apply elem_of_nil in H. Qed.

Lemma same_fst {E} (l l' : list (nat * E)) : same l l' -> Permutation (map fst l) (map fst l').
Proof.
  intros Hm. apply (Permutation_count_occ Nat.eq_dec). intros d.
  assert (forall k : list (nat * E), count_occ Nat.eq_dec (map fst k) d = to d k) as Hc.
  { clear. induction k as [|x k IH]; [done|]. rewrite to_cons. cbn. unfold is_to. destruct (Nat.eq_dec (fst x) d), (Nat.eqb_spec (fst x) d); try done. by rewrite IH. }
  by rewrite !Hc, (Hm d).
Qed.
Lemma copies_perm v l l' : Permutation l l' -> copies v l = copies v l'.
Proof. intros H. unfold copies. induction H; cbn; repeat case_match; cbn; congruence. Qed.

(** PageRank: as near to the ranks of the graph that the first events leave as at the end (C55). *)
Theorem C87_ranks owner n N swap (evs : list (nat * change unit)) ask sched graph exact : (forall v, owner v < n) ->
  let s0 := qstart ranking (rank_start none) (fun _ => 0%N) in let s := qrun ranking owner swap n evs ask s0 sched in
  let work := qworks ranking owner swap n evs ask s0 sched in
  looks n s -> (forall u c, (u, c) ∈ evs -> u < N) ->
  (forall v, after [] (changes (firstn (nxt s) evs) v) = Some (graph v)) ->
  (forall pre post, work = pre ++ post -> inexact (rank_run owner none pre)) ->
  exact_ranks DAMP N (fun w => map fst (graph w)) (Rank_Model.given owner (rank_start none) work) exact ->
  (qsum (fun v => qabs (mass (eng (who s)) v - exact v)) N <= inject_nat N * (EPS + EPS))%Qc.
Proof.
  intros Hown s0 s work Hl Hev Hg Hx HX.
  destruct (C87_view ranking owner swap n Hown evs ask (rank_start none) (fun _ => 0%N) sched ltac:(by apply fresh_start) Hl) as (HI & _ & HE & _). fold s0 in HI, HE. fold s in HI, HE.
  assert (Er : eng (who s) = rank_run owner none work) by (unfold s; by rewrite qwork_run).
  assert (HP : forall v, Permutation (map fst (graph v)) (map fst (edges (eng (who s)) v))).
  { intros v. destruct (HE v) as [(r & E1 & E2) _]. change (edges (rank_start none) v) with (@Datatypes.nil (nat * unit)) in E1. rewrite Hg in E1. injection E1 as <-. by apply same_fst. }
  pose proof (C55_close owner n N none work exact Hown) as HC. cbv zeta in HC. rewrite <- Er in HC. apply HC; try done.
  - intros t c H. pose proof (qworks_in ranking owner swap n evs ask sched s0 t c (from_start _ _ _) H) as Hc. destruct c as [| |v l|v k|v m]; try done; cbn.
    destruct l as [|[d x] l], Hc as [Hne Hc]; [done|]. eapply Hev, Hc, elem_of_list_here.
  - intros w Hw. rewrite (HX w Hw). f_equal. unfold handed. apply qsum_ext. intros u _. unfold part. by rewrite (copies_perm w _ _ (HP u)), (Permutation_length (HP u)).
Qed.

(** Colouring: if what the first events leave is undirected, no two adjacent vertices have the same colour. *)
Theorem C87_colouring owner n swap (evs : list (nat * change nat)) ask sched graph b f K : (forall v, owner v < n) -> (N.of_nat K < 2 ^ 31 - 1)%N ->
  let e := estart Colour_Model.colouring (fun v => replicate (b v) Colour_Model.EMPTY_VAL) (fun _ => Colour_Model.new_prop) none in
  let s := qrun Colour_Model.colouring owner swap n evs ask (qstart Colour_Model.colouring e (fun _ => 0%N)) sched in
  looks n s ->
  let given v := added (changes (firstn (nxt s) evs) v) in
  Colour_Spec.slots_unique given -> (forall u v p, (v, p) ∈ given u -> p < f v) -> (forall v, b v <= f v <= K) ->
  (forall v, after [] (changes (firstn (nxt s) evs) v) = Some (graph v)) -> Colour_Spec.undirected graph ->
  Colour_Spec.proper graph (fun v => fst (prop (eng (who s)) v)).
Proof.
  intros Hown HK e s Hl given HU HP Hf Hg Hund. set (s0 := qstart Colour_Model.colouring e (fun _ => 0%N)) in *.
  assert (Hfr : fresh n e (fun _ => 0%N)) by (by apply fresh_start).
  destruct (C87_view Colour_Model.colouring owner swap n Hown evs ask e (fun _ => 0%N) sched Hfr Hl) as (HI & _ & HE & _). fold s0 in HI, HE. fold s in HI, HE.
  set (work := qworks Colour_Model.colouring owner swap n evs ask s0 sched).
  assert (Er : eng (who s) = Colour_Props.col_run owner b none work) by (unfold s; by rewrite qwork_run).
  assert (Hev : forall u, Colour_Model.ever none work u = given u) by (intros u; exact (adds_looks Colour_Model.colouring owner swap n Hown evs ask e (fun _ => 0%N) sched u Hfr Hl)).
  assert (HP' : forall v, Permutation (map fst (graph v)) (map fst (edges (eng (who s)) v))).
  { intros v. destruct (HE v) as [(r & E1 & E2) _]. change (edges e v) with (@Datatypes.nil (nat * nat)) in E1. rewrite Hg in E1. injection E1 as <-. by apply same_fst. }
  assert (Hto : forall u v p, (v, p) ∈ graph u -> exists q, (v, q) ∈ edges (eng (who s)) u).
  { intros u v p H. apply (elem_of_list_fmap_1 fst) in H. cbn in H. rewrite elem_of_list_In in H. apply (Permutation_in _ (HP' u)), in_map_iff in H as ([v' q] & <- & H).
    exists q. by apply elem_of_list_In. }
  assert (Hfrom : forall u v p, (v, p) ∈ edges (eng (who s)) u -> exists q, (v, q) ∈ graph u).
  { intros u v p H. apply (elem_of_list_fmap_1 fst) in H. cbn in H. rewrite elem_of_list_In in H. apply (Permutation_in _ (Permutation_sym (HP' u))), in_map_iff in H as ([v' q] & <- & H).
    exists q. by apply elem_of_list_In. }
  pose proof (Colour_Props.C38_proper owner n b (none (E := nat)) work f K Hown HK) as HC. cbv zeta in HC.
  assert (Er' : Colour_Props.col_run owner b (none (E := nat)) work = eng (who s)) by (symmetry; exact Er). rewrite Er' in HC.
  destruct HC as [HC _]; try done.
  - intros u1 u2 i1 i2 x. rewrite !Hev. apply HU.
  - intros u v p. rewrite Hev. apply HP.
  - intros u v p H. apply Hfrom in H as (q & H). destruct (Hund _ _ _ H) as (q' & H'). by apply Hto in H'.
  - intros u v p H. destruct (Hto _ _ _ H) as (q & H'). by apply (HC u v q).
Qed.

(** Concrete runs with the colouring; vertices 0, 1, 2 on [n] threads; the steps are chosen by
    looking at the state; a thread pulls at most [big] events at once. *)
Notation col := Colour_Model.colouring.
Section drive.
Context (n big : nat) (stream : list (nat * change nat)) (ask : nat -> bool).
Definition r_owner (v : nat) : nat := v mod n.
Definition fresh_of (s : qst col) (t : nat) (old : list nat) : option nat :=
  find (fun v => (r_owner v =? t) && negb (existsb (Nat.eqb v) old)) (flat_map (fun x => fst x :: match snd x with Plus e => [fst e] | Minus _ => [] end) (firstn (nxt s) stream)).
Definition choose (s : qst col) (t : nat) (old : list nat) : tchoice col :=
  if acked s t then Awake else
  match Term_Model.at_ (trm (who s)) t with
  | Term_Model.Recv _ => if nil (cmds s t) then Loop (Ctl Term_Model.Go) else Take
  | Term_Model.Look _ =>
      match tq s t, fresh_of s t old with
      | _ :: _, _ => Pull (Nat.min big (length (tq s t))) 0
      | [], Some _ => Pull 0 1
      | [], None => if epoch s t || finished col s then Loop (Ctl Term_Model.Close) else Loop (Ctl Term_Model.Go)
      end
  | Term_Model.Work got _ own =>
      match todo (eng (who s)) t, fresh_of s t old, batch s t with
      | _ :: _, _, _ => Loop (Do Run)
      | [], Some v, b => if (own =? 0)%N then Loop (Do Pop) else Loop (Do (SendInit (a := col) v (0%N, 0)))
      | [], None, (v, Plus _) :: _ => Loop (Do (AddEdges (a := col) v []))
      | [], None, (v, Minus _) :: _ => Loop (Do (DelEdges (a := col) v []))
      | [], None, [] => if (did (who s) t <? got)%N then Loop (Do Pop) else Loop (Ctl Term_Model.Finish)
      end
  | Term_Model.Done => if epoch s t then Answer else Loop (Ctl Term_Model.Go)
  | _ => Loop (Ctl Term_Model.Go)
  end.
Definition news (x : tchoice col) : list nat := match x with Loop (Do (SendInit v _)) => [v] | _ => [] end.
Notation step := (qstep col r_owner false n stream ask).
Fixpoint work (k t : nat) (s : qst col) (old : list nat) : qst col * list nat * list (actor col) :=
  match k with
  | O => (s, old, [])
  | S k => let x := choose s t old in let '(s', old', l) := work k t (step s (Thread t x)) (news x ++ old) in (s', old', Thread t x :: l)
  end.
Fixpoint works (ts : list nat) (s : qst col) (old : list nat) : qst col * list nat * list (actor col) :=
  match ts with
  | [] => (s, old, [])
  | t :: ts => let '(s, old, l) := work 40 t s old in let '(s, old, l') := works ts s old in (s, old, l ++ l')
  end.
Definition batch_of (k : nat) (s : qst col) : qst col := fold_left step (repeat Remitter k) s.
Fixpoint drive (k : nat) (s : qst col) (old : list nat) : list (actor col) :=
  match k with
  | O => []
  | S k =>
      let s := batch_of big s in
      let '(s, old, l) := works (seq 0 n) s old in
      repeat Remitter big ++ l ++ Logger :: drive k (step s Logger) old
  end.
Definition r_s0 : qst col := qstart col (estart col (fun _ => []) (fun _ => Colour_Model.new_prop) none) (fun _ => 0%N).
Definition all_steps (k : nat) : list (actor col) := drive k r_s0 [].
Definition at_view (s : qst col) : bool := match lg s with LView => true | _ => false end.
Fixpoint views (s : qst col) (l : list (actor col)) : list (nat * list N * list (list (nat * nat))) :=
  match l with
  | [] => []
  | x :: l => let s' := step s x in
      (if at_view s' && negb (at_view s) then [(nxt s', map (fun v => fst (prop (eng (who s')) v)) [0; 1; 2], map (edges (eng (who s'))) [0; 1; 2])] else []) ++ views s' l
  end.
Definition ended (s : qst col) : bool := forallb (fun t => match Term_Model.at_ (trm (who s)) t with Term_Model.Done => negb (epoch s t) | _ => false end) (seq 0 n).
End drive.

(** A triangle is built and 1 - 2 is deleted again; a query after every two events. *)
Definition tri : list (nat * change nat) :=
  [(0, Plus (1, 0)); (1, Plus (0, 0)); (1, Plus (2, 0)); (2, Plus (1, 1)); (0, Plus (2, 1)); (2, Plus (0, 1)); (1, Minus 2); (2, Minus 1)].
Example C87_case : let ask := Nat.even in let l := all_steps 2 1 tri ask 60 in
  views 2 tri ask r_s0 l =
    [(2, [0; 1; 2 ^ 31 - 1]%N, [[(1, 0)]; [(0, 0)]; []]); (4, [0; 1; 0]%N, [[(1, 0)]; [(0, 0); (2, 0)]; [(1, 1)]]);
     (6, [0; 1; 2]%N, [[(1, 0); (2, 1)]; [(0, 0); (2, 0)]; [(1, 1); (0, 1)]]); (8, [0; 1; 1]%N, [[(1, 0); (2, 1)]; [(0, 0)]; [(0, 1)]])] /\
  ended 2 (qrun col (r_owner 2) false 2 tri ask r_s0 l) = true.
Proof. cbv zeta. split; by vm_compute. Qed.

(** Which of two parallel edges is deleted depends on how the events are cut into batches: here one at a
    time, or all at once; taking the oldest leaves the other one. *)
Definition par : list (nat * change nat) := [(0, Plus (1, 0)); (0, Plus (1, 1)); (0, Plus (2, 0)); (0, Minus 2); (0, Minus 1)].
Theorem C87_oldest_refuted : exists sched sched',
  let s := qrun col (r_owner 1) false 1 par (fun _ => false) r_s0 sched in let s' := qrun col (r_owner 1) false 1 par (fun _ => false) r_s0 sched' in
  looks 1 s /\ looks 1 s' /\ nxt s = 5 /\ nxt s' = 5 /\ after [] (changes par 0) = Some [(1, 1)] /\
  edges (eng (who s)) 0 = [(1, 1)] /\ edges (eng (who s')) 0 = [(1, 0)].
Proof.
  exists (all_steps 1 1 par (fun _ => false) 10), (all_steps 1 5 par (fun _ => false) 10). cbv zeta. split_and!; try (by vm_compute); right; intros [|t] Ht; try lia; by vm_compute.
Qed.

Print Assumptions C87_view.
Print Assumptions C87_no_panic.
Print Assumptions C87_frozen.
Print Assumptions C87_all_seen.
Print Assumptions C87_ranks.
Print Assumptions C87_colouring.
Print Assumptions C87_oldest_refuted.
