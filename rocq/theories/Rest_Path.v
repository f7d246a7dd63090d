(** Temporal paths come to rest.  What an edge that appears at [ts] is told depends only on slots whose offers start before [ts], so
    changes move on to later and later edges. *)
From Verif Require Import Base Engine_Spec Engine_Model Engine_Proofs Engine_Shape Engine_Props Rest_Spec Rest_Proofs Rest_Work Rest_Prio Rest_Colour.
From Verif Require Import Window_Spec Window_Model Window_Proofs Path_Spec Path_Model Path_Local Path_Proofs Path_Run Path_Final Path_Init.
Open Scope nat_scope.

(** A mailbox lets an edge that appears at [ts] through. *)
Definition is_whole (h : path) : bool := ((p_start h =? 0) && (p_end h =? INFINITY))%N.
Definition gives (b : list path) (ts : N) : bool :=
  match b with [] => false | h :: sl => if is_whole h then ((0 <? ts) && (ts <? INFINITY))%N else open_at ts sl end.
Lemma gives_spec b ts : (ts < INFINITY)%N -> gives b ts = true <->
  exists h, b !! 0 = Some h /\ ((is_whole h = true /\ (0 < ts)%N) \/ (is_whole h = false /\ exists p, passes ts (se (slotval b p)))).
Proof.
  intros Hts. destruct b as [|h sl]; cbn [gives]; [split; [done|by intros (h & ? & _)]|]. destruct (is_whole h) eqn:Eh.
  - rewrite andb_true_iff, !N.ltb_lt. split; [intros [? _]; exists h; auto|]. intros (h' & [= <-] & [[_ ?]|[? _]]); [done|congruence].
  - rewrite open_exists. rewrite list.Exists_exists. split.
    + intros (x & Hx & Hp). exists h. split; [done|right]. split; [done|]. apply elem_of_list_lookup in Hx as (p & Hp'). exists p. by rewrite slotval_cons, Hp'.
    + intros (h' & [= <-] & [[? _]|[_ (p & Hp)]]); [congruence|]. rewrite slotval_cons in Hp. destruct (sl !! p) as [x|] eqn:Ex.
      * exists x. split; [by eapply elem_of_list_lookup_2|done].
      * exfalso. unfold passes in Hp. cbn in Hp. lia.
Qed.
(** Mailboxes with the same head and the same slots, except one, whose offers do not start before [ts]. *)
Lemma gives_same b b' p ts : (ts < INFINITY)%N -> b' !! 0 = b !! 0 -> (forall q, q <> p -> se (slotval b' q) = se (slotval b q)) ->
  (ts <= p_start (slotval b p))%N -> (ts <= p_start (slotval b' p))%N -> gives b' ts = gives b ts.
Proof.
  intros Hts H0 Hne H1 H2. apply eq_true_iff_eq. rewrite !gives_spec by done. rewrite H0.
  assert (G : forall c c' : list path, (forall q, q <> p -> se (slotval c' q) = se (slotval c q)) -> (ts <= p_start (slotval c p))%N ->
    (exists q, passes ts (se (slotval c q))) -> exists q, passes ts (se (slotval c' q))).
  { intros c c' Hq Hp (q & H). exists q. rewrite Hq; [done|]. intros ->. unfold passes in H. cbn in H. lia. }
  split; intros (h & Hh & H); exists h; (split; [done|]); (destruct H as [H|[H H']]; [by left|right]); (split; [done|]).
  - apply (G b' b); [|done..]. intros q Hq. by rewrite Hne.
  - by apply (G b b').
Qed.
(** What a reader who has read [got] will have read. *)
Definition behind (got b : list path) : list path := got ++ skipn (length got) b.
Lemma behind_slot got b p : length got <= length b -> slotval (behind got b) p = if S p <? length got then slotval got p else slotval b p.
Proof.
  intros Hl. unfold slotval, behind. destruct (Nat.ltb_spec (S p) (length got)) as [H|H]; [by rewrite lookup_app_l|].
  rewrite lookup_app_r by done. change (skipn (length got) b) with (drop (length got) b). rewrite lookup_drop. by replace (length got + (S p - length got)) with (S p) by lia.
Qed.
Lemma behind_head got b : length got <= length b -> behind got b !! 0 = match got with [] => b !! 0 | x :: _ => Some x end.
Proof. intros Hl. unfold behind. destruct got; [by destruct b|done]. Qed.
Lemma behind_nil b : behind [] b = b.
Proof. done. Qed.
Lemma behind_all got b : length b <= length got -> behind got b = got.
Proof. intros H. unfold behind. rewrite (skipn_all2 b) by done. by rewrite app_nil_r. Qed.
Lemma behind_read got b x : b !! length got = Some x -> behind (got ++ [x]) b = behind got b.
Proof.
  intros H. unfold behind. rewrite app_length. cbn [length]. rewrite <- app_assoc. f_equal. cbn.
  change (skipn (length got) b) with (drop (length got) b). rewrite (drop_S b x (length got)) by done. do 2 f_equal. lia.
Qed.

(** After one slot has changed to an offer that does not start before [ts], or not at all. *)
Lemma gives_after got b b' p ts : (ts < INFINITY)%N -> length got <= length b -> length b <= length b' -> b' !! 0 = b !! 0 ->
  (forall q, q <> p -> slotval b' q = slotval b q) ->
  se (slotval b' p) = se (slotval b p) \/ ((ts <= p_start (slotval got p))%N /\ (ts <= p_start (slotval b p))%N /\ (ts <= p_start (slotval b' p))%N) ->
  gives (behind got b') ts = gives (behind got b) ts /\ gives b' ts = gives b ts.
Proof.
  intros Hts L1 L2 H0 Hne Hp.
  assert (Hh : behind got b' !! 0 = behind got b !! 0) by (rewrite !behind_head by lia; by destruct got).
  assert (Hq : forall q, q <> p -> se (slotval (behind got b') q) = se (slotval (behind got b) q)).
  { intros q Hq. rewrite !behind_slot by lia. destruct (S q <? length got); [done|]. by rewrite Hne. }
  destruct Hp as [E|(P1 & P2 & P3)].
  - assert (G : forall c c' : list path, c' !! 0 = c !! 0 -> (forall q, se (slotval c' q) = se (slotval c q)) -> gives c' ts = gives c ts).
    { intros c c' E0 Eq. apply eq_true_iff_eq. rewrite !gives_spec by done. rewrite E0.
      split; intros (h & Hh' & H); exists h; (split; [done|]); (destruct H as [H|[H (q & H')]]; [by left|right]); (split; [done|]); exists q; [by rewrite <- Eq|by rewrite Eq]. }
    split; apply G; try done.
    + intros q. destruct (decide (q = p)) as [->|Hqp]; [|by apply Hq]. rewrite !behind_slot by lia. by destruct (S p <? length got).
    + intros q. destruct (decide (q = p)) as [->|Hqp]; [done|]. by rewrite Hne.
  - split; apply (gives_same _ _ p); try done.
    + rewrite behind_slot by lia. by destruct (S p <? length got).
    + rewrite behind_slot by lia. by destruct (S p <? length got).
    + intros q Hqp. by rewrite Hne.
Qed.
Lemma merge_new b p x b' : tp_merge (MOffer p x) b = (b', true) -> b <> [] -> length b < length b' \/ se (slotval b p) <> se x.
Proof.
  destruct b as [|h sl]; [done|]. intros E _. cbn [tp_merge] in E. destruct (Nat.leb_spec (length sl) p) as [Hle|Hgt].
  - injection E as <-. left. cbn [length]. rewrite insert_length. unfold grow_slots. rewrite app_length, replicate_length. lia.
  - right. rewrite slotval_cons. destruct (sl !! p) as [y|]; [|done]. destruct (differ y x) eqn:Ed; [|done].
    intros E1. unfold differ in Ed. injection E1 as E1 E2. rewrite E1, E2, !N.eqb_refl in Ed. done.
Qed.
Lemma merge_len b p x b' nw K : tp_merge (MOffer p x) b = (b', nw) -> length b <= S K -> p < K -> length b' <= S K.
Proof.
  intros E Hl Hp. destruct b as [|h sl]; [injection E as <- <-; cbn; lia|]. cbn [tp_merge] in E. destruct (Nat.leb_spec (length sl) p) as [Hle|Hgt].
  - injection E as <- <-. cbn [length]. rewrite insert_length. unfold grow_slots. rewrite app_length, replicate_length. lia.
  - destruct (sl !! p) as [y|]; [|by injection E as <- <-]. destruct (differ y x); injection E as <- <-; [|done]. cbn [length]. by rewrite insert_length.
Qed.

(** Sums over the edges; an edge counts for more than all later ones together. *)
Section weights.
Context {A : Type} (ts : A -> N) (l : list A).
Definition later (x : N) : nat := length (List.filter (fun e => (x <? ts e)%N) l).
Definition base : nat := 1 + 3 * length l.
Definition weight (e : A) : nat := base ^ later (ts e).
Fixpoint wsum (f : A -> nat) (k : list A) : nat := match k with [] => 0 | e :: k => weight e * f e + wsum f k end.
Lemma weight_pos e : 1 <= weight e.
Proof. unfold weight. pose proof (Nat.pow_nonzero base (later (ts e)) ltac:(unfold base; lia)). lia. Qed.
Lemma later_lt e x : e ∈ l -> (x < ts e)%N -> later (ts e) < later x.
Proof.
  unfold later. intros He Hx.
  assert (G : forall k, length (List.filter (fun e' => (ts e <? ts e')%N) k) <= length (List.filter (fun e' => (x <? ts e')%N) k) /\
    (e ∈ k -> length (List.filter (fun e' => (ts e <? ts e')%N) k) < length (List.filter (fun e' => (x <? ts e')%N) k))).
  { induction k as [|y k [IH1 IH2]]; cbn [List.filter]; [split; [done|by intros ?%elem_of_nil]|].
    destruct (N.ltb_spec (ts e) (ts y)), (N.ltb_spec x (ts y)); cbn [length]; split; try lia; intros H1; apply elem_of_cons in H1 as [<-|H1]; try lia; specialize (IH2 H1); lia. }
  by apply G.
Qed.
Lemma wsum_app f k k' : wsum f (k ++ k') = wsum f k + wsum f k'.
Proof. induction k as [|e k IH]; cbn; [done|lia]. Qed.
Lemma wsum_le f f' k : (forall e, e ∈ k -> f' e <= f e) -> wsum f' k <= wsum f k.
Proof.
  induction k as [|e k IH]; intros H; cbn; [done|]. specialize (IH ltac:(intros; by apply H, elem_of_list_further)). specialize (H e ltac:(apply elem_of_list_here)).
  apply (Nat.mul_le_mono_l _ _ (weight e)) in H. lia.
Qed.
Lemma wsum_move f f' e0 : e0 ∈ l -> f' e0 < f e0 -> (forall e, e ∈ l -> f' e <= 3) -> (forall e, e ∈ l -> (ts e <= ts e0)%N -> f' e <= f e) ->
  wsum f' l < wsum f l.
Proof.
  intros Hin Hlt H3 Hle. set (w0 := weight e0). set (c := if decide (later (ts e0) = 0) then 0 else base ^ (later (ts e0) - 1)).
  assert (Hc : forall e, e ∈ l -> weight e * f' e <= weight e * f e + 3 * c).
  { intros e He. destruct (N.le_gt_cases (ts e) (ts e0)) as [H|H].
    - specialize (Hle e He H). apply (Nat.mul_le_mono_l _ _ (weight e)) in Hle. lia.
    - assert (weight e <= c).
      { pose proof (later_lt e (ts e0) He H). unfold c. destruct (decide _); [lia|]. unfold weight. apply Nat.pow_le_mono_r; [unfold base; lia|lia]. }
      specialize (H3 e He). assert (weight e * f' e <= c * 3) by (by apply Nat.mul_le_mono). lia. }
  assert (Hw : 3 * c * length l < w0).
  { unfold w0, weight, c. destruct (decide _) as [E|E]; [pose proof (weight_pos e0); unfold weight in *; lia|].
    destruct (later (ts e0)) as [|m]; [done|]. replace (S m - 1) with m by lia. cbn [Nat.pow]. pose proof (Nat.pow_nonzero base m ltac:(unfold base; lia)). unfold base at 2. lia. }
  assert (G : forall k, (forall e, e ∈ k -> e ∈ l) -> wsum f' k <= wsum f k + 3 * c * length k).
  { induction k as [|e k IH]; intros Hk; [cbn; lia|].
    specialize (IH ltac:(intros; by apply Hk, elem_of_list_further)). specialize (Hc e ltac:(by apply Hk, elem_of_list_here)). cbn [wsum length]. lia. }
  apply elem_of_list_split in Hin. destruct Hin as (l1 & l2 & El).
  assert (G1 := G l1 ltac:(intros e He; rewrite El; apply elem_of_app; by left)). assert (G2 := G l2 ltac:(intros e He; rewrite El; apply elem_of_app; right; by apply elem_of_list_further)).
  assert (El' : length l = length l1 + S (length l2)) by (rewrite El, app_length; done). rewrite El' in Hw. 
  cut (wsum f' (l1 ++ e0 :: l2) < wsum f (l1 ++ e0 :: l2)); [by rewrite <- El|]. rewrite !wsum_app. cbn [wsum].
  assert (S (f' e0) <= f e0) as Hs by lia. apply (Nat.mul_le_mono_l _ _ (weight e0)) in Hs. fold w0 in Hs |- *. lia.
Qed.
End weights.

Section rest.
Context (owner : nat -> nat) (n : nat) (Hown : forall v, owner v < n) (src : nat).
Context (past : nat -> list (nat * (N * nat))) (HU : slots_once past) (HS : by_time past) (HT : slots_by_time past) (HI : times_below INFINITY past).
Notation est := (est tpaths).
Notation pinv := (pinv owner n src past).

Lemma pinv_acts s t c : pinv s -> c ∈ acts tpaths -> pinv (estep tpaths owner s t c).
Proof.
  intros Hs Hc. unfold acts in Hc. rewrite !elem_of_cons, elem_of_nil in Hc.
  destruct Hc as [->|[->|[]]]; [change (pinv (tstep owner src s t TRun))|change (pinv (tstep owner src s t TPop))];
    (eapply (step_all owner n Hown src past past); [done| |done..]); intros u; cbn; by rewrite app_nil_r.
Qed.

(** One finished reading. *)
Lemma react_gives s t v k i got rest : pinv s -> todo s t = Scan (a := tpaths) v k i got :: rest -> box s v !! i = None ->
  owner v = t /\ rest = [] /\ behind got (bx s v) = got /\
  exists q ms ms', tp_react k (prop s v) (edges s v) got = (Some q, ms, ms') /\ (forall ts, (ts < INFINITY)%N -> open_at ts (wins q) = gives got ts) /\
    length ms + length ms' <= 2 * length (edges s v) + match k with KDel gone => length gone | _ => 0 end.
Proof.
  intros Hs Et Ec. pose proof (rest_shape owner n src past s t _ rest Hs Et) as (-> & Hv & Hi & Hsent). change (bx s v !! i = None) in Ec.
  destruct (p_scan _ _ _ past s Hs v k i got) as (G1 & G2 & G3 & G4); [by rewrite Hv|].
  change (cell_t tpaths) with path in *. apply lookup_ge_None in Ec. assert (Hl : length got = length (bx s v)) by lia.
  split; [done|]. split; [done|]. split; [apply behind_all; lia|].
  destruct (p_head _ _ _ past s Hs v) as (h & sl & Eh & Hh). destruct got as [|new slots]; [by rewrite Eh in Hl|].
  assert (new = h) as ->. { specialize (G3 new eq_refl). rewrite Eh in G3. by injection G3. }
  destruct (p_some _ _ _ past s Hs v) as (p0 & Ep0 & Hgood).
  pose proof (edges_in_time owner n Hown src past HS HI s v Hs) as Htime.
  assert (Hgone : forall gone, k = KDel gone -> forall e, e ∈ gone -> e ∈ (edges s v : list (nat * tedge))).
  { intros gone -> e He. destruct (p_ending _ _ _ past s Hs t v gone) as [_ H]; [|by apply H]. rewrite Et. right. eexists _, _. apply elem_of_list_here. }
  assert (Hgt : forall gone, k = KDel gone -> Forall (fun e => ts_of e <> INFINITY) gone).
  { intros gone E. apply list.Forall_forall. intros e He. apply (Hgone gone E) in He. destruct Htime as [_ Ht]. rewrite list.Forall_forall in Ht. by apply Ht. }
  assert (Hlen : forall ws ms ms', ((ms = []) \/ Forall2 (told ws) (edges s v) ms) ->
    match k with KUpd => ms' = [] | KAdd st => Forall2 (told ws) (skipn st (edges s v)) ms' | KDel gone => Forall2 (told ws) gone ms' end ->
    length ms + length ms' <= 2 * length (edges s v) + match k with KDel gone => length gone | _ => 0 end).
  { intros ws ms ms' H1 H2. change (edge_t tpaths) with tedge in *.
    assert (L1 : length ms <= length (edges s v : list (nat * tedge))) by (destruct H1 as [->|H1]; [cbn; lia|by rewrite (Forall2_length _ _ _ H1)]).
    destruct k as [|st|gone]; [subst; cbn; lia|apply Forall2_length in H2; rewrite skipn_length in H2; lia|apply Forall2_length in H2; cbn in *; lia]. }
  rewrite Ep0. destruct Hh as [-> |[-> ->]].
  - assert (Hok : slots_ok (fun p ts => exists u en, (v, (ts, en, p)) ∈ (edges s u : list (nat * tedge))) slots) by (intros p x Hx; by apply G2).
    assert (Hord := slot_times owner n src past HT s v Hs).
    destruct (react_other k p0 (edges s v) no_path slots (fun p ts => exists u en, (v, (ts, en, p)) ∈ (edges s u : list (nat * tedge)))) as (q & ms & ms' & R1 & R2 & R3 & R4 & R5 & R6);
      [done..|]. exists q, ms, ms'. split; [done|]. split.
    2:{ apply (Hlen (wins q)); [|done]. destruct R4 as [[_ ->]|?]; auto. }
    intros ts Hts. cbn [gives]. change (is_whole no_path) with false. cbv iota.
    destruct (slots_live _ slots Hord Hok) as [L1 L2].
    destruct (retrieve_ok no_path slots (TProp [] [] false)) as (next & ch & E & Q1 & Q2 & Q3 & Q4); [done..|].
    pose proof (retrieve_times no_path slots _ _ ltac:(done) E) as Et'. cbn [nexts] in Et'.
    rewrite (open_ses ts (wins q) next) by congruence.
    apply eq_true_iff_eq. rewrite !open_exists. rewrite (proj2 (Q3 ts)). rewrite !list.Exists_exists. split; intros (x & Hx & Hp); exists x; (split; [|done]).
    + apply live_lookup in Hx as [(j & Hj) _]. by eapply elem_of_list_lookup_2.
    + apply live_lookup. split; [by apply elem_of_list_lookup|]. intros E1. unfold passes in Hp. cbn in Hp. lia.
  - destruct (p_src _ _ _ past s Hs) as (p1 & Ep1 & W1 & W2). rewrite Ep0 in Ep1. injection Ep1 as <-.
    destruct (react_source k p0 (edges s src) whole slots) as (q & ms & ms' & R1 & R2 & R3 & R4 & R5 & R6 & R7); try done.
    exists q, ms, ms'. split; [done|]. split; [|apply (Hlen (wins q)); auto].
    intros ts Hts. rewrite R6. cbn [gives]. change (is_whole whole) with true. cbv iota. unfold open_at. cbn [existsb]. by rewrite orb_false_r.
Qed.

(** What a vertex that is reading will have read; how far the three stages of an edge are apart. *)
Definition view (s : est) (u : nat) : list path :=
  match todo s (owner u) with [Scan v _ _ got] => if v =? u then behind got (bx s u) else bx s u | _ => bx s u end.
Definition gap (x y : bool) : nat := if Bool.eqb x y then 0 else 1.
Definition tells (w : window) (ts en : N) (x : bool) : nat := if decide (w = if x then (ts, extent en) else se no_path) then 0 else 1.
Definition stages (w : window) (ts en : N) (x y z : bool) : nat := tells w ts en x + gap x y + gap y z.
Definition phi (s : est) (e : nat * (nat * tedge)) : nat :=
  let '(u, (d, (ts, en, p))) := e in
  stages (se (slotval (bx s d) p)) ts en (open_at ts (winof s u)) (gives (view s u) ts) (gives (bx s u) ts).
Lemma phi_3 s e : phi s e <= 3.
Proof. destruct e as [u [d [[ts en] p]]]. unfold phi, stages, tells, gap. destruct (decide _), (Bool.eqb _ _), (Bool.eqb _ _); lia. Qed.
Lemma stages_skip w ts en x y z : stages w ts en y z z <= stages w ts en x y z.
Proof. unfold stages, tells, gap. destruct x, y, z; cbn; repeat destruct (decide _); lia. Qed.

Lemma view_bx s u : (forall v k i got, todo s (owner u) <> [Scan (a := tpaths) v k i got]) -> view s u = bx s u.
Proof. intros H. unfold view. destruct (todo s (owner u)) as [|[] [|]] eqn:E; try done. by destruct (H v k i got). Qed.
Lemma view_other s u v k i got : todo s (owner u) = [Scan (a := tpaths) v k i got] -> v <> u -> view s u = bx s u.
Proof. intros H Hne. unfold view. rewrite H. apply Nat.eqb_neq in Hne. by rewrite Hne. Qed.
Lemma view_scan s u k i got : todo s (owner u) = [Scan (a := tpaths) u k i got] -> view s u = behind got (bx s u).
Proof. intros H. unfold view. by rewrite H, Nat.eqb_refl. Qed.
Lemma phi_same s s' e : (forall v, bx s' v = bx s v) -> (forall v, winof s' v = winof s v) -> (forall v, view s' v = view s v) -> phi s' e = phi s e.
Proof. intros H1 H2 H3. destruct e as [u [d [[ts en] p]]]. unfold phi. by rewrite !H1, H2, H3. Qed.
Lemma phi_quiet s s' t l' e : todo s' = upd (todo s) t l' -> (forall v k i got, todo s t <> [Scan (a := tpaths) v k i got]) ->
  (forall v k i got, l' <> [Scan (a := tpaths) v k i got]) -> (forall v, bx s' v = bx s v) -> (forall v, winof s' v = winof s v) -> phi s' e = phi s e.
Proof.
  intros Et H1 H2 Hb Hw. apply phi_same; try done. intros v. destruct (decide (owner v = t)) as [Ev|Ev].
  - rewrite !view_bx; [apply Hb|by rewrite Ev|by rewrite Et, Ev, upd_eq].
  - unfold view. rewrite Et. us. by rewrite Hb.
Qed.

(** A merge. *)
Lemma phi_merge s t u d m rest : pinv s -> todo s t = Merge (a := tpaths) u d m :: rest ->
  exists p x ts en, m = MOffer p x /\ (d, (ts, en, p)) ∈ (edges s u : list (nat * tedge)) /\
    let s' := exec_op tpaths owner s t (Merge (a := tpaths) u d m) rest in
    bx s' d = fst (tp_merge (MOffer p x) (bx s d)) /\ (forall w, w <> d -> bx s' w = bx s w) /\
    (se (slotval (bx s d) p) = se x -> forall w e, e ∈ (edges s w : list (nat * tedge)) -> phi s' (w, e) = phi s (w, e)) /\
    (se (slotval (bx s d) p) <> se x -> phi s' (u, (d, (ts, en, p))) < phi s (u, (d, (ts, en, p))) /\
      forall w e, e ∈ (edges s w : list (nat * tedge)) -> (ts_of e <= ts)%N -> phi s' (w, e) <= phi s (w, e)).
Proof.
  intros Hs Et. destruct (p_msg _ _ _ past s Hs t u d m) as (Hu & p & x & ts & en & -> & Hed & Hx). { rewrite Et. left. apply elem_of_list_here. }
  exists p, x, ts, en. split; [done|]. split; [done|]. intros s'. unfold s' in *. clear s'. cbn [exec_op].
  destruct (merge tpaths (MOffer p x) u d (box s d)) as [b new] eqn:Em. change (tp_merge (MOffer p x) (bx s d) = (b, new)) in Em. rewrite Em. cbn [fst].
  change (cell_t tpaths) with path in b.
  assert (Hbne : (bx s d) <> []). { destruct (p_head _ _ _ past s Hs d) as (? & ? & -> & _). done. }
  destruct (merge_offer _ _ _ _ _ Em Hbne) as (M1 & M2 & M3 & M4 & M5 & M6).
  assert (Hrest := rest_shape owner n src past s t _ _ Hs Et). cbn in Hrest.
  set (l' := if new then Cas (a := tpaths) d :: rest else rest).
  set (s' := Est _ _ _ _ _ _ _ _).
  assert (Hbd : bx s' d = b) by (cbn; by us). assert (Hbn : forall w, w <> d -> bx s' w = bx s w) by (intros w Hw; cbn; by us).
  assert (Hnl : forall v k i got, l' <> [Scan (a := tpaths) v k i got]). { intros v k i got E. unfold l' in E. destruct new; [done|]. by apply Hrest in E. }
  assert (Hnt : forall v k i got, todo s t <> [Scan (a := tpaths) v k i got]) by (intros v k i got E; rewrite E in Et; done).
  assert (Hsl : forall c : list path, (forall q y, c !! S q = Some y -> okslot s d q y) -> p_start (slotval c p) = INFINITY \/ p_start (slotval c p) = ts).
  { intros c Hc. unfold slotval. destruct (c !! S p) as [y|] eqn:Ey; [|by left]. destruct (Hc p y Ey) as [E|[(u' & en' & H) _]]; [by left|right].
    by destruct (edge_one owner n src past HU s u' u d _ en' ts en p Hs H Hed) as (_ & E & _). }
  assert (Hts : (ts < INFINITY)%N). { apply (edge_past _ _ _ _ _ _ _ _ _ _ Hs) in Hed. by apply HI in Hed. }
  assert (Hb0 : p_start (slotval (bx s d) p) = INFINITY \/ p_start (slotval (bx s d) p) = ts) by (apply Hsl; apply Hs).
  assert (Hb1 : p_start (slotval b p) = INFINITY \/ p_start (slotval b p) = ts).
  { assert (E : p_start (slotval b p) = fst (se (slotval b p))) by done. rewrite E, M3, Hx. unfold offer_se. destruct (open_at ts (winof s u)); [by right|by left]. }
  (** What the mailboxes let through. *)
  assert (Hg : forall w τ, (τ < INFINITY)%N -> (τ <= ts)%N \/ se (slotval (bx s d) p) = se x ->
    gives (view s' w) τ = gives (view s w) τ /\ gives (bx s' w) τ = gives (bx s w) τ).
  { intros w τ Hτ Hor.
    assert (Hvw : exists got : list path, length got <= length (bx s w) /\ view s w = behind got (bx s w) /\ view s' w = behind got (bx s' w) /\
       (w = d -> p_start (slotval got p) = INFINITY \/ p_start (slotval got p) = ts)).
    { destruct (decide (owner w = t)) as [Ew|Ew].
      - exists []. rewrite !behind_nil. split; [cbn; lia|]. split; [apply view_bx; by rewrite Ew|]. split; [apply view_bx; cbn; by rewrite Ew, upd_eq|]. intros _. by left.
      - assert (E' : todo s' (owner w) = todo s (owner w)) by (cbn; by us).
        destruct (todo s (owner w)) as [|[u0 d0 m0|d0|d0|v0|v0 k0|v0 k0 i0 got0|l0|v0 m0] [|]] eqn:Eo;
          try (exists []; rewrite !behind_nil; split; [cbn; lia|]; split; [apply view_bx; by rewrite Eo|]; split; [apply view_bx; by rewrite E'|]; intros _; by left).
        destruct (decide (v0 = w)) as [->|Hne].
        + exists got0. destruct (p_scan _ _ _ past s Hs w k0 i0 got0 Eo) as (G1 & G2 & _). split; [done|]. split; [by eapply view_scan|]. split; [by eapply view_scan|].
          intros ->. by apply Hsl.
        + exists []. rewrite !behind_nil. split; [cbn; lia|]. split; [by eapply view_other|]. split; [by eapply view_other|]. intros _. by left. }
    destruct Hvw as (got & Hl & -> & -> & Hgp). destruct (decide (w = d)) as [->|Hwd]; [|by rewrite Hbn].
    rewrite Hbd. apply gives_after with p; try done. destruct Hor as [Hor|Hor]; [right|left; by rewrite M3].
    specialize (Hgp eq_refl). split_and!; lia. }
  split; [done|]. split; [done|]. split.
  - intros Hsame w [d' [[ts' en'] p']] He. assert (Hτ : (ts' < INFINITY)%N) by (apply (edge_past _ _ _ _ _ _ _ _ _ _ Hs) in He; by apply HI in He).
    unfold phi. destruct (Hg w ts' Hτ (or_intror Hsame)) as [-> ->]. change (winof s' w) with (winof s w). f_equal.
    destruct (decide (d' = d)) as [->|Hd]; [|by rewrite Hbn]. rewrite Hbd. destruct (decide (p' = p)) as [->|Hp]; [by rewrite M3|by rewrite M5].
  - intros Hdiff. split.
    + unfold phi. destruct (Hg u ts Hts (or_introl (N.le_refl _))) as [-> ->]. change (winof s' u) with (winof s u). rewrite Hbd, M3, Hx.
      unfold stages, tells. fold (offer_se (winof s u) ts en). destruct (decide _) as [_|H]; [|done]. destruct (decide _) as [H|_]; [by rewrite Hx, H in Hdiff|]. lia.
    + intros w [d' [[ts' en'] p']] He Hle. cbn in Hle. assert (Hτ : (ts' < INFINITY)%N) by (apply (edge_past _ _ _ _ _ _ _ _ _ _ Hs) in He; by apply HI in He).
      unfold phi. destruct (Hg w ts' Hτ (or_introl Hle)) as [-> ->]. change (winof s' w) with (winof s w).
      destruct (decide (d' = d /\ p' = p)) as [[-> ->]|Hslot].
      * destruct (edge_one owner n src past HU s u w d ts en ts' en' p Hs Hed He) as (<- & <- & <-). rewrite Hbd, M3, Hx.
        unfold stages, tells. fold (offer_se (winof s u) ts en). destruct (decide _) as [_|H]; [|done]. lia.
      * apply Nat.eq_le_incl. f_equal. destruct (decide (d' = d)) as [->|Hd]; [|by rewrite Hbn]. rewrite Hbd, M5; [done|]. intros ->. by apply Hslot.
Qed.

(** The other steps. *)
Lemma phi_other s t c e : pinv s -> c ∈ acts tpaths -> (forall u d m rest, todo s t <> Merge (a := tpaths) u d m :: rest) -> (forall v m rest, todo s t <> Init (a := tpaths) v m :: rest) ->
  let s' := estep tpaths owner s t c in (forall v, bx s' v = bx s v) /\ (snd e ∈ (edges s (fst e) : list (nat * tedge)) -> phi s' e <= phi s e).
Proof.
  intros Hs Hc HM Hi. unfold acts in Hc. rewrite !elem_of_cons, elem_of_nil in Hc. cbv zeta. destruct Hc as [->|[->|[]]]; unfold estep.
  2:{ destruct (todo s t) as [|o rest] eqn:Et; [|done]. destruct (queue s t) as [|v q]; [done|]. split; [done|intros He]. apply Nat.eq_le_incl.
      apply (phi_quiet s _ t [Dec v; Begin v KUpd]); try done. by rewrite Et. }
  destruct (todo s t) as [|o rest] eqn:Et; [done|]. pose proof (rest_shape owner n src past s t o rest Hs Et) as Hr.
  destruct o as [u0 d m|d|d|v|v k|v k i got|l|v m]; [by destruct (HM u0 d m rest)| | | | | | |by destruct (Hi v m rest)]; cbn [exec_op] in *.
  - destruct (act s d =? 0); (split; [done|intros He]); apply Nat.eq_le_incl; (eapply (phi_quiet s _ t); [reflexivity|by rewrite Et|try done..]).
  - split; [done|intros He]. apply Nat.eq_le_incl. eapply (phi_quiet s _ t); [reflexivity|by rewrite Et|done..].
  - split; [done|intros He]. apply Nat.eq_le_incl. destruct Hr as [-> _]. eapply (phi_quiet s _ t); [reflexivity|by rewrite Et|done..].
  - split; [done|intros He]. apply Nat.eq_le_incl. destruct Hr as [-> Hv]. apply phi_same; try done. intros w. destruct (decide (owner w = t)) as [Ew|Ew].
    + rewrite (view_bx s) by (by rewrite Ew, Et). unfold view. cbn [todo]. rewrite Ew, upd_eq. by destruct (v =? w).
    + unfold view. cbn [todo]. us. done.
  - destruct Hr as (-> & Hv & Hlen & _). destruct (box s v !! i) as [c|] eqn:Ec.
    + cbn [take tpaths]. set (s' := Est _ _ _ _ _ _ _ _). change (bx s v !! i = Some c) in Ec. change (cell_t tpaths) with path in *.
      assert (Eb : forall w, bx s' w = bx s w).
      { intros w. unfold bx. cbn. unfold upd. destruct (Nat.eqb_spec w v) as [->|]; [|done]. by apply list_insert_id. }
      split; [done|intros He]. apply Nat.eq_le_incl. apply phi_same; try done. intros w. destruct (decide (w = v)) as [->|Hwv].
      * rewrite (view_scan s v k i got) by (by rewrite Hv). rewrite (view_scan s' v k (S i) (got ++ [c])) by (cbn; by rewrite Hv, upd_eq). rewrite Eb. apply behind_read. by rewrite <- Hlen.
      * destruct (decide (owner w = t)) as [Ew|Ew].
        -- rewrite (view_other s w v k i got) by (done || by rewrite Ew). rewrite (view_other s' w v k (S i) (got ++ [c])) by (done || (cbn; by rewrite Ew, upd_eq)). apply Eb.
        -- unfold view. change (todo s' (owner w)) with (upd (todo s) t [Scan (a := tpaths) v k (S i) (got ++ [c])] (owner w)). us. by rewrite Eb.
    + destruct (react_gives s t v k i got [] Hs Et Ec) as (_ & _ & Eg & q & ms & ms' & R1 & R2 & _).
      change (react tpaths v k (prop s v) (edges s v) got) with (tp_react k (prop s v) (edges s v) got). rewrite R1. set (s' := Est _ _ _ _ _ _ _ _). split; [done|intros He].
      assert (Hnl : forall v0 k0 i0 got0, todo s' t <> [Scan (a := tpaths) v0 k0 i0 got0]).
      { intros v0 k0 i0 got0. cbn. rewrite upd_eq. destruct ms as [|[? ?] [|]]; done. }
      destruct e as [u [d [[ts en] p]]]. cbn [fst snd] in He. assert (Hτ : (ts < INFINITY)%N) by (apply (edge_past _ _ _ _ _ _ _ _ _ _ Hs) in He; by apply HI in He).
      unfold phi. change (bx s' d) with (bx s d). change (bx s' u) with (bx s u). destruct (decide (u = v)) as [->|Hu].
      * assert (Ew : winof s' v = wins q) by (unfold winof; cbn; by us). rewrite Ew, R2 by done. rewrite (view_bx s') by (by rewrite Hv). rewrite (view_scan s v k i got) by (by rewrite Hv). rewrite Eg.
        apply stages_skip.
      * assert (Ew : winof s' u = winof s u) by (unfold winof; cbn; by us). rewrite Ew. apply Nat.eq_le_incl. f_equal. f_equal. destruct (decide (owner u = t)) as [Eu|Eu].
        -- rewrite (view_bx s') by (by rewrite Eu). rewrite (view_other s u v k i got); [done|by rewrite Eu|done].
        -- unfold view. change (todo s' (owner u)) with (upd (todo s) t (merges tpaths v ms ++ [Else (a := tpaths) (tag tpaths v ms')]) (owner u)). by us.
  - rewrite Hr in *. split; [done|intros He]. apply Nat.eq_le_incl. eapply (phi_quiet s _ t); [reflexivity|by rewrite Et| |done..].
    intros w k i got. destruct (sent s t =? 0); [|done]. rewrite app_nil_r. destruct l as [|[[? ?] ?] l]; done.
Qed.

Lemma len_step s t c K : pinv s -> c ∈ acts tpaths -> (forall u d ts en p, (d, (ts, en, p)) ∈ (edges s u : list (nat * tedge)) -> p < K) ->
  (forall v, length (bx s v) <= S K) -> forall v, length (bx (estep tpaths owner s t c) v) <= S K.
Proof.
  intros Hs Hc HE Hl v.
  assert (Hcase : (forall u d m rest, todo s t <> Merge (a := tpaths) u d m :: rest) -> (forall v m rest, todo s t <> Init (a := tpaths) v m :: rest) -> length (bx (estep tpaths owner s t c) v) <= S K).
  { intros H1 H2. destruct (phi_other s t c (0, (0, (0%N, 0%N, 0))) Hs Hc H1 H2) as [Hb _]. by rewrite Hb. }
  assert (Hpop : c = Pop -> todo s t <> [] -> length (bx (estep tpaths owner s t c) v) <= S K).
  { intros -> H. unfold estep. by destruct (todo s t). }
  unfold acts in Hc. rewrite !elem_of_cons, elem_of_nil in Hc.
  destruct (todo s t) as [|[u d m|d|d|w|w k|w k i got|l|w m] rest] eqn:Et; try (apply Hcase; intros; done).
  - destruct Hc as [->|[->|[]]]; [|by apply Hpop]. destruct (phi_merge s t u d m rest Hs Et) as (p & x & ts & en & -> & Hed & Hb & Hn & _).
    unfold estep. rewrite Et. destruct (decide (v = d)) as [->|Hv]; [|by rewrite Hn]. rewrite Hb. apply HE in Hed.
    destruct (tp_merge (MOffer p x) (bx s d)) as [b nw] eqn:Em. cbn [fst]. eapply merge_len; [exact Em|apply Hl|apply Hed].
  - destruct Hc as [->|[->|[]]]; [|by apply Hpop]. destruct (p_init _ _ _ _ s Hs t w m) as [-> ->]. { rewrite Et. apply elem_of_list_here. }
    destruct (p_head _ _ _ _ s Hs src) as (h & sl & Eh & _). unfold estep. rewrite Et. cbn [exec_op]. change (box s src) with (bx s src). rewrite Eh. cbn [merge tpaths tp_merge].
    unfold bx. cbn. destruct (decide (v = src)) as [->|Hv]; us; [|apply Hl]. specialize (Hl src). by rewrite Eh in Hl.
Qed.

(** All edges of a finite graph, and what is left to do. *)
Context (E : nat -> list (nat * tedge)) (top K M : nat) (Hlow : forall u, top <= u -> E u = []) (HM : forall u, length (E u) <= M).
Context (HE : forall u d ts en p, (d, (ts, en, p)) ∈ E u -> d < top /\ p < K).
Definition items : list (nat * (nat * tedge)) := flat_map (fun u => map (pair u) (E u)) (seq 0 top).
Lemma in_items u e : e ∈ E u -> (u, e) ∈ items.
Proof.
  intros H. apply elem_of_list_In, in_flat_map. exists u. split.
  - apply in_seq. destruct (decide (u < top)); [lia|]. rewrite Hlow in H by lia. by apply elem_of_nil in H.
  - apply in_map. by apply elem_of_list_In.
Qed.
Lemma items_in e : e ∈ items -> snd e ∈ E (fst e).
Proof.
  intros H. apply elem_of_list_In, in_flat_map in H as (u & _ & H). apply in_map_iff in H as (e' & <- & H). by apply elem_of_list_In.
Qed.
Definition tsi (e : nat * (nat * tedge)) : N := ts_of (snd e).
Definition pot (s : est) : nat := wsum tsi items (phi s) items.
Definition potmax : nat := wsum tsi items (fun _ => 3) items.
Definition room (s : est) : nat := sumt (fun v => S K - length (bx s v)) top.
Definition rinv (s : est) : Prop := pinv s /\ (forall u, edges s u = E u) /\ (forall v, length (bx s v) <= S K).

Definition rc (k : kind tedge) : nat := 2 * M + match k with KDel gone => length gone | _ => 0 end + 1.
Notation wq := (Rest_Work.wq tpaths rc (S K)).
Notation wi := (1 + Rest_Work.wbegin tpaths rc (S K) KUpd + potmax * (wq + 2)).
Notation work := (Rest_Work.work tpaths n 1 rc wi (S K)).
Definition left_over (s : est) : nat := (pot s + room s) * (wq + 2) + work s.

Lemma room_same s s' : (forall v, length (bx s' v) = length (bx s v)) -> room s' = room s.
Proof. intros H. unfold room. apply sumt_ext. intros v _. by rewrite H. Qed.
Lemma room_merge s s' d : d < top -> (forall w, w <> d -> bx s' w = bx s w) -> length (bx s d) <= length (bx s' d) -> length (bx s' d) <= S K ->
  room s' <= room s /\ (length (bx s d) < length (bx s' d) -> room s' < room s).
Proof.
  intros Hd Hne H1 H2. unfold room.
  pose proof (sumt_change (fun v => S K - length (bx s' v)) (fun v => S K - length (bx s v)) top d Hd ltac:(intros; cbn beta; by rewrite Hne)) as H. cbn beta in H. lia.
Qed.
Lemma rinv_threads s : rinv s -> threads tpaths n s.
Proof. intros (Hs & _). apply (shaped_threads owner); [done|apply Hs|apply (w_queue _ _ _ _ (p_wake _ _ _ _ _ Hs))]. Qed.
Lemma rinv_step s t c : rinv s -> c ∈ acts tpaths -> rinv (estep tpaths owner s t c).
Proof.
  intros (Hs & He & Hl) Hc. split_and!; [by apply pinv_acts|intros u; by rewrite engine_edges|]. apply len_step; try done.
  intros u d ts en p. rewrite He. intros H. by destruct (HE _ _ _ _ _ H).
Qed.
Lemma pot_le (s s' : est) : (forall u, edges s u = E u) -> (forall w e, e ∈ (edges s w : list (nat * tedge)) -> phi s' (w, e) <= phi s (w, e)) -> pot s' <= pot s.
Proof. intros He H. apply wsum_le. intros [w e] Hin%items_in. cbn in Hin. apply H. by rewrite He. Qed.
Lemma left_step s t c : rinv s -> c ∈ acts tpaths -> can tpaths s t c = true -> left_over (estep tpaths owner s t c) < left_over s.
Proof.
  intros Hr Hc Hcan. pose proof (rinv_threads s Hr) as HTh. pose proof Hr as (Hs & He & Hl). unfold left_over.
  assert (Ht : t < n). { destruct (decide (t < n)) as [|Ht]; [done|]. destruct (HTh t ltac:(lia)) as [E1 E2]. unfold can in Hcan. rewrite E1, E2 in Hcan. by destruct c. }
  assert (Hcase : (forall u d m rest, todo s t <> Merge (a := tpaths) u d m :: rest) -> (forall v m rest, todo s t <> Init (a := tpaths) v m :: rest) ->
    (pot (estep tpaths owner s t c) + room (estep tpaths owner s t c)) * (wq + 2) + work (estep tpaths owner s t c) < (pot s + room s) * (wq + 2) + work s).
  { intros H1 H2.
    assert (Hp : pot (estep tpaths owner s t c) <= pot s).
    { apply pot_le; [done|]. intros w e Hin. destruct (phi_other s t c (w, e) Hs Hc H1 H2) as [_ Hp]. by apply Hp. }
    assert (Hro : room (estep tpaths owner s t c) = room s).
    { apply room_same. intros v. destruct (phi_other s t c (0, (0, (0%N, 0%N, 0))) Hs Hc H1 H2) as [Hb _]. by rewrite Hb. }
    assert (Hpr : (pot (estep tpaths owner s t c) + room (estep tpaths owner s t c)) * (wq + 2) <= (pot s + room s) * (wq + 2)) by (apply Nat.mul_le_mono_r; lia).
    destruct (Rest_Work.work_step tpaths owner n Hown 1 rc wi (S K) s t c ltac:(lia) ltac:(lia) HTh Hl Hc Hcan) as [H|[H|[H|H]]].
    - lia.
    - destruct H as (v & d & m & rest & Et & _). by destruct (H1 v d m rest).
    - destruct H as (v & m & rest & Et & _). by destruct (H2 v m rest).
    - destruct H as (v & k & i & got & rest & Et & -> & Hn & Hw). destruct (react_gives s t v k i got rest Hs Et Hn) as (_ & _ & _ & q & ms & ms' & R1 & _ & R3).
      change (react tpaths v k (prop s v) (edges s v) got) with (tp_react k (prop s v) (edges s v) got) in Hw. rewrite R1 in Hw. pose proof (HM v) as Hm. rewrite <- He in Hm.
      assert (Hk : rc k = 2 * M + match k with KDel gone => length gone | _ => 0 end + 1) by done. change (edge_t tpaths) with tedge in *. change (msg_t tpaths) with tmsg in *. lia. }
  unfold can in Hcan. unfold acts in Hc. rewrite !elem_of_cons, elem_of_nil in Hc.
  destruct (todo s t) as [|[u d m|d|d|w|w k|w k i got|l|w m] rest] eqn:Et; try (apply Hcase; intros; done).
  - destruct Hc as [->|[->|[]]]; [|done]. destruct (phi_merge s t u d m rest Hs Et) as (p & x & ts & en & -> & Hed & Hb & Hn & Hsame & Hdiff).
    unfold estep. rewrite Et. set (s' := exec_op _ _ _ _ _ _) in *. rewrite He in Hed. pose proof (HE _ _ _ _ _ Hed) as [Hd Hp].
    destruct (tp_merge (MOffer p x) (bx s d)) as [b nw] eqn:Em. cbn [fst] in Hb.
    assert (Hbne : (bx s d) <> []). { destruct (p_head _ _ _ past s Hs d) as (? & ? & -> & _). done. }
    destruct (merge_offer _ _ _ _ _ Em Hbne) as (M1 & _ & _ & _ & _ & M6).
    destruct (room_merge s s' d Hd Hn) as [Hro1 Hro2]; [by rewrite Hb|rewrite Hb; by eapply merge_len|].
    assert (Htd : todo s' t = (if nw then Cas (a := tpaths) d :: rest else rest)).
    { unfold s'. cbn [exec_op]. change (merge tpaths (MOffer p x) u d (box s d)) with (tp_merge (MOffer p x) (bx s d)). rewrite Em. cbn. by rewrite upd_eq. }
    assert (Hto : forall k, k <> t -> todo s' k = todo s k).
    { intros k Hk. unfold s'. cbn [exec_op]. destruct (merge tpaths (MOffer p x) u d (box s d)). cbn. by us. }
    assert (Hqu : forall k, queue s' k = queue s k).
    { intros k. unfold s'. cbn [exec_op]. by destruct (merge tpaths (MOffer p x) u d (box s d)). }
    pose proof (Rest_Work.work_todo tpaths owner n Hown 1 rc wi (S K) s s' t Ht Hto Hqu) as W. rewrite Htd, Et in W. cbn [Rest_Work.lw Rest_Work.opw] in W.
    assert (Hpl : pot s' <= pot s /\ (se (slotval (bx s d) p) <> se x -> pot s' < pot s)).
    { destruct (decide (se (slotval (bx s d) p) = se x)) as [Es|Es].
      - split; [|done]. apply pot_le; [done|]. intros w e Hin. by rewrite Hsame.
      - destruct (Hdiff Es) as [D1 D2]. assert (pot s' < pot s); [|lia]. apply (wsum_move tsi items (phi s) (phi s') (u, (d, (ts, en, p)))).
        + by apply in_items.
        + done.
        + intros e _. apply phi_3.
        + intros [w e] Hin%items_in Hle. cbn in Hin, Hle. apply D2; [by rewrite He|done]. }
    destruct Hpl as [P1 P2]. destruct nw.
    + assert (S (pot s' + room s') <= pot s + room s) as Hdec.
      { destruct (merge_new _ _ _ _ Em Hbne) as [H|H]; [rewrite <- Hb in H; specialize (Hro2 H)|specialize (P2 H)]; lia. }
      apply (Nat.mul_le_mono_r _ _ (wq + 2)) in Hdec. cbn [Rest_Work.lw Rest_Work.opw] in W. lia.
    + assert ((pot s' + room s') * (wq + 2) <= (pot s + room s) * (wq + 2)) by (apply Nat.mul_le_mono_r; lia). lia.
  - destruct Hc as [->|[->|[]]]; [|done]. destruct (p_init _ _ _ _ s Hs t w m) as [-> ->]. { rewrite Et. apply elem_of_list_here. }
    destruct (p_head _ _ _ _ s Hs src) as (h & sl & Eh & _). unfold estep. rewrite Et. cbn [exec_op]. change (box s src) with (bx s src). rewrite Eh. cbn [merge tpaths tp_merge].
    set (s' := Est _ _ _ _ _ _ _ _). pose proof (Rest_Work.work_todo tpaths owner n Hown 1 rc wi (S K) s s' t Ht ltac:(intros; cbn; by us) ltac:(done)) as W.
    rewrite Et in W. cbn [todo s'] in W. rewrite upd_eq in W. cbn [Rest_Work.lw Rest_Work.opw] in W.
    assert (Hro : room s' = room s). { apply room_same. intros v. unfold bx. cbn. destruct (decide (v = src)) as [->|Hv]; us; [|done]. change (box s src) with (bx s src). by rewrite Eh. }
    assert (Hp : pot s' <= potmax) by (apply wsum_le; intros; apply phi_3).
    assert (Hpr : (pot s' + room s') * (wq + 2) <= (potmax + room s) * (wq + 2)) by (apply Nat.mul_le_mono_r; lia).
    rewrite Nat.mul_add_distr_r in Hpr. rewrite (Nat.mul_add_distr_r (pot s)). lia.
Qed.
Lemma path_settles s : rinv s -> finite tpaths owner s /\ settles (erun tpaths owner) (acts tpaths) n idle s.
Proof.
  intros Hs. apply (settles_acc tpaths owner n rinv).
  - apply rinv_threads.
  - intros s' t c H Hc. by apply rinv_step.
  - done.
  - assert (G : forall k s, left_over s < k -> Acc (next tpaths owner rinv) s).
    { induction k as [|k IH]; intros s' Hk; [lia|]. constructor. intros s'' (t & c & I1 & Hc & Hcan & ->). apply IH.
      pose proof (left_step s' t c I1 Hc Hcan). lia. }
    by apply (G (S (left_over s))), Nat.lt_succ_diag_r.
Qed.
End rest.
