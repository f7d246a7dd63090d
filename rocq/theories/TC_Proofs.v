(** Triangle counting: the invariant of every execution. *)
From stdpp Require Import numbers list_numbers.
From Verif Require Import Base TC_Spec Active_Spec Active_Model Active_Proofs TC_Model TC_Count TC_Static.
Open Scope nat_scope.

(** ** Notifications along edges *)
Lemma along_split es a b c lo hi : a <= b <= c -> along es a c lo hi = along es a b lo hi ++ along es b c lo hi.
Proof. intros H. unfold along. replace (c - a) with ((b - a) + (c - b)) by lia. rewrite seq_app, flat_map_app. do 2 f_equal. f_equal. lia. Qed.
Lemma along_prefix S a from k lo hi : k <= a -> (forall e, hi e <= e) -> along (firstn a S) from k lo hi = along S from k lo hi.
Proof.
  intros Hk Hhi. unfold along. assert (G : forall l, (forall e, In e l -> e < k) ->
    flat_map (fun e => match nth_error (firstn a S) e with | Some (d, (r, pos)) => if flagged r then [] else [(d, (map (fun x : nat * tedge => fst (snd x)) (firstn (hi e - lo) (skipn lo (firstn a S))), pos))] | None => [] end) l =
    flat_map (fun e => match nth_error S e with | Some (d, (r, pos)) => if flagged r then [] else [(d, (map (fun x : nat * tedge => fst (snd x)) (firstn (hi e - lo) (skipn lo S)), pos))] | None => [] end) l).
  { induction l as [|e l IH]; intros Hl; [done|]. cbn [flat_map]. rewrite IH by (intros; apply Hl; by right). f_equal.
    assert (He : e < k) by (apply Hl; by left). specialize (Hhi e). assert (E1 : nth_error (firstn a S) e = nth_error S e).
    { clear - He Hk. revert a k He Hk. revert S. induction e as [|e IHe]; intros [|x S] [|a] k He Hk; try lia; try done. cbn. apply (IHe S a (k - 1)); lia. }
    rewrite E1. destruct (nth_error S e) as [[d [r pos]]|]; [|done]. destruct (flagged r); [done|]. do 4 f_equal.
    rewrite skipn_firstn_comm, firstn_firstn. f_equal. lia. }
  apply G. intros e He. apply in_seq in He. lia.
Qed.

Lemma in_firstn {A} k (l : list A) x : In x (firstn k l) -> In x l.
Proof. intros H. rewrite <- (firstn_skipn k l). apply in_or_app. by left. Qed.
Lemma in_skipn {A} k (l : list A) x : In x (skipn k l) -> In x l.
Proof. intros H. rewrite <- (firstn_skipn k l). apply in_or_app. by right. Qed.
Lemma sumn_change f g m t : t < m -> (forall k, k < m -> k <> t -> f k = g k) -> sumn f m + g t = sumn g m + f t.
Proof. exact (sumt_change f g m t). Qed.

Section dyn.
Context (raw : nat -> N) (owner : nat -> nat) (E : list (nat * nat)) (M nt : nat) (st : bool).
Hypothesis Hown : forall v, owner v < nt.
Hypothesis Hraw : forall u v, u < M -> v < M -> raw u = raw v -> u = v.
Hypothesis Hsmall : forall v, v < M -> (raw v < MASK)%N.
Hypothesis Hends : forall a b, (a, b) ∈ E -> a < M /\ b < M.
Notation n := (length (events E)).
Notation SE := (SE raw E).
Notation Mv := (Mv raw E M).
Notation wt := (wt raw E M).
Notation sraw := (sraw raw E).
Notation spos := (spos E).
Notation sent := (sent raw E M).
Notation "'dead' v" := (M <= v) (at level 20, only parsing).

Definition cell (es : list (nat * tedge)) lo hi e : list (nat * tnote) :=
  match nth_error es e with
  | Some (d, (r, pos)) => if flagged r then [] else [(d, (map (fun x : nat * tedge => fst (snd x)) (firstn (hi e - lo) (skipn lo es)), pos))]
  | None => [] end.
Lemma wt_along v es a b lo hi : a <= b -> wt v (along es a b lo hi) = sumn (fun e => if a <=? e then wt v (cell es lo hi e) else 0) b.
Proof.
  intros H. unfold TC_Static.wt, along. rewrite sum_flat. fold (cell es lo hi).
  replace b with (a + (b - a)) at 2 by lia. generalize (b - a). clear H b. intros k. induction k as [|k IH].
  - rewrite Nat.add_0_r. cbn. symmetry. apply sumn_zero. intros e He. by destruct (Nat.leb_spec a e); [lia|].
  - rewrite seq_S, sum_list_with_app, IH, Nat.add_succ_r. cbn [sumn]. f_equal. destruct (Nat.leb_spec a (a + k)); [|lia]. cbn. apply Nat.add_0_r.
Qed.
Lemma wt_along_empty v es a b lo hi : b <= a -> wt v (along es a b lo hi) = 0.
Proof. intros H. unfold along. by replace (b - a) with 0 by lia. Qed.
(** Raising the limit from [l]. *)
Lemma sent_more u v k l l' : l <= l' -> k <= l' -> sent u v k l' = sent u v k l + wt v (along (SE u) (S l) k l (fun e => e)).
Proof.
  intros Hl Hk. unfold TC_Static.sent. rewrite !(wt_along v _ 0) by lia.
  assert (Hr : wt v (along (SE u) (S l) k l (fun e => e)) = sumn (fun e => if S l <=? e then wt v (cell (SE u) l (fun e => e) e) else 0) k).
  { destruct (decide (S l <= k)); [by apply wt_along|]. rewrite wt_along_empty by lia. symmetry. apply sumn_zero. intros e He. by destruct (Nat.leb_spec (S l) e); [lia|]. }
  rewrite Hr, <- sumn_add. apply sumn_ext. intros e He. change (0 <=? e) with true. cbv iota. unfold cell. destruct (nth_error (SE u) e) as [[d [r pos]]|]; [|by destruct (S l <=? e)].
  destruct (flagged r); [by destruct (S l <=? e)|]. unfold TC_Static.wt. cbn [sum_list_with]. rewrite !Nat.sub_0_r, !drop_0. replace (l' `min` e) with e by lia.
  destruct (Nat.leb_spec (S l) e) as [Hle|Hgt].
  - rewrite Nat.min_l by lia. destruct (d =? v); [|done]. rewrite !Nat.add_0_r, <- closing_app, <- map_app. do 3 f_equal.
    replace e with (l + (e - l)) at 1 by lia. generalize (e - l). clear. intros m. rewrite <- (take_drop l (SE u)) at 1.
    destruct (decide (l <= length (SE u))).
    + rewrite firstn_app, firstn_length. replace (l + m - l `min` length (SE u)) with m by lia. f_equal. rewrite firstn_firstn. f_equal. lia.
    + rewrite (drop_ge (SE u)) by lia. rewrite firstn_nil, !app_nil_r. rewrite firstn_firstn. f_equal. lia.
  - rewrite Nat.min_r by lia. by rewrite Nat.add_0_r.
Qed.
Lemma sent_cut u v k k' l : k <= k' -> sent u v k' l = sent u v k l + wt v (along (SE u) k k' 0 (fun e => Nat.min l e)).
Proof. intros H. unfold TC_Static.sent. by rewrite (along_split _ 0 k k'), wt_app by lia. Qed.

(** ** The invariant *)
Notation tb := (ast tcount).
Definition UA (b : tb) v := UpdateAt (aprop b v).
Definition opw (v : nat) (o : aop tcount) : nat :=
  match o with Inc d x | APut d x | ADec d x | Handle d x _ => if d =? v then closing (Mv v) x else 0 | Added _ _ => 0 end.
Definition todow v (l : list (aop tcount)) := sum_list_with (opw v) l.
Definition shipped (b : tb) (u : nat) : nat :=
  match atodo b (owner u) with Added w k :: _ => if w =? u then k else length (aedges b u) | _ => length (aedges b u) end.
Definition good (g : nat -> nat) (d : nat) (x : tnote) : Prop :=
  exists js, fst x = map sraw js /\ (forall j, In j js -> j < n) /\ snd x <= g d.
Definition opgood (g : nat -> nat) (b : tb) (o : aop tcount) : Prop :=
  match o with Inc d x | APut d x | ADec d x | Handle d x _ => good g d x | Added v k => UA b v <= k <= length (aedges b v) end.

(** What will raise the limit of [u]. *)
Definition wakes (b : tb) (u : nat) : Prop :=
  0 < aact b u \/ (exists x r, atodo b (owner u) = Handle u x 0 :: r) \/ (exists k r, atodo b (owner u) = Added u k :: r) \/ (st = true /\ Began_send u ∉ alog b).
Record tinv (s : tst) : Prop := Tinv {
  t_a : ainv tcount owner nt (base s);
  t_got : forall v w, v < M -> w < M -> find_pos (EdgesToPos (aprop (base s) v)) (raw w) =
    if w =? v then None else match first E w v with Some i => if spos i <? got s v then Some (spos i) else None | None => None end;
  t_mark : forall i x, mark s i = Some x -> i < n /\ x = (sraw i, spos i) /\ spos i < got s (snd (event E i));
  t_edges : forall u, added s u <= length (outs E u) /\ aedges (base s) u = firstn (added s u) (SE u);
  t_added : forall u k i, k < added s u -> nth_error (outs E u) k = Some i -> spos i < got s (snd (event E i));
  t_queue : forall t d x, (d, x) ∈ aqueue (base s) t -> good (got s) d x;
  t_todo : forall t o, o ∈ atodo (base s) t -> opgood (got s) (base s) o;
  t_upd : forall u, UA (base s) u <= length (aedges (base s) u);
  t_count : forall v, v < M -> NumLeader (aprop (base s) v) + wt v (aqueue (base s) (owner v)) + sumt (fun t => todow v (atodo (base s) t)) nt
    = sumn (fun u => sent u v (shipped (base s) u) (UA (base s) u)) M;
  t_wake : forall u, UA (base s) u < length (aedges (base s) u) ->
    wakes (base s) u }.

(** The hits of a note do not change any more. *)
Lemma good_closing s v x : tinv s -> v < M -> good (got s) v x -> closing (EdgesToPos (aprop (base s) v)) x = closing (Mv v) x.
Proof.
  intros HI Hv (js & Hx & Hjs & Hp). unfold closing. rewrite Hx. clear Hx. induction js as [|j js IH]; [done|]. cbn [map List.filter].
  assert (Hc : closes (EdgesToPos (aprop (base s) v)) (snd x) (sraw j) = closes (Mv v) (snd x) (sraw j)).
  { unfold closes. assert (Hj : j < n) by (apply Hjs; by left). pose proof (sraw_cases raw E M Hraw Hsmall Hends j Hj) as H. pose proof (event_in E M Hends j Hj) as [_ Hw]. destruct (event E j) as [u w]. cbn in Hw.
    destruct H as [[-> _]|(_ & _ & -> & -> & _)]; [done|]. cbn [negb andb]. rewrite (t_got _ HI), (find_Mv raw E M Hraw) by done. destruct (w =? v); [done|]. destruct (first E w v) as [i|]; [|done].
    destruct (Nat.ltb_spec (spos i) (got s v)); [done|]. symmetry. apply Nat.ltb_ge. lia. }
  rewrite Hc. assert (IH' := IH ltac:(intros; apply Hjs; by right)). destruct (closes (Mv v) (snd x) (sraw j)); cbn [length]; lia.
Qed.

Lemma len_edges s u : tinv s -> length (aedges (base s) u) = added s u.
Proof. intros HI. destruct (t_edges _ HI u) as [H ->]. rewrite firstn_length. unfold TC_Static.SE. rewrite map_length. lia. Qed.
Lemma outs_dead u : M <= u -> outs E u = [].
Proof. intros H. destruct (outs E u) as [|i l] eqn:Eo; [done|]. assert (Hn : nth_error (outs E u) 0 = Some i) by (by rewrite Eo). apply outs_nth in Hn. destruct Hn as (H1 & H2 & _). pose proof (event_in E M Hends i H1). lia. Qed.

(** Everything sent along edges is good. *)
Lemma along_good s u a b lo hi d x : tinv s -> b <= length (aedges (base s) u) -> (d, x) ∈ along (aedges (base s) u) a b lo hi -> good (got s) d x.
Proof.
  intros HI Hb Hin. unfold along in Hin. apply elem_of_list_In, in_flat_map in Hin. destruct Hin as (e & He & Hin). apply in_seq in He.
  assert (Hlen := len_edges s u HI). destruct (t_edges _ HI u) as [H1 H2]. rewrite H2 in Hin.
  assert (Hnth : nth_error (firstn (added s u) (SE u)) e = nth_error (SE u) e).
  { assert (e < added s u) by lia. clear - H. revert e H. generalize (added s u) as a. generalize (SE u) as l. induction l as [|y l IH]; intros [|a] [|e] He; try lia; try done. cbn. apply IH. lia. }
  rewrite Hnth in Hin. unfold TC_Static.SE in Hin at 1. rewrite nth_error_map in Hin. destruct (nth_error (outs E u) e) as [i|] eqn:Ei; [|done]. cbn [option_map sedge] in Hin. unfold sedge in Hin.
  destruct (flagged (sraw i)); [done|]. destruct Hin as [Hin|[]]. injection Hin as <- <-.
  exists (firstn (hi e - lo) (skipn lo (firstn (added s u) (outs E u)))). split; [|split].
  - cbn [fst]. unfold TC_Static.SE. rewrite firstn_map, skipn_map, firstn_map, map_map. done.
  - intros j Hj. assert (Hj2 : In j (outs E u)).
    { apply in_firstn, in_skipn, in_firstn in Hj. done. }
    unfold outs, those in Hj2. apply filter_In in Hj2. destruct Hj2 as [Hj2 _]. apply in_seq in Hj2. lia.
  - cbn [snd]. apply Nat.lt_le_incl. apply (t_added _ HI u e); [lia|done].
Qed.

(** ** Steps *)
Definition plain (l : list (aop tcount)) : Prop := match l with Added _ _ :: _ => False | _ => True end.
Lemma shipped_same (b b' : tb) t l : atodo b' = upd (atodo b) t l -> aedges b' = aedges b -> plain (atodo b t) -> plain l -> forall u, shipped b' u = shipped b u.
Proof.
  intros Et Ee H1 H2 u. unfold shipped. rewrite Et, Ee. destruct (decide (owner u = t)) as [<-|Hne]; us; [|done].
  destruct l as [|[]], (atodo b (owner u)) as [|[]]; done.
Qed.
Lemma shipped_plain (b : tb) u : plain (atodo b (owner u)) -> shipped b u = length (aedges b u).
Proof. unfold shipped. destruct (atodo b (owner u)) as [|[]]; done. Qed.

Lemma tinv_base s b' t l : tinv s -> ainv tcount owner nt b' -> t < nt -> atodo b' = upd (atodo (base s)) t l -> aedges b' = aedges (base s) ->
  (forall v, EdgesToPos (aprop b' v) = EdgesToPos (aprop (base s) v)) ->
  (forall v, owner v <> t -> aprop b' v = aprop (base s) v) ->
  (forall k d x, (d, x) ∈ aqueue b' k -> good (got s) d x) ->
  (forall o, o ∈ l -> match o with Added _ _ => False | _ => opgood (got s) (base s) o end) ->
  (forall u, UA b' u <= length (aedges (base s) u)) ->
  (forall v, v < M -> NumLeader (aprop b' v) + wt v (aqueue b' (owner v)) + todow v l + sumn (fun u => sent u v (shipped (base s) u) (UA (base s) u)) M
    = NumLeader (aprop (base s) v) + wt v (aqueue (base s) (owner v)) + todow v (atodo (base s) t) + sumn (fun u => sent u v (shipped b' u) (UA b' u)) M) ->
  (forall u, UA b' u < length (aedges (base s) u) -> wakes b' u) ->
  tinv (Tst b' (got s) (added s) (mark s)).
Proof.
  intros HI Ha Ht Et Ee Hp Hown' Hq Hl Hu Hc Hw. constructor; cbn [base got added mark]; try done.
  - intros v w Hv Hw'. rewrite Hp. by apply (t_got _ HI).
  - apply (t_mark _ HI).
  - intros u. rewrite Ee. apply (t_edges _ HI).
  - apply (t_added _ HI).
  - intros k o Ho. rewrite Et in Ho. destruct (decide (k = t)) as [->|Hne]; us.
    + specialize (Hl o Ho). destruct o; done.
    + pose proof (t_todo _ HI k o Ho) as Hg. destruct o as [d x|d x|d x|d x i|v i]; try done. cbn in *. unfold UA in *. rewrite Ee, Hown'; [done|].
      destruct (i_mine _ _ _ _ (t_a _ HI) k _ Ho) as [_ Hm]. cbn in Hm. congruence.
  - intros u. rewrite Ee. apply Hu.
  - intros v Hv. pose proof (t_count _ HI v Hv) as H1. pose proof (Hc v Hv) as H2. pose proof (sum_upd tcount nt (todow v) (base s) t l (atodo b') Ht Et) as H3. lia.
  - intros u. rewrite Ee. apply Hw.
Qed.

Lemma todow_sends v ms l : todow v (sends tcount ms ++ l) = wt v ms + todow v l.
Proof. unfold todow. rewrite sum_list_with_app. f_equal. unfold sends. rewrite sum_map. apply sum_ext. by intros [d x] _. Qed.

(** A step that keeps all properties and moves one notification. *)
Lemma tinv_move s b' t l : tinv s -> ainv tcount owner nt b' -> t < nt -> atodo b' = upd (atodo (base s)) t l -> aedges b' = aedges (base s) -> aprop b' = aprop (base s) ->
  (forall k d x, (d, x) ∈ aqueue b' k -> good (got s) d x) ->
  (forall o, o ∈ l -> match o with Added _ _ => False | _ => opgood (got s) (base s) o end) ->
  plain (atodo (base s) t) ->
  (forall v, wt v (aqueue b' (owner v)) + todow v l = wt v (aqueue (base s) (owner v)) + todow v (atodo (base s) t)) ->
  (forall u, wakes (base s) u -> wakes b' u) ->
  tinv (Tst b' (got s) (added s) (mark s)).
Proof.
  intros HI Ha Ht Et Ee Ep Hq Hl Hpl Hc Hw. assert (Hpl' : plain l).
  { destruct l as [|[]]; try done. apply (Hl (Added v start)). apply elem_of_list_here. }
  apply (tinv_base s b' t l); try done.
  - intros v. by rewrite Ep.
  - intros v _. by rewrite Ep.
  - intros u. unfold UA. rewrite Ep. apply (t_upd _ HI).
  - intros v Hv. rewrite Ep. pose proof (Hc v). assert (Es : sumn (fun u => sent u v (shipped b' u) (UA b' u)) M = sumn (fun u => sent u v (shipped (base s) u) (UA (base s) u)) M).
    { apply sumn_ext. intros u _. unfold UA. by rewrite Ep, (shipped_same (base s) b' t l). }
    lia.
  - intros u Hu. apply Hw. apply (t_wake _ HI). unfold UA in *. by rewrite Ep in Hu.
Qed.

Lemma tinv_pop s t : tinv s -> tinv (Tst (astep tcount owner (base s) t APop) (got s) (added s) (mark s)).
Proof.
  intros HI. pose proof (ainv_astep tcount owner nt (base s) t APop Hown ltac:(done) (t_a _ HI)) as Ha. unfold astep in *.
  destruct (atodo (base s) t) eqn:Et; [|by destruct s]. destruct (aqueue (base s) t) as [|[v x] q] eqn:Eq; [by destruct s|].
  assert (Hov : owner v = t) by (apply (i_queue _ _ _ _ (t_a _ HI) t v x); rewrite Eq; apply elem_of_list_here).
  apply (tinv_move s _ t [ADec v x]); cbn [atodo aedges aprop aqueue aact alog]; try done.
  - rewrite <- Hov. apply Hown.
  - intros k d y Hin. destruct (decide (k = t)) as [->|]; us; [|by apply (t_queue _ HI k)]. apply (t_queue _ HI t). rewrite Eq. by apply elem_of_list_further.
  - intros o ->%elem_of_list_singleton. cbn. apply (t_queue _ HI t). rewrite Eq. apply elem_of_list_here.
  - by rewrite Et.
  - intros w. rewrite Et. cbn. destruct (decide (owner w = t)) as [Hw|Hw].
    + rewrite Hw. us. rewrite Eq. unfold TC_Static.wt. cbn [sum_list_with]. lia.
    + us. destruct (Nat.eqb_spec v w) as [->|]; [done|]. lia.
  - intros u [H|[(y & r & H)|[(k & r & H)|H]]]; unfold wakes; cbn [aact atodo alog]; [by left| | |tauto];
    destruct (decide (owner u = t)) as [Hu|Hu]; [rewrite Hu, Et in H; done|right; left; exists y, r; by us|rewrite Hu, Et in H; done|right; right; left; exists k, r; by us].
Qed.
Lemma tinv_note s t v : t < nt -> tinv s -> tinv (Tst (astep tcount owner (base s) t (ANote (a := tcount) v ([], 0))) (got s) (added s) (mark s)).
Proof.
  intros Ht HI. pose proof (ainv_astep tcount owner nt (base s) t (ANote (a := tcount) v ([], 0)) Hown ltac:(done) (t_a _ HI)) as Ha. unfold astep in *.
  destruct (atodo (base s) t) eqn:Et; [|by destruct s].
  apply (tinv_move s _ t [Inc (a := tcount) v ([], 0)]); cbn [atodo aedges aprop aqueue aact alog]; try done.
  - apply (t_queue _ HI).
  - intros o ->%elem_of_list_singleton. cbn. exists []. cbn. split; [done|]. split; [done|]. lia.
  - by rewrite Et.
  - intros w. rewrite Et. cbn. unfold closing. cbn. by destruct (v =? w).
  - intros u [H|[(y & r & H)|[(k & r & H)|H]]]; unfold wakes; cbn [aact atodo alog]; [by left| | |tauto];
    destruct (decide (owner u = t)) as [Hu|Hu]; [rewrite Hu, Et in H; done|right; left; exists y, r; by us|rewrite Hu, Et in H; done|right; right; left; exists k, r; by us].
Qed.

Lemma rest_plain s t o rest : tinv s -> atodo (base s) t = o :: rest -> forall o', o' ∈ rest -> match o' with Added _ _ => False | _ => opgood (got s) (base s) o' end.
Proof.
  intros HI Et o' Hin. pose proof (t_todo _ HI t o') as Hg. rewrite Et in Hg. specialize (Hg (elem_of_list_further _ _ _ Hin)). destruct o' as [| | | |w k]; try done.
  by apply (i_add _ _ _ _ (t_a _ HI) t o rest w k).
Qed.
Lemma head_good s t o rest : tinv s -> atodo (base s) t = o :: rest -> t < nt /\ amine tcount owner t o /\ opgood (got s) (base s) o.
Proof.
  intros HI Et. assert (Ho : o ∈ atodo (base s) t) by (rewrite Et; apply elem_of_list_here). destruct (i_mine _ _ _ _ (t_a _ HI) t o Ho). split; [done|]. split; [done|]. by apply (t_todo _ HI t).
Qed.

Ltac tys := change (e_t tcount) with tedge in *; change (n_t tcount) with tnote in *; change (p_t tcount) with tcp in *.
Ltac tlia := tys; lia.
Lemma react_note v x k (p0 : tcp) (es : list (nat * tedge)) (p : tcp) (ms : list (nat * tnote)) : areact tcount v (KNote x) k p0 es = (p, ms) ->
  (p = Tcp (NumLeader p0 + closing (EdgesToPos p0) x) (UpdateAt p0) (EdgesToPos p0) /\ ms = [] /\ (0 < k \/ length es <= UpdateAt p0)) \/
  (p = Tcp (NumLeader p0 + closing (EdgesToPos p0) x) (length es) (EdgesToPos p0) /\ ms = along es (S (UpdateAt p0)) (length es) (UpdateAt p0) (fun e => e)).
Proof.
  cbn [areact tcount NumLeader UpdateAt EdgesToPos]. destruct (Nat.eqb_spec k 0) as [->|Hk]; cbn [andb].
  - change (length (A := nat * e_t tcount) es) with (length (A := nat * tedge) es). destruct (Nat.ltb_spec (UpdateAt p0) (length es)); intros [= <- <-]; [right; done|left; split; [done|]; split; [done|]; right; lia].
  - intros [= <- <-]. left. split; [done|]. split; [done|]. left. lia.
Qed.
Lemma react_added v i act (p0 : tcp) (es : list (nat * tedge)) (p : tcp) (ms : list (nat * tnote)) : areact tcount v (KAdded i) act p0 es = (p, ms) ->
  (0 < act /\ p = p0 /\ ms = along es i (length es) 0 (fun e => Nat.min (UpdateAt p0) e)) \/
  (p = Tcp (NumLeader p0) (length es) (EdgesToPos p0) /\ ms = along es (S (UpdateAt p0)) i (UpdateAt p0) (fun e => e) ++ along es i (length es) 0 (fun e => Nat.min (length es) e)).
Proof.
  cbn [areact tcount]. destruct (Nat.eqb_spec act 0) as [Ek|Hk]; intros [= <- <-]; [right; done|left; split; [lia|done]].
Qed.

Lemma tinv_run s t : tinv s -> tinv (Tst (astep tcount owner (base s) t ARun) (got s) (added s) (mark s)).
Proof.
  intros HI. pose proof (ainv_astep tcount owner nt (base s) t ARun Hown ltac:(done) (t_a _ HI)) as Ha. unfold astep in *.
  destruct (atodo (base s) t) as [|o rest] eqn:Et; [by destruct s|].
  destruct (head_good s t o rest HI Et) as (Ht & Hm & Hg). pose proof (rest_plain s t o rest HI Et) as Hr.
  assert (Hwo : forall b' l u, atodo b' = upd (atodo (base s)) t l -> owner u <> t -> aact b' u = aact (base s) u -> (Began_send u ∈ alog b' -> Began_send u ∈ alog (base s)) -> wakes (base s) u -> wakes b' u).
  { intros b' l u E1 Hu E2 E3 [H|[(y & r & H)|[(k & r & H)|[H1 H2]]]]; unfold wakes; rewrite E1, E2; us; [by left|right; left; by exists y, r|right; right; left; by exists k, r|]. do 3 right. auto. }
  destruct o as [d x|d x|v x|v x k|v i]; cbn [aexec] in Ha |- *.
  - apply (tinv_move s _ t (APut d x :: rest)); cbn [atodo aedges aprop aqueue aact alog]; try done.
    + apply (t_queue _ HI).
    + intros o [->|Ho]%elem_of_cons; [done|by apply Hr].
    + by rewrite Et.
    + intros v. by rewrite Et.
    + intros u Hw. destruct (decide (u = d)) as [->|Hne]; [left; cbn [aact]; us; tlia|].
      assert (Hnb : Began_send u ∈ alog (base s) ++ [Began_send d] -> Began_send u ∈ alog (base s)).
      { intros [H|H%elem_of_list_singleton]%elem_of_app; [done|congruence]. }
      destruct (decide (owner u = t)) as [Hu|Hu]; [|by eapply Hwo; [done|done|cbn; by us|done|]].
      destruct Hw as [H|[(y & r & H)|[(k & r & H)|[H1 H2]]]]; [left; cbn [aact]; by us|rewrite Hu, Et in H; done|rewrite Hu, Et in H; done|]. do 3 right. split; [done|]. cbn [alog]. auto.
  - apply (tinv_move s _ t rest); cbn [atodo aedges aprop aqueue aact alog]; try done.
    + intros k d' y Hin. destruct (decide (k = owner d)) as [->|]; us; [|by apply (t_queue _ HI k)]. apply elem_of_app in Hin. destruct Hin as [Hin|Hin%elem_of_list_singleton]; [by apply (t_queue _ HI (owner d))|]. injection Hin as -> ->. done.
    + by rewrite Et.
    + intros v. rewrite Et. destruct (decide (owner v = owner d)) as [Hv|Hv].
      * rewrite Hv. us. rewrite wt_app. unfold todow. cbn. tlia.
      * us. unfold todow. cbn. destruct (Nat.eqb_spec d v) as [->|]; [done|]. tlia.
    + intros u Hw. assert (Hnb : Began_send u ∈ alog (base s) ++ [Ended_send d] -> Began_send u ∈ alog (base s)).
      { intros [H|H%elem_of_list_singleton]%elem_of_app; [done|congruence]. }
      destruct (decide (owner u = t)) as [Hu|Hu]; [|by eapply Hwo; [done|done|cbn; by us|done|]].
      destruct Hw as [H|[(y & r & H)|[(k & r & H)|[H1 H2]]]]; [by left|rewrite Hu, Et in H; done|rewrite Hu, Et in H; done|]. do 3 right. split; [done|]. cbn [alog]. auto.
  - apply (tinv_move s _ t (Handle v x (aact (base s) v - 1) :: rest)); cbn [atodo aedges aprop aqueue aact alog]; try done.
    + apply (t_queue _ HI).
    + intros o [->|Ho]%elem_of_cons; [done|by apply Hr].
    + by rewrite Et.
    + intros w. by rewrite Et.
    + intros u Hw. assert (Hnb : Began_send u ∈ alog (base s) ++ [Handled v (aact (base s) v - 1)] -> Began_send u ∈ alog (base s)).
      { intros [H|H%elem_of_list_singleton]%elem_of_app; [done|congruence]. }
      cbn in Hm. destruct (decide (u = v)) as [->|Hne].
      { destruct (aact (base s) v - 1) as [|m] eqn:Ek; [right; left; exists x, rest; cbn [atodo]; rewrite Hm; by us|left; cbn [aact]; us; tlia]. }
      destruct (decide (owner u = t)) as [Hu|Hu]; [|by eapply Hwo; [done|done|cbn; by us|done|]].
      destruct Hw as [H|[(y & r & H)|[(k & r & H)|[H1 H2]]]]; [left; cbn [aact]; by us|rewrite Hu, Et in H; done|rewrite Hu, Et in H; done|]. do 3 right. split; [done|]. cbn [alog]. auto.
  - cbn in Hm, Hg. destruct (areact tcount v (KNote x) k (aprop (base s) v) (aedges (base s) v)) as [p ms] eqn:Er.
    set (p0 := aprop (base s) v : tcp) in *. set (es := aedges (base s) v) in *.
    assert (Hlen : UpdateAt p0 <= length es) by apply (t_upd _ HI v).
    assert (Hms : (p = Tcp (NumLeader p0 + closing (EdgesToPos p0) x) (UpdateAt p0) (EdgesToPos p0) /\ ms = [] /\ (0 < k \/ UpdateAt p0 = length es)) \/
      (p = Tcp (NumLeader p0 + closing (EdgesToPos p0) x) (length es) (EdgesToPos p0) /\ ms = along es (S (UpdateAt p0)) (length es) (UpdateAt p0) (fun e => e))).
    { destruct (react_note v x k p0 es p ms Er) as [(H1 & H2 & H3)|H]; [left; split; [done|]; split; [done|]; tys; lia|by right]. }
    clear Er. assert (Hsp : plain (sends tcount ms ++ rest)).
    { destruct ms as [|[]]; [|done]. destruct rest as [|[| | | |w j] r]; try done. apply (Hr (Added w j)). apply elem_of_list_here. }
    assert (Hpe : EdgesToPos p = EdgesToPos p0) by (destruct Hms as [(-> & _)|(-> & _)]; done).
    assert (Hpl : NumLeader p = NumLeader p0 + closing (EdgesToPos p0) x) by (destruct Hms as [(-> & _)|(-> & _)]; done).
    assert (Hpu : UpdateAt p <= length es) by (destruct Hms as [(-> & _)|(-> & _)]; cbn; tlia).
    apply (tinv_base s _ t (sends tcount ms ++ rest)); cbn [atodo aedges aprop aqueue aact alog]; try done.
    + intros w. destruct (decide (w = v)) as [->|]; us; done.
    + intros w Hw. by rewrite upd_ne by congruence.
    + apply (t_queue _ HI).
    + intros o [Ho|Ho]%elem_of_app; [|by apply Hr]. unfold sends in Ho. apply elem_of_list_fmap in Ho. destruct Ho as ([d y] & -> & Hin). cbn.
      destruct Hms as [(_ & -> & _)|(_ & ->)]; [by apply elem_of_nil in Hin|]. exact (along_good s v _ _ _ _ d y HI (le_n _) Hin).
    + intros u. unfold UA. cbn [aprop]. destruct (decide (u = v)) as [->|]; us; [done|apply (t_upd _ HI)].
    + intros w Hw. rewrite Et, todow_sends. unfold todow at 2. cbn [sum_list_with opw].
      assert (Hn : NumLeader (upd (aprop (base s)) v p w : tcp) = NumLeader (aprop (base s) w : tcp) + (if v =? w then closing (Mv w) x else 0)).
      { destruct (Nat.eqb_spec v w) as [<-|Hne]; us; [|tlia]. rewrite Hpl. f_equal. by apply good_closing. }
      rewrite Hn. set (b' := Ast _ _ _ _ _ _) in *.
      assert (Hs : sumn (fun u => sent u w (shipped b' u) (UA b' u)) M = sumn (fun u => sent u w (shipped (base s) u) (UA (base s) u)) M + wt w ms).
      { assert (Hsh : forall u, shipped b' u = shipped (base s) u) by (apply (shipped_same (base s) b' t (sends tcount ms ++ rest)); [done|done|by rewrite Et|done]).
        assert (Hsv : shipped (base s) v = length es) by (apply shipped_plain; by rewrite Hm, Et).
        destruct Hms as [(Ep & -> & _)|(Ep & Ems)].
        - rewrite Nat.add_0_r. apply sumn_ext. intros u _. rewrite Hsh. f_equal. unfold UA, b'. cbn [aprop]. destruct (decide (u = v)) as [->|]; us; [by rewrite Ep|done].
        - destruct (decide (v < M)) as [Hv|Hv].
          + pose proof (sumn_change (fun u => sent u w (shipped b' u) (UA b' u)) (fun u => sent u w (shipped (base s) u) (UA (base s) u)) M v Hv) as Hc. cbn beta in Hc.
            rewrite Hsh, Hsv in Hc. assert (Hub : UA b' v = length es) by (unfold UA, b'; cbn [aprop]; us; by rewrite Ep). rewrite Hub in Hc.
            assert (Hu0 : UA (base s) v = UpdateAt p0) by done. rewrite Hu0 in Hc.
            rewrite (sent_more v w (length es) (UpdateAt p0) (length es)) in Hc by tlia.
            assert (Hal : along es (S (UpdateAt p0)) (length es) (UpdateAt p0) (fun e => e) = along (SE v) (S (UpdateAt p0)) (length es) (UpdateAt p0) (fun e => e)).
            { unfold es. rewrite len_edges by done. destruct (t_edges _ HI v) as [_ ->]. by apply along_prefix. }
            rewrite Ems, Hal. assert (Hc' := Hc ltac:(intros u _ Hne; rewrite Hsh; unfold UA, b'; cbn [aprop]; by us)). tlia.
          + assert (Hes : length es = 0) by (unfold es; rewrite len_edges by done; destruct (t_edges _ HI v) as [H1 _]; rewrite outs_dead in H1 by tlia; cbn in H1; tlia).
            rewrite Ems, Hes. unfold along. cbn. rewrite Nat.add_0_r. apply sumn_ext. intros u Hu. rewrite Hsh. unfold UA, b'. cbn [aprop]. rewrite upd_ne by tlia. done. }
      rewrite Hs. change (sum_list_with (opw w) rest) with (todow w rest). tlia.
    + intros u Hu. unfold UA in Hu. cbn [aprop] in Hu. destruct (decide (u = v)) as [->|Hne]; us.
      * left. cbn [aact]. assert (Hk : k <= aact (base s) v) by (apply (i_keep _ _ _ _ (t_a _ HI) t v x k); rewrite Et; apply elem_of_list_here).
        destruct Hms as [(-> & _ & H)|(-> & _)]; cbn [UpdateAt] in Hu; fold es in Hu; tlia.
      * pose proof (t_wake _ HI u Hu) as Hw. destruct (decide (owner u = t)) as [Hu'|Hu']; [|by eapply Hwo].
        destruct Hw as [H|[(y & r & H)|[(j & r & H)|H]]]; [by left|rewrite Hu', Et in H; injection H; congruence|rewrite Hu', Et in H; done|by do 3 right].
  - cbn in Hm, Hg. destruct (areact tcount v (KAdded i) (aact (base s) v) (aprop (base s) v) (aedges (base s) v)) as [p ms] eqn:Er.
    set (p0 := aprop (base s) v : tcp) in *. set (es := aedges (base s) v) in *. unfold UA in Hg. fold p0 es in Hg.
    assert (Hms : (0 < aact (base s) v /\ p = p0 /\ ms = along es i (length es) 0 (fun e => Nat.min (UpdateAt p0) e)) \/
      (p = Tcp (NumLeader p0) (length es) (EdgesToPos p0) /\ ms = along es (S (UpdateAt p0)) i (UpdateAt p0) (fun e => e) ++ along es i (length es) 0 (fun e => Nat.min (length es) e))).
    { exact (react_added v i _ p0 es p ms Er). }
    clear Er. assert (Hsp : plain (sends tcount ms ++ rest)).
    { destruct ms as [|[]]; [|done]. destruct rest as [|[| | | |w j] r]; try done. apply (Hr (Added w j)). apply elem_of_list_here. }
    assert (Hpe : EdgesToPos p = EdgesToPos p0) by (destruct Hms as [(_ & -> & _)|(-> & _)]; done).
    assert (Hpl : NumLeader p = NumLeader p0) by (destruct Hms as [(_ & -> & _)|(-> & _)]; done).
    assert (Hpu : UpdateAt p <= length es) by (destruct Hms as [(_ & -> & _)|(-> & _)]; cbn; tlia).
    apply (tinv_base s _ t (sends tcount ms ++ rest)); cbn [atodo aedges aprop aqueue aact alog]; try done.
    + intros w. destruct (decide (w = v)) as [->|]; us; done.
    + intros w Hw. by rewrite upd_ne by congruence.
    + apply (t_queue _ HI).
    + intros o [Ho|Ho]%elem_of_app; [|by apply Hr]. unfold sends in Ho. apply elem_of_list_fmap in Ho. destruct Ho as ([d y] & -> & Hin). cbn.
      destruct Hms as [(_ & _ & ->)|(_ & ->)]; [exact (along_good s v _ _ _ _ d y HI (le_n _) Hin)|]. apply elem_of_app in Hin. destruct Hin as [Hin|Hin]; [|exact (along_good s v _ _ _ _ d y HI (le_n _) Hin)]. exact (along_good s v _ i _ _ d y HI (proj2 Hg) Hin).
    + intros u. unfold UA. cbn [aprop]. destruct (decide (u = v)) as [->|]; us; [done|apply (t_upd _ HI)].
    + intros w Hw. rewrite Et, todow_sends. unfold todow at 2. cbn [sum_list_with opw].
      assert (Hn : NumLeader (upd (aprop (base s)) v p w : tcp) = NumLeader (aprop (base s) w : tcp)).
      { destruct (Nat.eqb_spec v w) as [<-|Hne]; us; [|tlia]. by rewrite Hpl. }
      rewrite Hn. set (b' := Ast _ _ _ _ _ _) in *.
      assert (Hs : sumn (fun u => sent u w (shipped b' u) (UA b' u)) M = sumn (fun u => sent u w (shipped (base s) u) (UA (base s) u)) M + wt w ms).
      { assert (Hsh : forall u, u <> v -> shipped b' u = shipped (base s) u).
        { intros u Hu. unfold shipped, b'. cbn [atodo aedges]. destruct (decide (owner u = t)) as [Hu'|Hu']; [|by us]. rewrite Hu'. us. rewrite Et. rewrite (proj2 (Nat.eqb_neq v u)) by done.
          destruct (sends tcount ms ++ rest) as [|[]]; done. }
        assert (Hs0 : shipped (base s) v = i) by (unfold shipped; rewrite Hm, Et, Nat.eqb_refl; done).
        assert (Hs1 : shipped b' v = length es) by (apply shipped_plain; unfold b'; cbn [atodo]; rewrite Hm; by us).
        assert (Hpre : forall a k lo hi, k <= length es -> (forall e, hi e <= e) -> along es a k lo hi = along (SE v) a k lo hi).
        { intros a k lo hi Hk Hhi. unfold es in Hk |- *. rewrite len_edges in Hk by done. destruct (t_edges _ HI v) as [_ ->]. by apply along_prefix. }
        destruct (decide (v < M)) as [Hv|Hv].
        - pose proof (sumn_change (fun u => sent u w (shipped b' u) (UA b' u)) (fun u => sent u w (shipped (base s) u) (UA (base s) u)) M v Hv) as Hc. cbn beta in Hc.
          rewrite Hs0, Hs1 in Hc. assert (Hc' := Hc ltac:(intros u _ Hne; rewrite Hsh by done; unfold UA, b'; cbn [aprop]; by us)). clear Hc.
          assert (Hub : UA b' v = UpdateAt p) by (unfold UA, b'; cbn [aprop]; by us). rewrite Hub in Hc'.
          assert (Hu0 : UA (base s) v = UpdateAt p0) by done. rewrite Hu0 in Hc'.
          destruct Hms as [(_ & Ep & Ems)|(Ep & Ems)].
          + rewrite Ep in Hc'. rewrite (sent_cut v w i (length es)) in Hc' by tlia. rewrite Ems, Hpre by tlia. tlia.
          + rewrite Ep in Hc'. cbn [UpdateAt] in Hc'. rewrite (sent_cut v w i (length es)) in Hc' by tlia. rewrite (sent_more v w i (UpdateAt p0) (length es)) in Hc' by tlia.
            rewrite Ems, wt_app, !Hpre by tlia. tlia.
        - assert (Hes : length es = 0) by (unfold es; rewrite len_edges by done; destruct (t_edges _ HI v) as [H1 _]; rewrite outs_dead in H1 by tlia; cbn in H1; tlia).
          assert (Hm0 : wt w ms = 0) by (destruct Hms as [(_ & _ & ->)|(_ & ->)]; rewrite ?wt_app, ?wt_along_empty by tlia; done).
          rewrite Hm0, Nat.add_0_r. apply sumn_ext. intros u Hu. rewrite Hsh by tlia. unfold UA, b'. cbn [aprop]. rewrite upd_ne by tlia. done. }
      rewrite Hs. change (sum_list_with (opw w) rest) with (todow w rest). tlia.
    + intros u Hu. unfold UA in Hu. cbn [aprop] in Hu. destruct (decide (u = v)) as [->|Hne]; us.
      * left. cbn [aact]. destruct Hms as [(H & _)|(-> & _)]; [done|]. cbn [UpdateAt] in Hu. fold es in Hu. tlia.
      * pose proof (t_wake _ HI u Hu) as Hw. destruct (decide (owner u = t)) as [Hu'|Hu']; [|by eapply Hwo].
        destruct Hw as [H|[(y & r & H)|[(j & r & H)|H]]]; [by left|rewrite Hu', Et in H; done|rewrite Hu', Et in H; injection H; congruence|by do 3 right].
Qed.

Lemma in_edge s v i : tinv s -> i < n -> snd (event E i) = v -> spos i = got s v ->
  let q := on_in_edge (aprop (base s) v : tcp) (raw (fst (event E i))) (raw v) (got s v) i in
  snd q = sraw i /\ NumLeader (fst q) = NumLeader (aprop (base s) v : tcp) /\ UpdateAt (fst q) = UpdateAt (aprop (base s) v : tcp) /\
  forall w, w < M -> find_pos (EdgesToPos (fst q)) (raw w) = if w =? v then None else match first E w v with Some j => if spos j <? S (got s v) then Some (spos j) else None | None => None end.
Proof.
  intros HI Hi Hv Hp. pose proof (event_in E M Hends i Hi) as [HuM HvM]. assert (Hf : forall w, w < M -> _) by exact (fun w => t_got _ HI v w ltac:(by rewrite <- Hv)).
  unfold on_in_edge, TC_Static.sraw. destruct (event E i) as [u v0] eqn:Ei. cbn [fst snd] in *. subst v0.
  assert (Hold : forall w j, first E w v = Some j -> w <> u -> (spos j <? S (got s v)) = (spos j <? got s v)).
  { intros w j Hj Hne. assert (spos j <> got s v); [|destruct (Nat.ltb_spec (spos j) (S (got s v))), (Nat.ltb_spec (spos j) (got s v)); lia].
    rewrite <- Hp. intros Ep. apply (spos_inj raw E M Hraw Hsmall Hends) in Ep; [|apply first_event in Hj; by rewrite Hj, Ei]. subst j. apply first_event in Hj. rewrite Ei in Hj. congruence. }
  destruct (N.eqb_spec (raw v) (raw u)) as [Er|Er].
  - apply Hraw in Er; [|done|done]. subst u. rewrite Nat.eqb_refl. cbn [fst snd]. split; [done|]. split; [done|]. split; [done|]. intros w Hw. rewrite Hf by done.
    destruct (Nat.eqb_spec w v) as [->|Hne]; [done|]. destruct (first E w v) as [j|] eqn:Ej; [|done]. by rewrite (Hold w j).
  - destruct (Nat.eqb_spec u v) as [->|Hne]; [done|]. rewrite Hf by done. rewrite (proj2 (Nat.eqb_neq u v)) by done.
    destruct (first_le E u v i Hi Ei) as (j & Ej & Hji). rewrite Ej.
    assert (Hlt : (spos j <? got s v) = (j <? i)) by (rewrite <- Hp; apply spos_lt; apply first_event in Ej; by rewrite Ej, Ei).
    rewrite Hlt. destruct (Nat.ltb_spec j i) as [Hl|Hl].
    + cbn [fst snd]. rewrite (proj2 (Nat.eqb_neq j i)) by lia. split; [done|]. split; [done|]. split; [done|]. intros w Hw. rewrite Hf by done.
      destruct (w =? v); [done|]. destruct (decide (w = u)) as [->|Hwu].
      * rewrite Ej, Hlt. apply Nat.ltb_lt in Hlt. by destruct (Nat.ltb_spec (spos j) (S (got s v))); [|lia].
      * destruct (first E w v) as [j'|] eqn:Ej'; [|done]. by rewrite (Hold w j').
    + assert (j = i) by lia. subst j. rewrite Nat.eqb_refl. cbn [fst snd NumLeader UpdateAt EdgesToPos find_pos]. split; [done|]. split; [done|]. split; [done|]. intros w Hw.
      destruct (N.eqb_spec (raw u) (raw w)) as [Ew|Ew].
      * apply Hraw in Ew; [|done|done]. subst w. rewrite (proj2 (Nat.eqb_neq u v)), Ej by done. rewrite Hp. by destruct (Nat.ltb_spec (got s v) (S (got s v))); [|lia].
      * rewrite Hf by done. destruct (w =? v); [done|]. destruct (first E w v) as [j'|] eqn:Ej'; [|done]. by rewrite (Hold w j') by congruence.
Qed.

Lemma good_more g g' d x : (forall v, g v <= g' v) -> good g d x -> good g' d x.
Proof. intros H (js & H1 & H2 & H3). exists js. split; [done|]. split; [done|]. specialize (H d). lia. Qed.

Lemma tinv_in s t v : tinv s -> tinv (tstep raw owner E s t (TIn v)).
Proof.
  intros HI. unfold tstep. destruct (atodo (base s) t) as [|o rest] eqn:Et; [|done]. destruct (nth_error (ins E v) (got s v)) as [i|] eqn:Ei; [|done].
  destruct (Nat.eqb_spec (owner v) t) as [Ho|]; [|done]. apply ins_nth in Ei. destruct Ei as (Hi & Hv & Hp).
  assert (HvM : v < M) by (rewrite <- Hv; by apply event_in).
  pose proof (in_edge s v i HI Hi Hv Hp) as (Q1 & Q2 & Q3 & Q4).
  destruct (on_in_edge (aprop (base s) v) (raw (fst (event E i))) (raw v) (got s v) i) as [p r] eqn:Eq. cbn [fst snd] in *.
  assert (Hb : astep tcount owner (base s) t (ATouch (a := tcount) v (raw (event E i).1, raw v, got s v, i)) = Ast (aact (base s)) (aqueue (base s)) (upd (aprop (base s)) v (p : p_t tcount)) (aedges (base s)) (atodo (base s)) (alog (base s))).
  { unfold astep. rewrite Et, Ho, Nat.eqb_refl. do 2 f_equal. cbn [touch tcount]. by rewrite Eq. }
  pose proof (ainv_astep tcount owner nt (base s) t (ATouch (a := tcount) v (raw (event E i).1, raw v, got s v, i)) Hown ltac:(done) (t_a _ HI)) as Ha.
  rewrite Hb in Ha |- *. set (b' := Ast _ _ _ _ _ _) in *.
  assert (HU : forall u, UA b' u = UA (base s) u) by (intros u; unfold UA, b'; cbn [aprop]; destruct (decide (u = v)) as [->|]; us; done).
  assert (HN : forall u, NumLeader (aprop b' u : tcp) = NumLeader (aprop (base s) u : tcp)) by (intros u; unfold b'; cbn [aprop]; destruct (decide (u = v)) as [->|]; us; done).
  assert (Hg : forall u, got s u <= upd (got s) v (S (got s v)) u) by (intros u; destruct (decide (u = v)) as [->|]; us; lia).
  constructor; cbn [base got added mark]; try done.
  - intros v' w Hv' Hw. unfold b'. cbn [aprop]. destruct (decide (v' = v)) as [->|]; us; [by apply Q4|by apply (t_got _ HI)].
  - intros j x Hx. destruct (decide (j = i)) as [->|Hne]; us.
    + injection Hx as <-. rewrite Hv. us. rewrite Q1, Hp. split; [done|]. split; [done|]. lia.
    + destruct (t_mark _ HI j x Hx) as (H1 & H2 & H3). split; [done|]. split; [done|]. specialize (Hg (snd (event E j))). lia.
  - apply (t_edges _ HI).
  - intros u k j Hk Hj. pose proof (t_added _ HI u k j Hk Hj). specialize (Hg (snd (event E j))). lia.
  - intros k d x Hin. eapply good_more; [done|]. by apply (t_queue _ HI k).
  - intros k o Hin. pose proof (t_todo _ HI k o Hin) as H. destruct o as [d x|d x|d x|d x j|w j]; cbn in H |- *; try (by eapply good_more). by rewrite HU.
  - intros u. rewrite HU. apply (t_upd _ HI).
  - intros w Hw. rewrite HN. transitivity (sumn (fun u => sent u w (shipped (base s) u) (UA (base s) u)) M); [by apply (t_count _ HI)|]. apply sumn_ext. intros u _. by rewrite HU.
  - intros u. rewrite HU. apply (t_wake _ HI).
Qed.

Lemma marked_spec s l ys : tinv s -> marked E (mark s) l = Some ys -> ys = map (sedge raw E) l /\ forall i, In i l -> spos i < got s (snd (event E i)).
Proof.
  intros HI. revert ys. induction l as [|i l IH]; intros ys; cbn [marked]; [intros [= <-]; split; [done|]; intros i []|].
  destruct (mark s i) as [x|] eqn:Em; [|done]. destruct (marked E (mark s) l) as [y|]; [|done]. intros [= <-]. destruct (IH y eq_refl) as [-> H]. destruct (t_mark _ HI i x Em) as (H1 & -> & H3).
  split; [done|]. intros j [<-|Hj]; [done|by apply H].
Qed.

Lemma tinv_out s t v k : tinv s -> tinv (tstep raw owner E s t (TOut v k)).
Proof.
  intros HI. unfold tstep. destruct (atodo (base s) t) as [|o rest] eqn:Et; [|done].
  destruct (marked E (mark s) (firstn k (skipn (added s v) (outs E v)))) as [ys|] eqn:Em; [|done]. destruct ys as [|y ys]; [done|].
  destruct (Nat.eqb_spec (owner v) t) as [Ho|]; [|done]. destruct (marked_spec _ _ _ HI Em) as [Hys Hmk]. clear Em.
  pose proof (ainv_astep tcount owner nt (base s) t (AAdd (a := tcount) v (y :: ys)) Hown ltac:(done) (t_a _ HI)) as Ha.
  assert (Hb : astep tcount owner (base s) t (AAdd (a := tcount) v (y :: ys)) = Ast (aact (base s)) (aqueue (base s)) (aprop (base s)) (upd (aedges (base s)) v (aedges (base s) v ++ (y :: ys : list (nat * e_t tcount)))) (upd (atodo (base s)) t [Added v (length (aedges (base s) v))]) (alog (base s))).
  { unfold astep. by rewrite Et, Ho, Nat.eqb_refl. }
  rewrite Hb in Ha |- *. set (zs := y :: ys) in *. clearbody zs. clear y ys Hb. set (b' := Ast _ _ _ _ _ _) in *.
  assert (Hlz : length zs = Nat.min k (length (outs E v) - added s v)) by (rewrite Hys, map_length, firstn_length, skipn_length; done).
  assert (Hle : forall u, length (aedges (base s) u) <= length (aedges b' u)).
  { intros u. unfold b'. cbn [aedges]. destruct (decide (u = v)) as [->|]; us; [rewrite app_length|]; lia. }
  assert (Hsh : forall u, shipped b' u = shipped (base s) u).
  { intros u. unfold shipped, b'. cbn [atodo aedges]. destruct (decide (owner u = t)) as [Hu|Hu]; us.
    - rewrite Hu. us. rewrite Et. destruct (Nat.eqb_spec v u) as [->|]; [done|]. by us.
    - done. }
  destruct (t_edges _ HI v) as [HE1 HE2].
  constructor; cbn [base got added mark]; try done.
  - apply (t_got _ HI).
  - apply (t_mark _ HI).
  - intros u. unfold b'. cbn [aedges]. destruct (decide (u = v)) as [->|]; us; [|apply (t_edges _ HI)]. split; [lia|]. rewrite HE2.
    rewrite <- take_take_drop. f_equal. rewrite Hlz, Hys. unfold TC_Static.SE. rewrite skipn_map, <- firstn_map. 
    assert (Hl : length (map (sedge raw E) (skipn (added s v) (outs E v))) = length (outs E v) - added s v) by (by rewrite map_length, skipn_length).
    rewrite <- Hl. clear. generalize (map (sedge raw E) (skipn (added s v) (outs E v))). intros l. destruct (decide (k <= length l)); [by rewrite Nat.min_l by lia|]. rewrite Nat.min_r, !firstn_all2 by lia. done.
  - intros u j i Hj Hn. destruct (decide (u = v)) as [->|]; us; [|by apply (t_added _ HI u j)]. destruct (decide (j < added s v)); [by apply (t_added _ HI v j)|].
    apply Hmk. apply (nth_error_In _ (j - added s v)). rewrite <- Hn. assert (Hj2 : j - added s v < k) by lia. replace j with (added s v + (j - added s v)) at 2 by lia. generalize (j - added s v), Hj2. clear. intros m Hm.
    rewrite <- nth_error_skipn || idtac. revert m k Hm. generalize (added s v) as a. generalize (outs E v) as l. intros l a. revert l. induction a as [|a IH]; intros [|x l] m k Hm; cbn; try (by destruct m, k).
    + destruct m, k; try lia; try done. cbn. revert m k Hm. induction l as [|z l IHl]; intros m k Hm; destruct m, k; try lia; try done. cbn. apply IHl. lia.
    + by apply IH.
  - apply (t_queue _ HI).
  - intros j o Hin. unfold b' in Hin. cbn [atodo] in Hin. destruct (decide (j = t)) as [->|]; us.
    + apply elem_of_list_singleton in Hin. subst o. cbn. split; [apply (t_upd _ HI)|apply Hle].
    + pose proof (t_todo _ HI j o Hin) as H. destruct o as [d x|d x|d x|d x i|w i]; try done. cbn [opgood] in H |- *. change (UA b' w) with (UA (base s) w). split; [apply H|]. etransitivity; [apply H|apply Hle].
  - intros u. etransitivity; [apply (t_upd _ HI)|apply Hle].
  - intros w Hw. pose proof (sum_upd tcount nt (todow w) (base s) t [Added v (length (aedges (base s) v))] (atodo b') ltac:(rewrite <- Ho; apply Hown) eq_refl) as H3. rewrite Et in H3. cbn in H3.
    pose proof (t_count _ HI w Hw) as H1. assert (Hs : sumn (fun u => sent u w (shipped b' u) (UA b' u)) M = sumn (fun u => sent u w (shipped (base s) u) (UA (base s) u)) M) by (apply sumn_ext; intros u _; by rewrite Hsh).
    rewrite Hs. cbn [aprop aqueue b']. unfold todow in *. cbn in H3 |- *. tlia.
  - intros u Hu. destruct (decide (u = v)) as [->|Hne].
    + right. right. left. exists (length (aedges (base s) v)), []. unfold b'. cbn [atodo]. rewrite Ho. by us.
    + unfold b' in Hu. cbn [aedges] in Hu. us. pose proof (t_wake _ HI u Hu) as [H|[(x & r & H)|[(j & r & H)|H]]]; unfold wakes; cbn [aact atodo alog b'].
      * by left.
      * destruct (decide (owner u = t)) as [Hu2|]; [rewrite Hu2, Et in H; done|]. right. left. exists x, r. by us.
      * destruct (decide (owner u = t)) as [Hu2|]; [rewrite Hu2, Et in H; done|]. right. right. left. exists j, r. by us.
      * by do 3 right.
Qed.

Lemma tinv_step s t c : t < nt -> tinv s -> tinv (tstep raw owner E s t c).
Proof.
  intros Ht HI. destruct c as [| |v|v|v k]; [by apply tinv_run|by apply tinv_pop|by apply tinv_note|by apply tinv_in|by apply tinv_out].
Qed.
Lemma tinv_trun sched : forall s, (forall t c, (t, c) ∈ sched -> t < nt) -> tinv s -> tinv (trun raw owner E s sched).
Proof.
  induction sched as [|[t c] l IH]; intros s Ht HI; [done|]. cbn. apply IH; [intros t' c' Hin; apply (Ht t' c'); by apply elem_of_list_further|]. apply tinv_step; [apply (Ht t c), elem_of_list_here|done].
Qed.
Lemma sent_none u v k : sent u v k 0 = 0.
Proof.
  unfold TC_Static.sent. rewrite wt_along by lia. apply sumn_zero. intros e _. change (0 <=? e) with true. cbv iota. unfold cell. destruct (nth_error (SE u) e) as [[d [r pos]]|]; [|done]. destruct (flagged r); [done|]. cbn. by destruct (d =? v).
Qed.
Lemma tinv_new : tinv tnew.
Proof.
  constructor; cbn; try done.
  - apply ainv_start.
  - intros v w _ _. destruct (w =? v); [done|]. by destruct (first E w v).
  - intros u. split; [lia|done].
  - intros u k i Hk. lia.
  - intros t d x Hin. by apply elem_of_nil in Hin.
  - intros t o Hin. by apply elem_of_nil in Hin.
  - intros v Hv. rewrite sumt_zero by done. symmetry. apply sumn_zero. intros u _. done.
  - intros u Hu. unfold UA in Hu. cbn in Hu. lia.
Qed.

(** At rest, with every edge added, the counters are the triangles. *)
Lemma tinv_rest s : tinv s -> (forall t, t < nt -> atodo (base s) t = [] /\ aqueue (base s) t = []) -> (forall u, u < M -> added s u = length (outs E u)) ->
  (st = true -> forall u, u < M -> outs E u <> [] -> Began_send u ∈ alog (base s)) ->
  sumn (fun v => NumLeader (aprop (base s) v)) M = triangles E M /\ forall u, u < M -> UpdateAt (aprop (base s) u) = length (aedges (base s) u).
Proof.
  intros HI Hrest Hadd Hst. assert (HU : forall u, u < M -> UA (base s) u = length (aedges (base s) u)).
  { intros u Hu. pose proof (t_upd _ HI u) as H1. destruct (decide (UA (base s) u = length (aedges (base s) u))) as [|Hne]; [done|]. exfalso. 
    pose proof (t_wake _ HI u ltac:(tlia)) as [H|[(x & r & H)|[(k & r & H)|[H2 H]]]].
    - rewrite (i_act _ _ _ _ (t_a _ HI) u) in H. destruct (Hrest (owner u) (Hown u)) as [_ Hq]. rewrite Hq in H. rewrite !sumt_zero in H by (intros t Ht; destruct (Hrest t Ht) as [-> _]; done). cbn in H. lia.
    - destruct (Hrest (owner u) (Hown u)) as [Hq _]. by rewrite Hq in H.
    - destruct (Hrest (owner u) (Hown u)) as [Hq _]. by rewrite Hq in H.
    - apply H. apply Hst; [done|done|]. intros Ho. apply Hne. rewrite len_edges, Hadd, Ho in * by done. cbn in *. tlia. }
  split; [|done]. rewrite <- (all_sent raw E M Hraw Hsmall Hends). apply sumn_ext. intros v Hv. pose proof (t_count _ HI v Hv) as H.
  destruct (Hrest (owner v) (Hown v)) as [_ Hq]. rewrite Hq in H. rewrite sumt_zero in H by (intros t Ht; destruct (Hrest t Ht) as [-> _]; done). cbn in H. rewrite !Nat.add_0_r in H. rewrite H.
  apply sumn_ext. intros u Hu. rewrite HU by done. rewrite shipped_plain by (destruct (Hrest (owner u) (Hown u)) as [-> _]; done).
  rewrite len_edges, Hadd by done. unfold TC_Static.SE. by rewrite map_length.
Qed.
End dyn.
