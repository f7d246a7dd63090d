(** Streams with deletions: marking edges removes as many to each destination as taking the
    oldest each time. *)
From Verif Require Import Base Engine_Spec Engine_Model Whole_Model QDel_Spec QDel_Model.
Open Scope nat_scope.

Definition is_to (d : nat) (x : nat) : nat := if x =? d then 1 else 0.
Lemma to_cons {E} d (e : nat * E) l : to d (e :: l) = is_to d (fst e) + to d l.
Proof. unfold to, is_to. cbn. by destruct (fst e =? d). Qed.
Lemma to_app {E} d (l l' : list (nat * E)) : to d (l ++ l') = to d l + to d l'.
Proof. unfold to. by rewrite List.filter_app, app_length. Qed.
Lemma remove_to {E} d (l r : list (nat * E)) : remove_oldest d l = Some r -> forall x, to x l = is_to x d + to x r.
Proof.
  revert r. induction l as [|e l IH]; intros r; [done|]. cbn [remove_oldest]. destruct (Nat.eqb_spec (fst e) d) as [Ed|Ed].
  - intros [= ->] x. by rewrite to_cons, Ed.
  - destruct (remove_oldest d l) as [r'|]; [|done]. intros [= <-] x. rewrite !to_cons, (IH r') by done. lia.
Qed.
Lemma remove_none {E} d (l : list (nat * E)) : remove_oldest d l = None <-> to d l = 0.
Proof.
  induction l as [|e l IH]; [done|]. cbn [remove_oldest]. rewrite to_cons. unfold is_to. destruct (Nat.eqb_spec (fst e) d) as [Ed|Ed]; [split; [done|lia]|].
  rewrite <- IH. by destruct (remove_oldest d l).
Qed.
Lemma remove_some {E} d (l : list (nat * E)) : 0 < to d l -> exists r, remove_oldest d l = Some r.
Proof. intros H. destruct (remove_oldest d l) as [r|] eqn:Er; [by exists r|]. apply remove_none in Er. lia. Qed.
Lemma after_app {E} (cs cs' : list (change E)) : forall l, after l (cs ++ cs') = match after l cs with Some r => after r cs' | None => None end.
Proof. induction cs as [|[e|d] cs IH]; intros l; [done|apply IH|]. cbn. destruct (remove_oldest d l); [apply IH|done]. Qed.
Lemma after_plus {E} (es : list (nat * E)) : forall l, after l (map Plus es) = Some (l ++ es).
Proof. induction es as [|e es IH]; intros l; cbn; [by rewrite app_nil_r|]. by rewrite IH, <- app_assoc. Qed.
Lemma added_app {E} (cs cs' : list (change E)) : added (cs ++ cs') = added cs ++ added cs'.
Proof. apply flat_map_app. Qed.
Lemma added_plus {E} (es : list (nat * E)) : added (map Plus es) = es.
Proof. induction es as [|e es IH]; [done|]. cbn. f_equal. apply IH. Qed.
Lemma added_minus {E} ds : added (map (Minus (E := E)) ds) = [].
Proof. by induction ds. Qed.

(** Events of a vertex. *)
Lemma changes_app {E} (l l' : list (nat * change E)) v : changes (l ++ l') v = changes l v ++ changes l' v.
Proof. unfold changes. by rewrite List.filter_app, map_app. Qed.
Lemma changes_cons {E} x (l : list (nat * change E)) v : changes (x :: l) v = if fst x =? v then snd x :: changes l v else changes l v.
Proof. unfold changes. cbn. by destruct (fst x =? v). Qed.
Lemma changes_rest {A} k v (l : list (nat * change (edge_t A))) : changes (rest_of A k v l) v = skipn k (changes l v).
Proof.
  revert k. induction l as [|x l IH]; intros [|k]; try done. cbn [rest_of]. rewrite changes_cons. destruct (fst x =? v) eqn:Ex; [apply IH|].
  rewrite changes_cons, Ex. apply (IH (S k)).
Qed.
Lemma changes_rest_ne {A} k v u (l : list (nat * change (edge_t A))) : u <> v -> changes (rest_of A k v l) u = changes l u.
Proof.
  intros Hu. revert k. induction l as [|x l IH]; intros [|k]; try done. cbn [rest_of]. rewrite (changes_cons x l). destruct (Nat.eqb_spec (fst x) v) as [Ex|Ex].
  - destruct (Nat.eqb_spec (fst x) u); [congruence|]. apply IH.
  - rewrite changes_cons. by rewrite (IH (S k)).
Qed.
Lemma rest_in {A} k v x (l : list (nat * change (edge_t A))) : x ∈ rest_of A k v l -> x ∈ l.
Proof.
  revert k. induction l as [|y l IH]; intros [|k]; try done. cbn [rest_of]. destruct (fst y =? v); [intros H; by apply elem_of_list_further, (IH k)|].
  rewrite !elem_of_cons. intros [->|H]; [by left|right; by apply (IH (S k))].
Qed.
Lemma changes_in {E} (l : list (nat * change E)) v x : x ∈ changes l v <-> (v, x) ∈ l.
Proof.
  induction l as [|[u y] l IH]; [by rewrite !elem_of_nil|]. rewrite changes_cons, elem_of_cons. cbn [fst snd]. destruct (Nat.eqb_spec u v) as [->|Hu].
  - rewrite elem_of_cons, IH. split; (intros [E'|E']; [left|by right]); congruence.
  - rewrite IH. split; [by right|]. intros [[= -> ->]|?]; done.
Qed.

Section marks.
Context (A : alg).
Notation edge := (nat * edge_t A)%type.
Lemma add_run_split cs : cs = map Plus (add_run A cs) ++ skipn (length (add_run A cs)) cs.
Proof. induction cs as [|[e|d] cs IH]; [done| |done]. cbn. by rewrite <- IH. Qed.
Lemma del_run_split cs : cs = map Minus (del_run A cs) ++ skipn (length (del_run A cs)) cs.
Proof. induction cs as [|[e|d] cs IH]; [done|done|]. cbn. by rewrite <- IH. Qed.

Lemma masked_mark (l : list edge) : forall m j e x, length m = length l -> nth_error l j = Some e -> nth_error m j = Some false ->
  to x (masked false l m) = is_to x (fst e) + to x (masked false l (<[j := true]> m)).
Proof.
  induction l as [|y l IH]; intros m j e x Hl Hj Hm; [by destruct j|]. destruct m as [|b m]; [done|]. injection Hl as Hl. destruct j as [|j]; cbn in Hj, Hm.
  - injection Hj as ->. injection Hm as ->. cbn -[to]. by rewrite to_cons.
  - change (<[S j := true]> (b :: m)) with (b :: <[j := true]> m). destruct b; cbn [masked Bool.eqb]; rewrite ?to_cons, (IH m j e x) by done; lia.
Qed.
Lemma first_free_some d (l : list edge) : forall m j, first_free A d l m = Some j -> exists e, nth_error l j = Some e /\ fst e = d /\ nth_error m j = Some false.
Proof.
  induction l as [|e l IH]; intros m j; [done|]. destruct m as [|b m]; [done|]. cbn [first_free]. destruct (Nat.eqb_spec (fst e) d) as [Ed|Ed], b; cbn [andb negb].
  2:{ intros [= <-]. by exists e. }
  all: destruct (first_free A d l m) as [i|] eqn:Ef; [|done]; intros [= <-]; by apply (IH m i).
Qed.
Lemma first_free_none d (l : list edge) : forall m, length m = length l -> first_free A d l m = None -> to d (masked false l m) = 0.
Proof.
  induction l as [|e l IH]; intros m Hl; [by destruct m|]. destruct m as [|b m]; [done|]. injection Hl as Hl. cbn [first_free masked].
  destruct (Nat.eqb_spec (fst e) d) as [Ed|Ed], b; cbn [andb negb Bool.eqb]; try done; intros H.
  all: assert (first_free A d l m = None) as H' by (by destruct (first_free A d l m)); rewrite ?to_cons, (IH m Hl H'); unfold is_to; try done.
  by destruct (Nat.eqb_spec (fst e) d).
Qed.
Fixpoint trues (m : list bool) : nat := match m with [] => 0 | b :: m => (if b then 1 else 0) + trues m end.
Lemma trues_le m : trues m <= length m.
Proof. induction m as [|[] m IH]; cbn; lia. Qed.
Lemma trues_set m j : nth_error m j = Some false -> trues (<[j := true]> m) = S (trues m).
Proof. revert j. induction m as [|b m IH]; intros [|j]; cbn; try done; [by intros [= ->]|]. intros H. specialize (IH j H). rewrite plus_n_Sm, <- IH. done. Qed.
Lemma trues_all (l : list edge) : forall m, length m = length l -> length l <= trues m -> masked false l m = [].
Proof.
  induction l as [|e l IH]; intros [|b m] Hl H; try done. injection Hl as Hl. cbn in H. pose proof (trues_le m). destruct b; [|lia]. cbn. apply IH; [done|lia].
Qed.
Lemma set_length {X} j (x : X) m : length (<[j := x]> m) = length m.
Proof. apply insert_length. Qed.

(** Marking does what removing the oldest does, up to which of the parallel edges goes. *)
Lemma marks_some ds : forall (l : list edge) m k m' l0, length m = length l -> same l0 (masked false l m) -> marks A l m k ds = Some m' ->
  length m' = length l /\ exists r, after l0 (map Minus ds) = Some r /\ same r (masked false l m').
Proof.
  induction ds as [|d ds IH]; intros l m k m' l0 Hl Hs; cbn [marks]; [intros [= <-]; split; [done|]; by exists l0|].
  assert (Hgo : forall j e, nth_error l j = Some e -> fst e = d -> nth_error m j = Some false -> marks A l (<[j := true]> m) (S k) ds = Some m' ->
    length m' = length l /\ exists r, after l0 (map Minus (d :: ds)) = Some r /\ same r (masked false l m')).
  { intros j e Hj Hd Hm H. pose proof (fun x => masked_mark l m j e x Hl Hj Hm) as HM. rewrite Hd in HM.
    destruct (remove_some d l0) as (r & Hr). { rewrite (Hs d), HM. unfold is_to. rewrite Nat.eqb_refl. lia. }
    destruct (IH l (<[j := true]> m) (S k) m' r) as (E1 & E2); [by rewrite set_length| |done|].
    - intros x. pose proof (remove_to d l0 r Hr x) as H1. rewrite (Hs x), HM in H1. lia.
    - split; [done|]. cbn [map after]. by rewrite Hr. }
  destruct (nth_error l k) as [e|] eqn:Ek; [|done]. destruct (nth_error m k) as [b|] eqn:Em; [|done]. destruct (Nat.eqb_spec (fst e) d) as [Ed|Ed], b; cbn [andb negb].
  2:{ intros H. by apply (Hgo k e). }
  all: destruct (first_free A d l m) as [j|] eqn:Ef; [|done]; intros H; destruct (first_free_some d l m j Ef) as (e' & ? & ? & ?); by apply (Hgo j e').
Qed.
Lemma marks_none ds : forall (l : list edge) m k l0, length m = length l -> k <= trues m -> same l0 (masked false l m) -> marks A l m k ds = None ->
  after l0 (map Minus ds) = None.
Proof.
  induction ds as [|d ds IH]; intros l m k l0 Hl Hk Hs; cbn [marks]; [done|].
  assert (Hz : to d (masked false l m) = 0 -> after l0 (map Minus (d :: ds)) = None).
  { intros H. cbn [map after]. assert (remove_oldest d l0 = None) as -> by (apply remove_none; by rewrite (Hs d)). done. }
  assert (Hgo : forall j e, nth_error l j = Some e -> fst e = d -> nth_error m j = Some false -> marks A l (<[j := true]> m) (S k) ds = None ->
    after l0 (map Minus (d :: ds)) = None).
  { intros j e Hj Hd Hm H. pose proof (fun x => masked_mark l m j e x Hl Hj Hm) as HM. rewrite Hd in HM.
    cbn [map after]. destruct (remove_oldest d l0) as [r|] eqn:Hr; [|done].
    apply (IH l (<[j := true]> m) (S k) r); [by rewrite set_length|rewrite trues_set by done; lia| |done].
    intros x. pose proof (remove_to d l0 r Hr x) as H1. rewrite (Hs x), HM in H1. lia. }
  destruct (nth_error l k) as [e|] eqn:Ek.
  2:{ intros _. apply Hz. apply nth_error_None in Ek. rewrite trues_all; [done|done|lia]. }
  destruct (nth_error m k) as [b|] eqn:Em.
  2:{ intros _. apply Hz. apply nth_error_None in Em. rewrite trues_all; [done|done|lia]. }
  destruct (Nat.eqb_spec (fst e) d) as [Ed|Ed], b; cbn [andb negb].
  2:{ intros H. by apply (Hgo k e). }
  all: destruct (first_free A d l m) as [j|] eqn:Ef; [|intros _; apply Hz; by apply first_free_none]; intros H; destruct (first_free_some d l m j Ef) as (e' & ? & ? & ?); by apply (Hgo j e').
Qed.
Lemma masked_none (l : list edge) : masked false l (repeat false (length l)) = l.
Proof. induction l as [|e l IH]; [done|]. cbn. by rewrite IH. Qed.
Lemma masked_sub (l : list edge) : forall m, sublist (masked false l m) l.
Proof. induction l as [|e l IH]; intros [|b m]; try done. cbn. destruct b; cbn; [by apply sublist_cons|by apply sublist_skip]. Qed.
Lemma gone_some (l : list edge) ds m : gone A l ds = Some m -> exists r, after l (map Minus ds) = Some r /\ same r (masked false l m).
Proof.
  intros H. apply (marks_some ds l (repeat false (length l)) 0 m l) in H as (_ & H); [done|by rewrite repeat_length|by rewrite masked_none].
Qed.
Lemma gone_none (l : list edge) ds : gone A l ds = None -> after l (map Minus ds) = None.
Proof. intros H. apply (marks_none ds l (repeat false (length l)) 0 l) in H; [done|by rewrite repeat_length|lia|by rewrite masked_none]. Qed.
End marks.

(** Lists with the same edges up to properties and order behave alike. *)
Lemma same_after {E} (cs : list (change E)) : forall l l', same l l' -> match after l cs, after l' cs with Some r, Some r' => same r r' | None, None => True | _, _ => False end.
Proof.
  induction cs as [|[e|d] cs IH]; intros l l' Hs; [done| |].
  - apply IH. intros x. by rewrite !to_app, (Hs x).
  - cbn [after]. destruct (remove_oldest d l) as [r|] eqn:Er, (remove_oldest d l') as [r'|] eqn:Er'; try done.
    + apply IH. intros x. pose proof (remove_to d l r Er x). pose proof (remove_to d l' r' Er' x). pose proof (Hs x). lia.
    + apply remove_none in Er'. pose proof (remove_to d l r Er d) as H. rewrite (Hs d), Er' in H. unfold is_to in H. rewrite Nat.eqb_refl in H. done.
    + apply remove_none in Er. pose proof (remove_to d l' r' Er' d) as H. rewrite <- (Hs d), Er in H. unfold is_to in H. rewrite Nat.eqb_refl in H. done.
Qed.
