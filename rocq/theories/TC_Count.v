(** Counting: sums, and triangles as triples of first edges. *)
From Verif Require Import Base TC_Spec Active_Model TC_Model.

Lemma sumn_ext f g n : (forall k, k < n -> f k = g k) -> sumn f n = sumn g n.
Proof. induction n as [|n IH]; intros H; cbn [sumn]; [done|]. rewrite IH, H; [done|lia|intros; apply H; lia]. Qed.
Lemma sumn_add f g n : sumn (fun k => f k + g k) n = sumn f n + sumn g n.
Proof. induction n as [|n IH]; cbn [sumn]; [done|]. lia. Qed.
Lemma sumn_zero f n : (forall k, k < n -> f k = 0) -> sumn f n = 0.
Proof. induction n as [|n IH]; intros H; cbn [sumn]; [done|]. rewrite IH, H; [done|lia|intros; apply H; lia]. Qed.
Lemma sumn_swap f n m : sumn (fun i => sumn (f i) m) n = sumn (fun j => sumn (fun i => f i j) n) m.
Proof. induction n as [|n IH]; cbn [sumn]; [by rewrite sumn_zero|]. rewrite IH, <- sumn_add. done. Qed.
Lemma sumn_at g a n : sumn (fun i => if i =? a then g i else 0) n = if a <? n then g a else 0.
Proof.
  induction n as [|n IH]; cbn [sumn]; [done|]. rewrite IH. destruct (Nat.eqb_spec n a) as [E|H]; destruct (Nat.ltb_spec a n), (Nat.ltb_spec a (S n)); subst; lia.
Qed.
(** Splitting a sum by a value below [M]. *)
Lemma sumn_by (h : nat -> nat) f n M : (forall i, i < n -> h i < M) -> sumn f n = sumn (fun v => sumn (fun i => if h i =? v then f i else 0) n) M.
Proof.
  intros H. rewrite sumn_swap. apply sumn_ext. intros i Hi. transitivity (sumn (fun v => if v =? h i then f i else 0) M).
  - rewrite (sumn_at (fun _ => f i)). specialize (H i Hi). by destruct (Nat.ltb_spec (h i) M); [|lia].
  - apply sumn_ext. intros v _. by rewrite Nat.eqb_sym.
Qed.

(** Triples without repetition, by their sorted form. *)
Definition perms (f : nat -> nat -> nat -> nat) a b c : nat := f a b c + f a c b + f b a c + f b c a + f c a b + f c b a.
Lemma pairs_sorted g N : (forall a, g a a = 0) -> sumn (fun u => sumn (g u) N) N = sumn (fun b => sumn (fun a => g a b + g b a) b) N.
Proof.
  intros Hg. induction N as [|N IH]; cbn [sumn]; [done|]. rewrite Hg, sumn_add, IH, sumn_add. lia.
Qed.
Lemma triples_sorted f N : (forall a b, f a a b = 0 /\ f a b a = 0 /\ f b a a = 0) ->
  sumn (fun u => sumn (fun v => sumn (f u v) N) N) N = sumn (fun c => sumn (fun b => sumn (fun a => perms f a b c) b) c) N.
Proof.
  intros Hf. assert (G : forall N, sumn (fun u => sumn (fun v => sumn (f u v) (S N)) (S N)) (S N) = sumn (fun u => sumn (fun v => sumn (f u v) N) N) N + sumn (fun u => sumn (fun v => f u v N + f u N v + f N u v) N) N).
  { clear N. intros N. cbn [sumn]. rewrite !sumn_add, (sumn_zero (fun v => f N v N)), (sumn_zero (fun u => f u N N)) by (intros k _; apply (Hf N k) || apply (Hf k N)).
    assert (E0 : f N N N = 0) by apply (Hf N N). assert (E1 : sumn (f N N) N = 0) by (apply sumn_zero; intros k _; apply (Hf N k)).
    assert (E2 : sumn (fun u => sumn (fun v => f u v N + f u N v + f N u v) N) N = sumn (fun u => sumn (fun v => f u v N) N) N + sumn (fun u => sumn (f u N) N) N + sumn (fun u => sumn (f N u) N) N).
    { rewrite <- !sumn_add. apply sumn_ext. intros u _. by rewrite <- !sumn_add. }
    rewrite E2. rewrite E0, E1. assert (E3 : sumn (fun u => f u N N) N = 0) by (apply sumn_zero; intros k _; apply (Hf N k)).
    assert (E4 : sumn (fun k => sumn (fun v => sumn (f k v) N + f k v N) N) N = sumn (fun u => sumn (fun v => sumn (f u v) N) N) N + sumn (fun u => sumn (fun v => f u v N) N) N).
    { rewrite <- sumn_add. apply sumn_ext. intros u _. by rewrite <- sumn_add. }
    lia. }
  induction N as [|N IH]; [done|]. rewrite G, IH. cbn [sumn]. f_equal.
  rewrite (pairs_sorted (fun u v => f u v N + f u N v + f N u v)) by (intros a; destruct (Hf a N) as (-> & -> & ->); done).
  apply sumn_ext. intros b _. apply sumn_ext. intros a _. unfold perms. lia.
Qed.

(** The first event from [u] to [v]. *)
Section first.
Variable E : list (nat * nat).
Let n := length (events E).
Definition same_event (e : nat * nat) (u v : nat) : bool := (fst e =? u) && (snd e =? v).
Definition first (u v : nat) : option nat := List.find (fun i => same_event (event E i) u v) (seq 0 (length (events E))).
Lemma same_event_spec e u v : same_event e u v = true <-> e = (u, v).
Proof. unfold same_event. destruct e as [a b]. cbn. rewrite andb_true_iff, !Nat.eqb_eq. split; [intros [-> ->]; done|intros [= -> ->]; done]. Qed.
Lemma find_seq (p : nat -> bool) a k i : List.find p (seq a k) = Some i <-> a <= i < a + k /\ p i = true /\ forall j, a <= j < i -> p j = false.
Proof.
  revert a. induction k as [|k IH]; intros a; cbn [seq List.find]; [split; [done|lia]|]. destruct (p a) eqn:Ep.
  - split; [intros [= <-]; split; [lia|]; split; [done|]; intros; lia|]. intros (H1 & H2 & H3). f_equal. destruct (decide (a = i)) as [|Hne]; [done|]. rewrite H3 in Ep by lia. done.
  - rewrite IH. split; intros (H1 & H2 & H3).
    + split; [lia|]. split; [done|]. intros j Hj. destruct (decide (j = a)) as [->|]; [done|]. apply H3. lia.
    + assert (a <> i) by (intros ->; by rewrite H2 in Ep). split; [lia|]. split; [done|]. intros j Hj. apply H3. lia.
Qed.
Lemma find_seq_none (p : nat -> bool) a k : List.find p (seq a k) = None <-> forall j, a <= j < a + k -> p j = false.
Proof.
  revert a. induction k as [|k IH]; intros a; cbn [seq List.find]; [split; [lia|done]|]. destruct (p a) eqn:Ep.
  - split; [done|]. intros H. rewrite H in Ep by lia. done.
  - rewrite IH. split; intros H j Hj; [|apply H; lia]. destruct (decide (j = a)) as [->|]; [done|]. apply H. lia.
Qed.
Lemma first_spec u v i : first u v = Some i <-> i < n /\ event E i = (u, v) /\ forall j, j < i -> event E j <> (u, v).
Proof.
  unfold first. rewrite find_seq. split.
  - intros (H1 & H2 & H3). split; [unfold n; lia|]. split; [by apply same_event_spec|]. intros j Hj Ej. apply same_event_spec in Ej. rewrite H3 in Ej by lia. done.
  - intros (H1 & H2 & H3). split; [unfold n in H1; lia|]. split; [by apply same_event_spec|]. intros j Hj. destruct (same_event (event E j) u v) eqn:Ee; [|done]. apply same_event_spec in Ee. exfalso. apply (H3 j); [lia|done].
Qed.
Lemma first_none u v : first u v = None <-> forall j, j < n -> event E j <> (u, v).
Proof.
  unfold first. rewrite find_seq_none. split.
  - intros H j Hj Ej. apply same_event_spec in Ej. rewrite H in Ej by (unfold n in Hj; lia). done.
  - intros H j Hj. destruct (same_event (event E j) u v) eqn:Ee; [|done]. apply same_event_spec in Ee. exfalso. apply (H j); [unfold n; lia|done].
Qed.
Lemma first_le u v j : j < n -> event E j = (u, v) -> exists i, first u v = Some i /\ i <= j.
Proof.
  intros Hj Ej. destruct (first u v) as [i|] eqn:Ef.
  - exists i. split; [done|]. apply first_spec in Ef. destruct (decide (i <= j)); [done|]. exfalso. apply Ef in Ej; [done|lia].
  - exfalso. rewrite first_none in Ef. by apply (Ef j).
Qed.

Lemma events_len : length (events E) = 2 * length E.
Proof. induction E as [|[a b] l IH]; [done|]. cbn [events flat_map app length]. unfold events in IH. rewrite IH. cbn [length]. lia. Qed.
Lemma event_even z : event E (2 * z) = nth z E (0, 0).
Proof.
  unfold event, events. revert z. induction E as [|[a b] l IH]; intros z; [by destruct (2 * z), z|].
  destruct z as [|z]; [done|]. replace (2 * S z) with (S (S (2 * z))) by lia. cbn [flat_map app nth]. apply IH.
Qed.
Lemma event_odd z : z < length E -> event E (2 * z + 1) = (snd (nth z E (0, 0)), fst (nth z E (0, 0))).
Proof.
  unfold event, events. revert z. induction E as [|[a b] l IH]; intros z Hz; cbn [length] in Hz; [lia|].
  destruct z as [|z]; [done|]. replace (2 * S z + 1) with (S (S (2 * z + 1))) by lia. cbn [flat_map app nth]. apply IH. lia.
Qed.
Lemma event_back i : i < n -> event E (if Nat.even i then i + 1 else i - 1) = (snd (event E i), fst (event E i)) /\ (if Nat.even i then i + 1 else i - 1) < n.
Proof.
  unfold n. rewrite events_len. intros Hi. destruct (Nat.even i) eqn:Ee.
  - apply Nat.even_spec in Ee. destruct Ee as [z ->]. rewrite event_even, event_odd by lia. split; [done|lia].
  - assert (Ho : Nat.odd i = true) by (unfold Nat.odd; by rewrite Ee). apply Nat.odd_spec in Ho. destruct Ho as [z ->]. replace (2 * z + 1 - 1) with (2 * z) by lia. rewrite event_even, event_odd by lia. cbn. split; [by destruct (nth z E (0, 0))|lia].
Qed.
Lemma half i : i = 2 * (i / 2) + (if Nat.even i then 0 else 1).
Proof.
  destruct (Nat.even i) eqn:Ee.
  - apply Nat.even_spec in Ee. destruct Ee as [z ->]. rewrite Nat.mul_comm, Nat.div_mul by done. lia.
  - assert (Ho : Nat.odd i = true) by (unfold Nat.odd; by rewrite Ee). apply Nat.odd_spec in Ho. destruct Ho as [z ->]. replace ((2 * z + 1) / 2) with z; [lia|]. apply (Nat.div_unique _ _ _ 1); lia.
Qed.
(** Both directions of an edge appear at the same time. *)
Lemma first_pair u v : u <> v -> (first u v = None /\ first v u = None) \/
  exists z, (first u v = Some (2 * z) /\ first v u = Some (2 * z + 1)) \/ (first u v = Some (2 * z + 1) /\ first v u = Some (2 * z)).
Proof.
  intros Hne. assert (G : forall u v i, u <> v -> first u v = Some i -> first v u = Some (if Nat.even i then i + 1 else i - 1)).
  { clear u v Hne. intros u v i Hne H. apply first_spec in H. destruct H as (H1 & H2 & H3). destruct (event_back i H1) as [B1 B2]. rewrite H2 in B1. cbn in B1. apply first_spec. split; [done|]. split; [done|].
    intros j Hj Ej. assert (Hjn : j < n) by lia. destruct (event_back j Hjn) as [C1 C2]. rewrite Ej in C1. cbn in C1.
    assert (Hlt : (if Nat.even j then j + 1 else j - 1) < i); [|by apply (H3 _ Hlt)].
    pose proof (half i) as Ei. pose proof (half j) as Ejj. assert (Hij : j <> i) by (intros ->; rewrite H2 in Ej; injection Ej as E1 E2; congruence).
    destruct (Nat.even i) eqn:Eei, (Nat.even j) eqn:Eej; lia. }
  destruct (first u v) as [i|] eqn:Ef.
  - right. pose proof (G u v i Hne Ef) as Eb. rewrite Eb. exists (i / 2). pose proof (half i) as Ei. destruct (Nat.even i); [left|right]; split; f_equal; lia.
  - left. split; [done|]. destruct (first v u) as [i|] eqn:Eb; [|done]. rewrite (G v u i) in Ef by auto. done.
Qed.
Lemma first_adj u v : adj E u v = negb (u =? v) && match first u v with Some _ => true | None => false end.
Proof.
  unfold adj. destruct (Nat.eqb_spec u v) as [->|Hne]; [done|]. cbn [negb andb].
  destruct (first u v) as [i|] eqn:Ef.
  - apply first_spec in Ef. destruct Ef as (H1 & H2 & _). unfold n in H1. rewrite events_len in H1. apply existsb_exists. pose proof (half i) as Ei.
    exists (nth (i / 2) E (0, 0)). destruct (Nat.even i).
    + split; [apply nth_In; lia|]. rewrite Ei, Nat.add_0_r, event_even in H2. rewrite H2, !Nat.eqb_refl. done.
    + split; [apply nth_In; lia|]. rewrite Ei, event_odd in H2 by lia. destruct (nth (i / 2) E (0, 0)) as [a b]. cbn in H2. injection H2 as -> ->. rewrite !Nat.eqb_refl. apply orb_true_r.
  - destruct (existsb _ E) eqn:Ex; [|done]. exfalso. apply existsb_exists in Ex. destruct Ex as ([a b] & Hin & Hab). apply (In_nth _ _ (0, 0)) in Hin. destruct Hin as (z & Hz & Ez).
    rewrite first_none in Ef. unfold n in Ef. rewrite events_len in Ef. apply orb_true_iff in Hab. destruct Hab as [H|H]; apply andb_true_iff in H; destruct H as [H1 H2]; apply Nat.eqb_eq in H1, H2; subst a b.
    + apply (Ef (2 * z)); [lia|]. by rewrite event_even, Ez.
    + apply (Ef (2 * z + 1)); [lia|]. by rewrite event_odd, Ez by lia.
Qed.

(** The edge that closes a triangle is its last one, in the direction with the odd index. *)
Definition lead (u v w : nat) : bool :=
  negb (u =? v) && negb (u =? w) && negb (w =? v) &&
  match first u v, first u w, first w v with
  | Some i, Some j, Some k => Nat.odd i && (j <? i) && (k <? i)
  | _, _, _ => false
  end.
Lemma odd_1 z : Nat.odd (2 * z + 1) = true.
Proof. apply Nat.odd_spec. by exists z. Qed.
Lemma odd_0 z : Nat.odd (2 * z) = false.
Proof. unfold Nat.odd. replace (Nat.even (2 * z)) with true; [done|]. symmetry. apply Nat.even_spec. by exists z. Qed.
Lemma first_event u v i : first u v = Some i -> event E i = (u, v).
Proof. intros H. apply first_spec in H. apply H. Qed.
Lemma lead_perms a b c : a < b < c -> perms (fun u v w => one (lead u v w)) a b c = one (adj E a b && adj E a c && adj E b c).
Proof.
  intros H. rewrite !first_adj. unfold perms, lead.
  rewrite !(proj2 (Nat.eqb_neq _ _)) by lia. cbn [negb andb].
  destruct (first_pair a b) as [[A1 A2]|[za [[A1 A2]|[A1 A2]]]]; [lia| | |];
  destruct (first_pair a c) as [[B1 B2]|[zb [[B1 B2]|[B1 B2]]]]; try lia;
  destruct (first_pair b c) as [[C1 C2]|[zc [[C1 C2]|[C1 C2]]]]; try lia;
  rewrite ?A1, ?A2, ?B1, ?B2, ?C1, ?C2, ?odd_0, ?odd_1; cbn [andb one]; try done.
  all: apply first_event in A1, A2, B1, B2, C1, C2;
    assert (za <> zb) by (intros ->; congruence || (rewrite A1 in B1; injection B1; lia) || (rewrite A1 in B2; injection B2; lia));
    assert (za <> zc) by (intros ->; (rewrite A1 in C1; injection C1; lia) || (rewrite A1 in C2; injection C2; lia));
    assert (zb <> zc) by (intros ->; (rewrite B1 in C1; injection C1; lia) || (rewrite B1 in C2; injection C2; lia));
    unfold one; repeat match goal with |- context [?x <? ?y] => destruct (Nat.ltb_spec x y) end; cbn [andb]; lia.
Qed.
Lemma lead_triangles N : sumn (fun u => sumn (fun v => sumn (fun w => one (lead u v w)) N) N) N = triangles E N.
Proof.
  rewrite (triples_sorted (fun u v w => one (lead u v w))).
  - unfold triangles. apply sumn_ext. intros c _. apply sumn_ext. intros b Hb. apply sumn_ext. intros a Ha. apply lead_perms. lia.
  - intros a b. unfold lead. rewrite !Nat.eqb_refl. cbn [negb andb]. rewrite !andb_false_r. done.
Qed.
End first.
