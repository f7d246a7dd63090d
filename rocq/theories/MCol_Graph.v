(** The graph that colouring by messages works on, and the colour it picks. *)
From Verif Require Import Base Bitmap_Spec Bitmap_Model Bitmap_Proofs Vertex_Model Active_Spec Active_Model Active_Proofs.
From Verif Require Import Colour_Spec MCol_Spec MCol_Model.
From Verif Require Colour_Model Colour_Best Wait_Proofs Wait_Run.
Open Scope nat_scope.
Notation prio := Colour_Model.prio.

Lemma mentions_app l l' v : mentions (l ++ l') v = mentions l v ++ mentions l' v.
Proof. induction l as [|[x y] l IH]; cbn; [done|]. by rewrite IH, <- !app_assoc. Qed.
Lemma events_app l l' : events (l ++ l') = events l ++ events l'.
Proof. apply flat_map_app. Qed.

Record graph_ok (lines : list (nat * nat)) (g : topo) : Prop := GraphOk {
  k_len : forall v, t_in g v = length (t_out g v);
  k_men : forall v, map fst (t_out g v) = mentions lines v;
  k_pair : forall v i u j, t_out g v !! i = Some (u, j) -> t_out g u !! j = Some (v, i) }.
Lemma load_ok lines : graph_ok lines (load lines).
Proof.
  induction lines as [|[x y] l IH] using rev_ind; [by constructor|].
  unfold load in *. rewrite events_app, fold_left_app. set (g := fold_left enact (events l) _) in *.
  destruct IH as [H1 H2 H3]. cbn [events flat_map fold_left app enact]. rewrite (H1 y).
  destruct (decide (x = y)) as [->|Hne].
  - set (L := length (t_out g y)).
    assert (Hi : forall v, upd (upd (t_in g) y (S L)) y (S (upd (t_in g) y (S L) y)) v = length (upd (upd (t_out g) y (t_out g y ++ [(y, L)])) y (upd (t_out g) y (t_out g y ++ [(y, L)]) y ++ [(y, upd (t_in g) y (S L) y)]) v)).
    { intros v. destruct (decide (v = y)) as [->|Hv]; us; [rewrite !app_length; cbn; lia|apply H1]. }
    constructor; cbn [t_in t_out]; [exact Hi| |].
    + intros v. rewrite mentions_app. cbn [mentions app]. destruct (decide (v = y)) as [->|Hv]; us.
      * rewrite !map_app, (H2 y), Nat.eqb_refl. cbn. by rewrite <- app_assoc.
      * rewrite (H2 v). destruct (Nat.eqb_spec y v); [congruence|]. by rewrite app_nil_r.
    + intros v i u j. destruct (decide (v = y)) as [->|Hv]; us.
      * rewrite <- app_assoc. cbn [app]. intros [E|[Hle E]]%lookup_app_Some.
        -- apply H3 in E. destruct (decide (u = y)) as [->|Hu]; us; [|done]. by apply lookup_app_l_Some.
        -- destruct (i - length (t_out g y)) as [|[|k]] eqn:Ek; cbn in E; [| |by destruct k].
           ++ injection E as <- <-. us. rewrite lookup_app_r by lia. unfold L. rewrite Nat.sub_diag. cbn. do 2 f_equal. lia.
           ++ injection E as <- <-. us. rewrite lookup_app_r by lia. replace (S L - length (t_out g y)) with 1 by (unfold L; lia). cbn. do 2 f_equal. unfold L. lia.
      * intros E. pose proof (H3 _ _ _ _ E) as E'. destruct (decide (u = y)) as [->|Hu]; us; [|done]. rewrite <- app_assoc. by apply lookup_app_l_Some.
  - constructor; cbn [t_in t_out].
    + intros v. destruct (decide (v = x)) as [->|Hx]; us; [rewrite app_length, H1; cbn; lia|].
      destruct (decide (v = y)) as [->|Hy]; us; [rewrite app_length; cbn; lia|]. apply H1.
    + intros v. rewrite mentions_app. cbn [mentions app]. destruct (decide (v = x)) as [->|Hx]; us.
      * rewrite Nat.eqb_refl. destruct (Nat.eqb_spec y x); [congruence|]. by rewrite map_app, H2.
      * destruct (Nat.eqb_spec x v); [congruence|]. destruct (decide (v = y)) as [->|Hy]; us.
        -- rewrite Nat.eqb_refl, map_app, H2. done.
        -- destruct (Nat.eqb_spec y v); [congruence|]. by rewrite H2, app_nil_r.
    + assert (Hout : forall v, upd (upd (t_out g) x (t_out g x ++ [(y, length (t_out g y))])) y
          (upd (t_out g) x (t_out g x ++ [(y, length (t_out g y))]) y ++ [(x, upd (t_in g) y (S (length (t_out g y))) x)]) v =
        t_out g v ++ (if decide (v = x) then [(y, length (t_out g y))] else if decide (v = y) then [(x, length (t_out g x))] else [])).
      { intros v. destruct (decide (v = y)) as [->|Hy]; us.
        - rewrite H1. by destruct (decide (y = x)).
        - destruct (decide (v = x)) as [->|Hx]; us; [done|]. by rewrite app_nil_r. }
      intros v i u j. rewrite !Hout. intros [E|[Hle E]]%lookup_app_Some.
      * apply H3 in E. by apply lookup_app_l_Some.
      * destruct (decide (v = x)) as [->|Hx].
        -- apply list_lookup_singleton_Some in E as [Ei [= <- <-]]. rewrite lookup_app_r, Nat.sub_diag by lia.
           destruct (decide (y = x)); [congruence|]. destruct (decide (y = y)); [|done]. cbn. do 2 f_equal. lia.
        -- destruct (decide (v = y)) as [->|Hy]; [|done].
           apply list_lookup_singleton_Some in E as [Ei [= <- <-]]. rewrite lookup_app_r, Nat.sub_diag by lia.
           destruct (decide (x = x)); [|done]. cbn. do 2 f_equal. lia.
Qed.

(** The edges of a vertex when the run starts. *)
Definition send_to (v : nat) (c : N) (e : nat * nat) : nat * mnote := (fst e, MN (Some (snd e)) c (negb (prio (fst e) v))).
Lemma imap_map {A B} (f : nat -> A -> B) (h : A -> B) l : (forall i x, l !! i = Some x -> f i x = h x) -> imap f l = map h l.
Proof.
  intros H. apply list_eq. intros i. rewrite list_lookup_imap, list_lookup_fmap.
  destruct (l !! i) as [x|] eqn:E; cbn; [|done]. by rewrite (H i x).
Qed.
Lemma base_edges_eq lines g v : graph_ok lines g -> base_edges v g = map (fun e => (fst e, (snd e, prio (fst e) v))) (t_out g v).
Proof.
  intros [H1 _ _]. unfold base_edges. apply imap_map. intros i e E. apply lookup_lt_Some in E. unfold base_edge.
  rewrite H1. by destruct (Nat.ltb_spec i (length (t_out g v))); [|lia].
Qed.
Lemma base_sends lines g v c : graph_ok lines g ->
  map (fun '(d, (pos, pr)) => (d, MN (Some pos) c (negb pr))) (base_edges v g) = map (send_to v c) (t_out g v).
Proof. intros H. rewrite (base_edges_eq lines) by done. rewrite map_map. by apply map_ext. Qed.

(** The colour picked. *)
Definition seen (l : list N) (c : N) : Prop := c ∈ l /\ (c <= N.of_nat (length l))%N.
Lemma mmark_inv n b S c : (n < 2 ^ 32)%N -> bm_inv b S -> bm_inv (mmark n b c) (fun y => (y = c /\ (y <= n)%N) \/ S y).
Proof.
  intros Hn Hb. unfold mmark. destruct (N.leb_spec c n) as [Hle|Hgt].
  - unfold quick_set. destruct (Nat.leb_spec (len b) (word_idx c)).
    + eapply Colour_Best.bm_inv_ext; [apply set_inv; [exact Hb|lia]|]. intros y. unfold add_elem. split; intros [H1|H1]; try tauto. left. subst. lia.
    + eapply Colour_Best.bm_inv_ext; [apply or_bit_inv; [exact Hb|lia]|]. intros y. unfold add_elem. split; intros [H1|H1]; try tauto. left. subst. lia.
  - eapply Colour_Best.bm_inv_ext; [exact Hb|]. intros y. split; [tauto|]. intros [[-> H1]|H1]; [lia|done].
Qed.
Lemma mmarks_inv n l : (n < 2 ^ 32)%N -> forall b S, bm_inv b S -> bm_inv (fold_left (mmark n) l b) (fun y => (y ∈ l /\ (y <= n)%N) \/ S y).
Proof.
  intros Hn. induction l as [|c l IH]; intros b S Hb; cbn [fold_left].
  - eapply Colour_Best.bm_inv_ext; [exact Hb|]. intros y. split; [tauto|]. intros [[H%elem_of_nil _]|H]; done.
  - eapply Colour_Best.bm_inv_ext; [apply IH, mmark_inv; [done|exact Hb]|]. intros y. cbn. rewrite elem_of_cons. split; [|intros [[[->|?] ?]|?]; tauto].
    intros [?|[[-> ?]|?]]; tauto.
Qed.
Lemma least_le l m : smallest_unused (seen l) m -> (m <= N.of_nat (length l))%N.
Proof.
  intros [_ H].
  assert (Hi : incl (map N.of_nat (seq 0 (N.to_nat m))) l).
  { intros y Hy. apply in_map_iff in Hy. destruct Hy as (k & <- & Hk). apply in_seq in Hk.
    destruct (H (N.of_nat k)) as (Hc & _); [lia|]. by apply elem_of_list_In. }
  apply NoDup_incl_length in Hi.
  - rewrite !map_length, seq_length in Hi. lia.
  - apply FinFun.Injective_map_NoDup; [|apply seq_NoDup]. intros x y E. lia.
Qed.
Lemma pick_ok p S : bm_inv (mbm p) S -> (N.of_nat (length (mscr p)) < MAGIC)%N ->
  smallest_unused (seen (mscr p)) (first_unused (mmarks p)) /\ (first_unused (mmarks p) <= N.of_nat (length (mscr p)))%N /\
  exists S', bm_inv (mmarks p) S'.
Proof.
  unfold MAGIC. intros Hb Hn. unfold mmarks. set (n := N.of_nat (length (mscr p))) in *.
  assert (Hi : bm_inv (fold_left (mmark n) (mscr p) (zeroes (mbm p))) (seen (mscr p))).
  { eapply Colour_Best.bm_inv_ext; [apply mmarks_inv; [lia|eapply zeroes_inv, Hb]|]. intros y. unfold seen, empty_set. fold n. tauto. }
  destruct (first_unused_spec _ _ Hi) as (m & Hm & Em).
  assert (Hs : smallest_unused (seen (mscr p)) m) by (destruct Hm; by split).
  pose proof (least_le _ _ Hs) as Hle. fold n in Hle. rewrite N.mod_small in Em by lia. rewrite Em. split_and!; [done|done|by eexists].
Qed.
Lemma prio_cases u v : u <> v -> prio u v = negb (prio v u).
Proof.
  intros H. destruct (prio v u) eqn:E; cbn.
  - destruct (prio u v) eqn:E'; [|done]. exfalso. unfold Colour_Model.prio, Colour_Model.compare_priority in *. lia.
  - unfold Colour_Model.prio, Colour_Model.compare_priority in *. lia.
Qed.
Lemma prio_irrefl v : prio v v = false. Proof. apply Wait_Proofs.prio_irrefl. Qed.
Lemma last_dep {A} (z : A) l d d' : List.last (z :: l) d = List.last (z :: l) d'.
Proof. revert z. induction l as [|w l IH]; intros z; [done|]. exact (IH w). Qed.
Lemma last_app {A} (l l' : list A) d : List.last (l ++ l') d = List.last l' (List.last l d).
Proof.
  revert d. induction l as [|x l IH]; intros d; [done|]. destruct l as [|y l].
  - cbn [app]. destruct l' as [|z l']; [done|]. exact (last_dep z l' d x).
  - exact (IH d).
Qed.
