From Verif Require Import Base Vertex_Spec Vertex_Model.
Open Scope N_scope.

Lemma shift_val : THREAD_SHIFT = 27. Proof. reflexivity. Qed.
Lemma mask_val : THREAD_MASK = N.ones 27. Proof. reflexivity. Qed.
Lemma idmask_val : THREAD_ID_MASK = N.shiftl (N.ones 5) 27. Proof. reflexivity. Qed.
Lemma bmask_val : BUCKET_MASK = N.ones 12. Proof. reflexivity. Qed.
Lemma bsize_val : BUCKET_SIZE = 4096. Proof. reflexivity. Qed.
Lemma p27 : 2 ^ 27 = 134217728. Proof. reflexivity. Qed.
Lemma p12 : 2 ^ 12 = 4096. Proof. reflexivity. Qed.
Ltac plia := unfold packed in *; rewrite ?p27, ?p12, ?w32_val in *; lia.

(** ** Packing *)
Lemma expand_eq id : internal_expand id = (id mod 2 ^ 27, id / 2 ^ 27).
Proof.
  unfold internal_expand. rewrite mask_val, shift_val, N.land_ones, N.shiftr_div_pow2. done.
Qed.
Lemma bucket_eq i : idx_to_bucket i = (i / 2 ^ 12, i mod 2 ^ 12).
Proof.
  unfold idx_to_bucket. rewrite bmask_val, N.land_ones. unfold BUCKET_SHIFT.
  by rewrite N.shiftr_div_pow2.
Qed.
Lemma compress_eq t i : t < 32 -> i < 2 ^ 27 -> compress t i = packed t i.
Proof.
  intros Ht Hi. unfold compress, packed. rewrite shift_val, N.shiftl_mul_pow2.
  rewrite !N.mod_small; [done|plia..].
Qed.
Lemma lor_eq t i : t < 32 -> i < 2 ^ 27 -> N.lor (N.shiftl t THREAD_SHIFT mod w32) i = packed t i.
Proof.
  intros Ht Hi. unfold packed. rewrite shift_val.
  rewrite (N.mod_small (N.shiftl t 27)) by (rewrite N.shiftl_mul_pow2; plia).
  rewrite <- N.shiftl_mul_pow2.
  rewrite <- N.lxor_lor, <- N.add_nocarry_lxor; [done| |].
  all: apply N.bits_inj; intros k; rewrite N.land_spec, N.bits_0.
  all: destruct (N.lt_ge_cases k 27) as [Hk|Hk];
    [by rewrite N.shiftl_spec_low|].
  all: assert (N.testbit i k = false) as ->; [|by rewrite andb_false_r].
  all: destruct (N.eq_0_gt_0_cases i) as [-> | Hi0]; [apply N.bits_0|].
  all: apply N.bits_above_log2, N.lt_le_trans with 27; [|done]; apply N.log2_lt_pow2; lia.
Qed.
Lemma expand_packed t i : i < 2 ^ 27 -> internal_expand (packed t i) = (i, t).
Proof. intros Hi. rewrite expand_eq. f_equal; plia. Qed.
Lemma same_tidx_eq a b : a < w32 -> b < w32 -> same_tidx a b = (a / 2 ^ 27 =? b / 2 ^ 27).
Proof.
  intros Ha Hb. unfold same_tidx. rewrite idmask_val.
  assert (H : forall x, x < w32 -> N.land x (N.shiftl (N.ones 5) 27) = N.shiftl (x / 2 ^ 27) 27).
  { intros x Hx. apply N.bits_inj. intros k. rewrite N.land_spec.
    destruct (N.lt_ge_cases k 27) as [Hk|Hk].
    - rewrite !N.shiftl_spec_low by done. by rewrite andb_false_r.
    - rewrite !N.shiftl_spec_high' by done. rewrite <- N.shiftr_div_pow2, N.shiftr_spec'.
      replace (k - 27 + 27) with k by lia.
      destruct (N.lt_ge_cases (k - 27) 5) as [H5|H5].
      + rewrite N.ones_spec_low by done. by rewrite andb_true_r.
      + rewrite N.ones_spec_high by done. rewrite andb_false_r. symmetry.
        destruct (N.eq_0_gt_0_cases x) as [-> | Hx0]; [apply N.bits_0|].
        apply N.bits_above_log2, N.lt_le_trans with 32; [|lia].
        apply N.log2_lt_pow2; [lia|]. exact Hx. }
  rewrite !H by done. rewrite !N.shiftl_mul_pow2.
  destruct (N.eqb_spec (a / 2 ^ 27) (b / 2 ^ 27)) as [->|Hn]; [apply N.eqb_refl|].
  apply N.eqb_neq. intros E. apply Hn. apply N.mul_cancel_r in E; [done|done].
Qed.

(** ** Enumeration *)
Definition numbered (c : N) (l : list (N * N)) : list (N * N * (N * N)) :=
  imap (fun k v => (c + N.of_nat k, packed (fst v) (snd v), v)) l.
Lemma numbered_cons c v l :
  numbered c (v :: l) = (c, packed (fst v) (snd v), v) :: numbered (c + 1) l.
Proof.
  unfold numbered. simpl. rewrite N.add_0_r. f_equal. apply imap_ext. intros k x _. simpl.
  do 2 f_equal. lia.
Qed.
Lemma numbered_app c l r :
  numbered c (l ++ r) = numbered c l ++ numbered (c + N.of_nat (length l)) r.
Proof.
  revert c. induction l as [|v l IH]; intros c; cbn [app length].
  - by rewrite N.add_0_r.
  - rewrite !numbered_cons, IH. cbn [app length]. do 3 f_equal. lia.
Qed.

Lemma for_thread_eq n t i c : t < 32 -> i + N.of_nat n <= 2 ^ 27 -> c + N.of_nat n <= w32 ->
  for_thread n t i c =
    (numbered c (map (fun k => (t, i + N.of_nat k)) (seq 0 n)), (c + N.of_nat n) mod w32) \/
  n = O /\ for_thread n t i c = ([], c).
Proof.
  revert i c. induction n as [|n IH]; intros i c Ht Hi Hc; [by right|]. left.
  cbn [for_thread]. rewrite lor_eq by plia.
  assert (E : map (fun k => (t, i + N.of_nat k)) (seq 0 (S n)) =
              (t, i) :: map (fun k => (t, i + 1 + N.of_nat k)) (seq 0 n)).
  { simpl. rewrite N.add_0_r. f_equal. rewrite <- seq_shift, map_map. apply map_ext.
    intros k. f_equal. lia. }
  rewrite E, numbered_cons. destruct n as [|n].
  { simpl. done. }
  rewrite (N.mod_small (c + 1)) by plia.
  destruct (IH (i + 1) (c + 1)) as [-> | [? _]]; [done|plia|plia| |done].
  cbn [fst snd]. f_equal. f_equal. lia.
Qed.

Lemma all_vertices_from_length t counts : length (all_vertices_from t counts) = list_sum counts.
Proof.
  revert t. induction counts as [|n r IH]; intros t; simpl; [done|].
  by rewrite app_length, map_length, seq_length, IH.
Qed.
Lemma for_each_eq counts t c :
  t + N.of_nat (length counts) <= 32 -> Forall (fun n => N.of_nat n <= 2 ^ 27) counts ->
  c + N.of_nat (list_sum counts) <= w32 ->
  for_each counts t (c mod w32) = numbered c (all_vertices_from (N.to_nat t) counts).
Proof.
  revert t c. induction counts as [|n r IH]; intros t c Ht Hn Hc; [done|].
  apply Forall_cons_iff in Hn as [Hn Hr]. cbn [for_each all_vertices_from length list_sum] in *.
  simpl in Ht, Hc.
  destruct (for_thread n t 0 (c mod w32)) as [l c'] eqn:E.
  rewrite numbered_app, map_length, seq_length.
  destruct n as [|n].
  { simpl in E. injection E as <- <-. simpl. rewrite N.add_0_r, IH by (try done; lia).
    by replace (N.to_nat (t + 1)) with (S (N.to_nat t)) by lia. }
  rewrite (N.mod_small c) in E by lia.
  destruct (for_thread_eq (S n) t 0 c) as [E' | [? _]]; [lia|lia|lia| |done].
  rewrite E' in E. apply pair_equal_spec in E as [<- <-]. rewrite IH by (try done; lia).
  replace (N.to_nat (t + 1)) with (S (N.to_nat t)) by lia. f_equal. f_equal.
  apply List.map_ext. intros k. f_equal; lia.
Qed.

Lemma parallel_for_eq counts t c :
  t + N.of_nat (length counts) <= 32 -> Forall (fun n => N.of_nat n <= 2 ^ 27) counts ->
  c + N.of_nat (list_sum counts) <= w32 ->
  concat (map (fun '(s, off, n) => map (fun i => (s + N.of_nat i, N.lor off (N.of_nat i))) (seq 0 n))
     (parallel_for counts t (c mod w32)))
  = map fst (numbered c (all_vertices_from (N.to_nat t) counts)).
Proof.
  revert t c. induction counts as [|n r IH]; intros t c Ht Hn Hc; [done|].
  apply Forall_cons_iff in Hn as [Hn Hr]. cbn [parallel_for all_vertices_from] in *. simpl in Ht, Hc.
  cbn [map concat]. rewrite numbered_app, map_app, map_length, seq_length.
  f_equal.
  - destruct n as [|n]; [done|]. rewrite N.mod_small by lia.
    assert (Hgen : forall m j, N.of_nat (m + j) <= 2 ^ 27 ->
      map (fun i => (c + N.of_nat i, N.lor (N.shiftl t THREAD_SHIFT mod w32) (N.of_nat i))) (seq j m) =
      map fst (numbered (c + N.of_nat j) (map (fun i => (N.of_nat (N.to_nat t), N.of_nat i)) (seq j m)))).
    { induction m as [|m IHm]; intros j Hj; [done|]. cbn [seq map]. rewrite numbered_cons. cbn [map].
      rewrite lor_eq by lia. cbn [fst snd]. rewrite N2Nat.id. f_equal.
      rewrite IHm by lia. rewrite N2Nat.id. do 2 f_equal. lia. }
    specialize (Hgen (S n) O). rewrite N.add_0_r in Hgen. apply Hgen. lia.
  - rewrite N.add_mod_idemp_l by done. rewrite IH by (try done; lia).
    by replace (N.to_nat (t + 1)) with (S (N.to_nat t)) by lia.
Qed.

Lemma sum_bound counts : (length counts <= 32)%nat -> Forall (fun n => N.of_nat n <= 2 ^ 27) counts ->
  N.of_nat (list_sum counts) <= w32.
Proof.
  intros Hl Hn.
  assert (N.of_nat (list_sum counts) <= N.of_nat (length counts) * 2 ^ 27); [|plia].
  clear Hl. induction Hn; simpl; [lia|]. lia.
Qed.
Lemma count_eq counts : node_vertex_count counts = list_sum counts.
Proof.
  unfold node_vertex_count.
  assert (H : forall a, fold_left Nat.add counts a = (a + list_sum counts)%nat).
  { induction counts as [|n r IH]; intros a; simpl; [lia|]. rewrite IH. lia. }
  by rewrite H.
Qed.
Lemma collect_perm l r : Permutation l r -> collect l = collect r.
Proof.
  intros H. unfold collect. generalize 0%Z. induction H; intros a; simpl; auto.
  - f_equal. rewrite !Zplus_mod_idemp_l. f_equal. lia.
  - by rewrite IHPermutation1, IHPermutation2.
Qed.
Lemma collect_sum l : collect l = (fold_right Z.add 0 l mod 2 ^ 64)%Z.
Proof.
  unfold collect.
  assert (H : forall a, (fold_left (fun acc r => (acc + r) mod 2 ^ 64) l (a mod 2 ^ 64)
                       = (a + fold_right Z.add 0 l) mod 2 ^ 64)%Z).
  { induction l as [|x l IH]; intros a; cbn [fold_left fold_right]; [by rewrite Z.add_0_r|].
    rewrite Zplus_mod_idemp_l, IH. f_equal. lia. }
  rewrite <- (Z.mod_0_l (2 ^ 64)) at 1 by done. rewrite H. done.
Qed.

Lemma all_vertices_from_in t counts v i :
  In (v, i) (all_vertices_from t counts) <->
  exists k n, counts !! k = Some n /\ v = N.of_nat (t + k) /\ (i < N.of_nat n).
Proof.
  revert t. induction counts as [|n r IH]; intros t; simpl.
  - split; [done|]. intros (k & n & H & _). by rewrite lookup_nil in H.
  - rewrite in_app_iff, in_map_iff, IH. split.
    + intros [(j & E & Hj)|(k & m & Hk & -> & Hi)].
      * apply in_seq in Hj. injection E as <- <-. exists O, n. simpl. split; [done|]. split; [f_equal; lia|lia].
      * exists (S k), m. split; [done|]. split; [f_equal; lia|done].
    + intros ([|k] & m & Hk & -> & Hi); simpl in Hk.
      * injection Hk as ->. left. exists (N.to_nat i). rewrite N2Nat.id. split; [f_equal; lia|]. apply in_seq. lia.
      * right. exists k, m. split; [done|]. split; [f_equal; lia|done].
Qed.
Lemma all_vertices_from_nodup t counts : List.NoDup (all_vertices_from t counts).
Proof.
  revert t. induction counts as [|n r IH]; intros t; simpl; [constructor|].
  apply NoDup_ListNoDup, NoDup_app. split; [|split].
  - apply NoDup_ListNoDup, FinFun.Injective_map_NoDup; [|apply seq_NoDup].
    intros a b E. injection E as E. lia.
  - intros [a b] Ha Hb. apply elem_of_list_In in Ha, Hb. apply in_map_iff in Ha as (j & E & _).
    injection E as <- <-. apply all_vertices_from_in in Hb as (k & m & _ & E & _). lia.
  - apply NoDup_ListNoDup, IH.
Qed.

(** ** Creation and look-up *)
Record thread_inv (t : N) (rs : list N) (gt : gthread) : Prop := {
  ti_n : nverts gt = N.of_nat (length rs);
  ti_nodup : NoDup rs;
  ti_map : forall raw v, map_find raw (vmap gt) = Some v <->
      exists i, rs !! i = Some raw /\ v = packed t (N.of_nat i);
  ti_len : N.of_nat (length (structures gt)) = (N.of_nat (length rs) + 4095) / 4096;
  ti_buckets : Forall (fun b => length b = N.to_nat BUCKET_SIZE) (structures gt);
  ti_raw : forall i raw, rs !! i = Some raw -> exists b,
      structures gt !! N.to_nat (N.of_nat i / 4096) = Some b /\
      b !! N.to_nat (N.of_nat i mod 4096) = Some raw }.

Lemma thread_inv0 t : thread_inv t [] gthread0.
Proof.
  split; simpl; try done; try constructor.
  - done.
  - intros (i & H & _). by rewrite lookup_nil in H.
Qed.

Lemma new_vertex_ok t rs gt raw : t < 32 -> N.of_nat (length rs) < 2 ^ 27 ->
  thread_inv t rs gt -> raw ∉ rs ->
  exists gt', new_vertex t gt raw = Some gt' /\ thread_inv t (rs ++ [raw]) gt'.
Proof.
  intros Ht Hl [Hn Hnd Hm Hsl Hb Hr] Hnew. unfold new_vertex. rewrite bucket_eq, Hn, p12.
  set (n := N.of_nat (length rs)) in *.
  set (st := if _ : bool then _ else _).
  assert (Hst : Forall (fun b => length b = N.to_nat BUCKET_SIZE) st).
  { unfold st. destruct (_ <=? _); [|done]. apply Forall_app. split; [done|].
    constructor; [|constructor]. apply replicate_length. }
  assert (Hlen : N.of_nat (length st) = (n + 4096) / 4096).
  { unfold st. destruct (N.leb_spec (N.of_nat (length (structures gt))) (n / 4096)).
    - rewrite app_length. cbn [length]. lia.
    - lia. }
  assert (Hpre : forall k b, structures gt !! k = Some b -> st !! k = Some b).
  { intros k b H. unfold st. destruct (_ <=? _); [|done]. by apply lookup_app_l_Some. }
  destruct (lookup_lt_is_Some_2 st (N.to_nat (n / 4096))) as [b Hbk]; [lia|].
  rewrite Hbk. pose proof (proj1 (Forall_lookup _ _) Hst _ _ Hbk) as Hblen. cbv beta in Hblen.
  rewrite bsize_val in Hblen.
  destruct (lookup_lt_is_Some_2 b (N.to_nat (n mod 4096))) as [old Hold]; [lia|].
  rewrite Hold. eexists. split; [done|]. rewrite compress_eq by done.
  split; cbn [nverts vmap structures].
  - rewrite app_length. simpl. lia.
  - apply NoDup_app. split; [done|]. split; [|apply NoDup_singleton].
    intros x Hx ->%elem_of_list_singleton. done.
  - intros r v. cbn [map_find]. destruct (N.eqb_spec raw r) as [->|Hne].
    + split.
      * intros [= <-]. exists (length rs). split; [|done]. apply list_lookup_middle. done.
      * intros (i & Hi & ->). apply lookup_app_Some in Hi as [Hi|[Hge Hi]].
        -- apply elem_of_list_lookup_2 in Hi. done.
        -- destruct (i - length rs)%nat eqn:E; [|by destruct n0].
           do 2 f_equal. unfold n. f_equal. lia.
    + rewrite Hm. split; intros (i & Hi & ->); exists i; (split; [|done]).
      * by apply lookup_app_l_Some.
      * apply lookup_app_Some in Hi as [Hi|[Hge Hi]]; [done|].
        destruct (i - length rs)%nat eqn:E; [|by destruct n0]. simpl in Hi. congruence.
  - rewrite insert_length, app_length. cbn [length]. lia.
  - apply Forall_insert; [done|]. by rewrite insert_length, Hblen.
  - intros i r Hi. apply lookup_app_Some in Hi as [Hi|[Hge Hi]].
    + destruct (Hr _ _ Hi) as (b' & Hb1 & Hb2). apply lookup_lt_Some in Hi as Hlt.
      destruct (decide (N.of_nat i / 4096 = n / 4096)) as [E|E].
      * rewrite E in Hb1. pose proof (Hpre _ _ Hb1) as Hb1'. rewrite Hbk in Hb1'.
        injection Hb1' as <-. eexists. rewrite E, list_lookup_insert by lia. split; [done|].
        rewrite list_lookup_insert_ne; [done|]. lia.
      * exists b'. rewrite list_lookup_insert_ne by lia. split; [by apply Hpre|done].
    + destruct (i - length rs)%nat eqn:E; [|by destruct n0]. simpl in Hi. injection Hi as <-.
      assert (N.of_nat i = n) as -> by (unfold n; lia).
      eexists. rewrite list_lookup_insert by lia. split; [done|].
      apply list_lookup_insert. lia.
Qed.

(** All raw ids touched so far, split by thread. *)
Definition own (T : N) (t : N) (l : list N) : list N :=
  List.filter (fun x => x mod T =? t) (firsts [] l).

Lemma existsb_in x l : existsb (N.eqb x) l = true <-> In x l.
Proof.
  rewrite existsb_exists. split.
  - intros (y & Hy & ->%N.eqb_eq). done.
  - intros H. exists x. split; [done|apply N.eqb_refl].
Qed.
Lemma firsts_snoc seen l x :
  firsts seen (l ++ [x]) = firsts seen l ++
    (if existsb (N.eqb x) (seen ++ l) then [] else [x]).
Proof.
  revert seen. induction l as [|y l IH]; intros seen; simpl.
  - rewrite app_nil_r. by destruct (existsb _ _).
  - destruct (existsb (N.eqb y) seen) eqn:E.
    + rewrite IH. f_equal.
      assert (existsb (N.eqb x) (seen ++ l) = existsb (N.eqb x) (seen ++ y :: l)) as ->; [|done].
      apply eq_true_iff_eq. rewrite !existsb_in, !in_app_iff. simpl.
      apply existsb_in in E. split; intros H; intuition congruence.
    + rewrite IH. simpl. f_equal. f_equal.
      assert (existsb (N.eqb x) (y :: seen ++ l) = existsb (N.eqb x) (seen ++ y :: l)) as <-; [|done].
      apply eq_true_iff_eq. rewrite !existsb_in. simpl. rewrite !in_app_iff. simpl. tauto.
Qed.
Lemma firsts_in l x : In x (firsts [] l) <-> In x l.
Proof.
  induction l as [|y l IH] using rev_ind; [done|]. rewrite firsts_snoc, !in_app_iff, IH.
  simpl. destruct (existsb (N.eqb y) l) eqn:E2; simpl; [|tauto]. apply existsb_in in E2.
  split; [tauto|]. intros [?|[<-|[]]]; tauto.
Qed.
Lemma own_snoc T t l x : own T t (l ++ [x]) =
  own T t l ++ (if negb (existsb (N.eqb x) l) && (x mod T =? t) then [x] else []).
Proof.
  unfold own. rewrite firsts_snoc, List.filter_app. f_equal. simpl.
  destruct (existsb _ _); [done|]. simpl. by destruct (_ =? _).
Qed.
Lemma own_in T t l x : In x (own T t l) <-> In x l /\ x mod T = t.
Proof. unfold own. rewrite List.filter_In, firsts_in, N.eqb_eq. done. Qed.

Definition graph_inv (T : N) (l : list N) (g : list gthread) : Prop :=
  length g = N.to_nat T /\
  forall t gt, g !! t = Some gt -> thread_inv (N.of_nat t) (own T (N.of_nat t) l) gt.

Lemma touch_ok T l g x : 0 < T -> T <= 32 -> graph_inv T l g ->
  N.of_nat (length (own T (x mod T) (l ++ [x]))) <= 2 ^ 27 ->
  exists g', touch T g x = Some g' /\ graph_inv T (l ++ [x]) g'.
Proof.
  intros HT0 HT [Hlen Hg] Hcap. unfold touch, within.
  assert (Hx : x mod T < T) by (apply N.mod_lt; lia).
  destruct (lookup_lt_is_Some_2 g (N.to_nat (x mod T))) as [gt Hgt]; [lia|].
  rewrite Hgt. pose proof (Hg _ _ Hgt) as Hinv. rewrite N2Nat.id in Hinv.
  destruct (map_find x (vmap gt)) as [v|] eqn:Ef.
  - exists g. split; [done|]. split; [done|]. intros t gt' Ht. rewrite own_snoc.
    assert (existsb (N.eqb x) l = true) as ->.
    { apply (ti_map _ _ _ Hinv) in Ef as (i & Hi & _). apply elem_of_list_lookup_2, elem_of_list_In in Hi.
      apply existsb_in. apply own_in in Hi. tauto. }
    simpl. rewrite app_nil_r. by apply Hg.
  - assert (Hnot : ~ In x l).
    { intros Hin. assert (In x (own T (x mod T) l)) as Hi by (by apply own_in).
      apply elem_of_list_In, elem_of_list_lookup_1 in Hi as [i Hi].
      assert (map_find x (vmap gt) = Some (packed (x mod T) (N.of_nat i))).
      { apply (ti_map _ _ _ Hinv). by exists i. }
      congruence. }
    assert (existsb (N.eqb x) l = false) as Hex.
    { destruct (existsb _ _) eqn:E; [|done]. by apply existsb_in in E. }
    rewrite own_snoc, Hex, N.eqb_refl, app_length in Hcap. simpl in Hcap.
    destruct (new_vertex_ok (x mod T) (own T (x mod T) l) gt x) as (gt' & -> & Hinv'); [lia|lia|done| |].
    { rewrite elem_of_list_In, own_in. tauto. }
    eexists. split; [done|]. split; [by rewrite insert_length|].
    intros t gt2 Ht. rewrite own_snoc, Hex. simpl.
    destruct (decide (t = N.to_nat (x mod T))) as [->|Hne].
    + rewrite list_lookup_insert in Ht by lia. injection Ht as <-. rewrite N2Nat.id, N.eqb_refl. done.
    + rewrite list_lookup_insert_ne in Ht by done.
      assert (x mod T =? N.of_nat t = false) as -> by lia. rewrite app_nil_r. by apply Hg.
Qed.

Lemma own_prefix_le T t l r : (length (own T t l) <= length (own T t (l ++ r)))%nat.
Proof.
  revert l. induction r as [|x r IH]; intros l; [by rewrite app_nil_r|].
  replace (l ++ x :: r) with ((l ++ [x]) ++ r) by (by rewrite <- app_assoc).
  etransitivity; [|apply IH]. rewrite own_snoc, app_length. lia.
Qed.

Lemma touch_all_ok T raws l g : 0 < T -> T <= 32 -> graph_inv T l g ->
  (forall t, N.of_nat (length (own T t (l ++ raws))) <= 2 ^ 27) ->
  exists g', touch_all T g raws = Some g' /\ graph_inv T (l ++ raws) g'.
Proof.
  intros HT0 HT. revert l g. induction raws as [|x raws IH]; intros l g Hg Hcap; simpl.
  - rewrite app_nil_r. by exists g.
  - replace (l ++ x :: raws) with ((l ++ [x]) ++ raws) in * by (by rewrite <- app_assoc).
    destruct (touch_ok T l g x HT0 HT Hg) as (g1 & -> & Hg1).
    { pose proof (own_prefix_le T (x mod T) (l ++ [x]) raws). specialize (Hcap (x mod T)). lia. }
    by apply IH.
Qed.

Lemma graph_inv0 T : graph_inv T [] (replicate (N.to_nat T) gthread0).
Proof.
  split; [apply replicate_length|]. intros t gt Ht. apply lookup_replicate in Ht as [-> _].
  apply thread_inv0.
Qed.

Lemma from_raw_ok T l g raw id : 0 < T -> graph_inv T l g ->
  node_vertex_from_raw T g raw = Some id <->
  exists i, own T (raw mod T) l !! i = Some raw /\ id = packed (raw mod T) (N.of_nat i).
Proof.
  intros HT [Hlen Hg]. unfold node_vertex_from_raw, within.
  assert (Hx : raw mod T < T) by (apply N.mod_lt; lia).
  destruct (lookup_lt_is_Some_2 g (N.to_nat (raw mod T))) as [gt Hgt]; [lia|].
  rewrite Hgt. pose proof (Hg _ _ Hgt) as Hinv. rewrite N2Nat.id in Hinv.
  apply (ti_map _ _ _ Hinv).
Qed.

Lemma raw_id_ok T l g t i raw : t < T -> T <= 32 -> graph_inv T l g ->
  N.of_nat (length (own T t l)) <= 2 ^ 27 ->
  own T t l !! i = Some raw -> node_vertex_raw_id g (packed t (N.of_nat i)) = Some raw.
Proof.
  intros Ht HT [Hlen Hg] Hcap Hi. apply lookup_lt_Some in Hi as Hlt.
  unfold node_vertex_raw_id. rewrite expand_packed by lia.
  destruct (lookup_lt_is_Some_2 g (N.to_nat t)) as [gt Hgt]; [lia|]. rewrite Hgt.
  pose proof (Hg _ _ Hgt) as Hinv. rewrite N2Nat.id in Hinv.
  rewrite mask_val, N.land_ones, N.mod_small by lia. rewrite bucket_eq, p12.
  destruct (ti_raw _ _ _ Hinv _ _ Hi) as (b & -> & ->). done.
Qed.
