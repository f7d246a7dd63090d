(** C18, C19: vertex identifiers, enumeration and creation. *)
From Verif Require Import Base Vertex_Spec Vertex_Model Vertex_Proofs.
Open Scope N_scope.

(** C18.  Packing then expanding is the identity, and every uint32 is the packing of
    its expansion. *)
Theorem C18_pack_expand : forall t i, t < 32 -> i < 2 ^ 27 ->
  compress t i = packed t i /\ compress t i < 2 ^ 32 /\ internal_expand (compress t i) = (i, t).
Proof.
  intros t i Ht Hi. rewrite compress_eq by done. split; [done|]. split; [|by apply expand_packed].
  unfold packed. change (2 ^ 32) with w32. plia.
Qed.
Print Assumptions C18_pack_expand.

Theorem C18_expand_pack : forall id, id < 2 ^ 32 ->
  let '(i, t) := internal_expand id in t < 32 /\ i < 2 ^ 27 /\ compress t i = id.
Proof.
  intros id Hid. change (2 ^ 32) with w32 in Hid. rewrite expand_eq.
  assert (id / 2 ^ 27 < 32) by plia. assert (id mod 2 ^ 27 < 2 ^ 27) by plia.
  split; [done|]. split; [done|]. rewrite compress_eq by done. plia.
Qed.
Print Assumptions C18_expand_pack.

(** C18.  Ids of different vertices differ, and SameTidx decides "same thread". *)
Theorem C18_injective_and_same_thread : forall t i t' i',
  t < 32 -> i < 2 ^ 27 -> t' < 32 -> i' < 2 ^ 27 ->
  (compress t i = compress t' i' <-> t = t' /\ i = i') /\
  (same_tidx (compress t i) (compress t' i') = true <-> t = t').
Proof.
  intros t i t' i' H1 H2 H3 H4. rewrite !compress_eq by done.
  rewrite same_tidx_eq by plia. split.
  - split; [|by intros [-> ->]]. intros E. split; plia.
  - rewrite N.eqb_eq.
    assert (packed t i / 2 ^ 27 = t) as -> by plia. assert (packed t' i' / 2 ^ 27 = t') as -> by plia.
    done.
Qed.
Print Assumptions C18_injective_and_same_thread.

Example C18_case : compress 5 3 = 671088643 /\ internal_expand 671088643 = (3, 5) /\
  same_tidx 671088643 (compress 5 134217727) = true /\ same_tidx 671088643 (compress 6 3) = false.
Proof. vm_compute. done. Qed.
(** A 33rd thread would collide with thread 0 (this is what THREAD_MAX guards). *)
Example C18_bound_needed : compress 32 7 = compress 0 7.
Proof. reflexivity. Qed.

(** C19.  NodeForEachVertex calls the applicator on the vertices of all threads, in
    thread order, with ordinals 0, 1, 2, ... and the packed ids; [all_vertices] lists each
    existing (thread, offset) exactly once. *)
Theorem C19_for_each_enumerates : forall counts,
  (length counts <= 32)%nat -> Forall (fun n => N.of_nat n <= 2 ^ 27) counts ->
  node_for_each counts =
    imap (fun k v => (N.of_nat k, packed (fst v) (snd v), v)) (all_vertices counts) /\
  length (all_vertices counts) = node_vertex_count counts /\
  List.NoDup (all_vertices counts) /\
  (forall t i, In (t, i) (all_vertices counts) <->
     exists n, counts !! N.to_nat t = Some n /\ i < N.of_nat n).
Proof.
  intros counts Hl Hn. split; [|split; [|split]].
  - pose proof (sum_bound counts Hl Hn). unfold node_for_each.
    pose proof (for_each_eq counts 0 0) as E. rewrite !N.add_0_l in E.
    change (0 mod w32) with 0 in E. rewrite E by (try done; lia).
    apply imap_ext. intros k x _. simpl. done.
  - unfold all_vertices. by rewrite all_vertices_from_length, count_eq.
  - apply all_vertices_from_nodup.
  - intros t i. unfold all_vertices. rewrite all_vertices_from_in. split.
    + intros (k & n & H & -> & Hi). exists n. rewrite Nat2N.id. done.
    + intros (n & H & Hi). exists (N.to_nat t), n. split; [done|]. split; [lia|done].
Qed.
Print Assumptions C19_for_each_enumerates.

(** C19.  NodeParallelFor: (ordinalStart + i, threadOffset | i) over all goroutines are
    the ordinals and ids of NodeForEachVertex; the accumulated result is the (wrapping) sum
    of the goroutines' results whatever order they arrive in. *)
Theorem C19_parallel_for_partitions : forall counts,
  (length counts <= 32)%nat -> Forall (fun n => N.of_nat n <= 2 ^ 27) counts ->
  concat (map (fun '(s, off, n) => map (fun i => (s + N.of_nat i, N.lor off (N.of_nat i))) (seq 0 n))
     (parallel_for counts 0 0))
  = imap (fun k v => (N.of_nat k, packed (fst v) (snd v))) (all_vertices counts).
Proof.
  intros counts Hl Hn. pose proof (sum_bound counts Hl Hn).
  pose proof (parallel_for_eq counts 0 0) as E. change (0 mod w32) with 0 in E.
  rewrite E by (try done; lia).
  unfold numbered. change (N.to_nat 0) with O. change (all_vertices_from 0 counts) with (all_vertices counts).
  rewrite fmap_imap. apply imap_ext. intros k x _. done.
Qed.
Print Assumptions C19_parallel_for_partitions.

Theorem C19_parallel_sum : forall results received,
  Permutation results received -> collect received = (fold_right Z.add 0 results mod 2 ^ 64)%Z.
Proof. intros a b H. rewrite <- (collect_perm _ _ H). apply collect_sum. Qed.
Print Assumptions C19_parallel_sum.

(** C19.  Creating vertices on demand for any stream of raw ids: never an index panic, a
    raw id has an internal id exactly if it occurred, that id is (raw mod T, number of
    distinct earlier ids of the same thread), and the bucketed look-up by id gives the raw
    id back. *)
Theorem C19_vertex_creation : forall T raws,
  0 < T -> T <= 32 ->
  (forall t, N.of_nat (length (List.filter (fun x => x mod T =? t) (firsts [] raws))) <= 2 ^ 27) ->
  exists g, touch_all T (replicate (N.to_nat T) gthread0) raws = Some g /\
    (forall raw, is_Some (node_vertex_from_raw T g raw) <-> In raw raws) /\
    (forall raw id, node_vertex_from_raw T g raw = Some id ->
       node_vertex_raw_id g id = Some raw /\
       exists i, id = packed (raw mod T) (N.of_nat i) /\
         List.filter (fun x => x mod T =? raw mod T) (firsts [] raws) !! i = Some raw) /\
    (forall t gt, g !! N.to_nat t = Some gt ->
       nverts gt = N.of_nat (length (List.filter (fun x => x mod T =? t) (firsts [] raws)))).
Proof.
  intros T raws HT0 HT Hcap.
  destruct (touch_all_ok T raws [] _ HT0 HT (graph_inv0 T) Hcap) as (g & Hg & Hinv).
  exists g. split; [done|]. simpl in Hinv. split; [|split].
  - intros raw. split.
    + intros [id Hid]. apply (from_raw_ok T raws g) in Hid as (i & Hi & _); [|done|done].
      apply elem_of_list_lookup_2, elem_of_list_In, own_in in Hi. tauto.
    + intros Hin. assert (In raw (own T (raw mod T) raws)) as Hi by (by apply own_in).
      apply elem_of_list_In, elem_of_list_lookup_1 in Hi as [i Hi].
      exists (packed (raw mod T) (N.of_nat i)). apply (from_raw_ok T raws g); [done|done|]. by exists i.
  - intros raw id Hid. apply (from_raw_ok T raws g) in Hid as (i & Hi & ->); [|done|done].
    split; [|by exists i]. apply (raw_id_ok T raws); try done. apply N.mod_lt. lia. apply Hcap.
  - intros t gt Hgt. destruct Hinv as [_ Hinv]. apply Hinv in Hgt. rewrite N2Nat.id in Hgt.
    apply (ti_n _ _ _ Hgt).
Qed.
Print Assumptions C19_vertex_creation.

Example C19_case : node_for_each [2; 0; 1]%nat =
  [(0, 0, (0, 0)); (1, 1, (0, 1)); (2, 268435456, (2, 0))].
Proof. vm_compute. reflexivity. Qed.
Example C19_creation_case :
  match touch_all 2 (replicate 2 gthread0) [7; 4; 9; 7; 2] with
  | Some g => (map (node_vertex_from_raw 2 g) [7; 9; 4; 2; 1], map (node_vertex_raw_id g) [134217729; 1])
  | None => ([], [])
  end = ([Some 134217728; Some 134217729; Some 0; Some 1; None], [Some 9; Some 2]).
Proof. vm_compute. reflexivity. Qed.
