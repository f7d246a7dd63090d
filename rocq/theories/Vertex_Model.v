(** Model of the vertex addressing of graph/graph-vertex.go and the vertex creation of
    graph/stream-enact-events.go. *)
From Verif Require Import Base.
Open Scope N_scope.

(** graph/graph.go:26-30, 40-42. *)
Definition THREAD_BITS : N := 5.
Definition THREAD_SHIFT : N := 32 - THREAD_BITS.
Definition THREAD_MASK : N := N.shiftl 1 THREAD_SHIFT - 1.
Definition THREAD_ID_MASK : N := N.shiftl (N.shiftl 1 THREAD_BITS - 1) THREAD_SHIFT.
Definition THREAD_MAX : N := N.shiftl 1 THREAD_BITS.
Definition BUCKET_SHIFT : N := 12.
Definition BUCKET_SIZE : N := N.shiftl 1 BUCKET_SHIFT.
Definition BUCKET_MASK : N := BUCKET_SIZE - 1.

(** graph/graph-vertex.go:50-54. *)
Definition idx_to_bucket (idx : N) : N * N := (N.shiftr idx BUCKET_SHIFT, N.land idx BUCKET_MASK).
(** graph/graph-vertex.go:57-61, result (idx, tidx). *)
Definition internal_expand (id : N) : N * N := (N.land id THREAD_MASK, N.shiftr id THREAD_SHIFT).
(** graph/graph-vertex.go:64-66. *)
Definition same_tidx (a b : N) : bool := N.land a THREAD_ID_MASK =? N.land b THREAD_ID_MASK.
(** graph/stream-enact-events.go:17: [uint32(Tidx) << THREAD_SHIFT + idx] (uint32). *)
Definition compress (tidx idx : N) : N := (N.shiftl tidx THREAD_SHIFT mod w32 + idx) mod w32.

(** graph/graph-vertex.go:174-185 [NodeForEachVertex]: the calls of the applicator, as
    (ordinal, internal id, (thread, offset of the Vertex and property pointers)).
    [counts] is len(gt.Vertices) for each of the NumThreads threads; [count] is a uint32. *)
Fixpoint for_thread (fuel : nat) (tidx i count : N) : list (N * N * (N * N)) * N :=
  match fuel with
  | O => ([], count)
  | S f =>
      let id := N.lor (N.shiftl tidx THREAD_SHIFT mod w32) i in
      let '(r, c) := for_thread f tidx (i + 1) ((count + 1) mod w32) in
      ((count, id, (tidx, i)) :: r, c)
  end.
Fixpoint for_each (counts : list nat) (tidx count : N) : list (N * N * (N * N)) :=
  match counts with
  | [] => []
  | n :: rest =>
      let '(r, c) := for_thread n tidx 0 count in
      r ++ for_each rest (tidx + 1) c
  end.
Definition node_for_each (counts : list nat) := for_each counts 0 0.

(** graph/graph-vertex.go:164-170 [NodeVertexCount]. *)
Definition node_vertex_count (counts : list nat) : nat := fold_left Nat.add counts 0%nat.

(** graph/graph-vertex.go:194-209 [NodeParallelFor]: arguments of the launched
    goroutines, as (ordinalStart, threadOffset, number of vertices of that thread). *)
Fixpoint parallel_for (counts : list nat) (tidx start : N) : list (N * N * nat) :=
  match counts with
  | [] => []
  | n :: rest =>
      (start, N.shiftl tidx THREAD_SHIFT mod w32, n)
        :: parallel_for rest (tidx + 1) ((start + N.of_nat n) mod w32)
  end.
(** The collection loop: the results arrive in any order [received]; ints wrap at 2^64. *)
Definition collect (received : list Z) : Z :=
  fold_left (fun acc r => (acc + r) mod 2 ^ 64)%Z received 0%Z.

(** A graph thread, restricted to what vertex creation touches: number of vertices, the
    raw->internal map, and the bucketed structures (only their RawId field).
    graph/graph.go:73-81. *)
Record gthread := GThread {
  nverts : N; vmap : list (N * N); structures : list (list N) }.
Definition gthread0 : gthread := GThread 0 [] [].
Fixpoint map_find (raw : N) (m : list (N * N)) : option N :=
  match m with
  | [] => None
  | (r, v) :: m => if r =? raw then Some v else map_find raw m
  end.

(** graph/stream-enact-events.go:15-37 [NewVertex] (mailbox and property buckets are
    allocated and indexed exactly like the structures; [None]: index panic). *)
Definition new_vertex (tidx : N) (gt : gthread) (raw : N) : option gthread :=
  let idx := nverts gt in
  let vidx := compress tidx idx in
  let '(bucket, pos) := idx_to_bucket idx in
  let st := if N.of_nat (length (structures gt)) <=? bucket
            then structures gt ++ [replicate (N.to_nat BUCKET_SIZE) 0] else structures gt in
  match st !! N.to_nat bucket with
  | None => None
  | Some b =>
      match b !! N.to_nat pos with
      | None => None
      | Some _ =>
          Some (GThread (idx + 1) ((raw, vidx) :: vmap gt)
                  (<[N.to_nat bucket := <[N.to_nat pos := raw]> b]> st))
      end
  end.

(** graph/stream-parse.go:13-15 [RawType.Within] (the active, integer, RawType). *)
Definition within (raw nthreads : N) : N := raw mod nthreads.

(** The look-up-or-create done for sources and destinations:
    graph/stream-enact-events.go:94-98 and 214-219, on thread Within(raw). *)
Definition touch (nthreads : N) (g : list gthread) (raw : N) : option (list gthread) :=
  let t := within raw nthreads in
  match g !! N.to_nat t with
  | None => None
  | Some gt =>
      match map_find raw (vmap gt) with
      | Some _ => Some g
      | None =>
          match new_vertex t gt raw with
          | Some gt' => Some (<[N.to_nat t := gt']> g)
          | None => None
          end
      end
  end.
Fixpoint touch_all (nthreads : N) (g : list gthread) (raws : list N) : option (list gthread) :=
  match raws with
  | [] => Some g
  | r :: raws => match touch nthreads g r with Some g' => touch_all nthreads g' raws | None => None end
  end.

(** graph/graph-vertex.go:110-115 [NodeVertexFromRaw] (the id part; Go returns (0,nil)
    when absent). *)
Definition node_vertex_from_raw (nthreads : N) (g : list gthread) (raw : N) : option N :=
  match g !! N.to_nat (within raw nthreads) with
  | Some gt => map_find raw (vmap gt)
  | None => None
  end.
(** graph/graph-vertex.go:152-155 [NodeVertexRawID] with 102-105; [None]: index panic. *)
Definition node_vertex_raw_id (g : list gthread) (id : N) : option N :=
  let '(idx, tidx) := internal_expand id in
  match g !! N.to_nat tidx with
  | None => None
  | Some gt =>
      let '(bucket, bpos) := idx_to_bucket (N.land idx THREAD_MASK) in
      match structures gt !! N.to_nat bucket with
      | Some b => b !! N.to_nat bpos
      | None => None
      end
  end.
