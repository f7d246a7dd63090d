(** Model of the statistics of graph/graph.go:257-345 and of the structure check of
    graph/graph.go:398-419. *)
From Verif Require Import Base.
From stdpp Require Import sorting.
Open Scope N_scope.

(** What the functions read of a vertex (graph/graph-vertex.go, Vertex.OutEdges and
    VertexStructure.RawId, InEventPos) and of a thread (graph/graph.go:67-95:
    Vertices, NumEdges, NumOutDels).  An out-edge is given by the raw id of the
    vertex its Didx denotes (C52). *)
Record vtx := Vtx { raw : N; outs : list N; inpos : N }.
Record thr := Thr { verts : list vtx; nedges : N; ndels : N }.
Definition all_verts (g : list thr) : list vtx := concat (map verts g).

(** uint32(len(vertex.OutEdges)), graph/graph.go:281. *)
Definition odeg (v : vtx) : N := N.of_nat (length (outs v)) mod w32.

(** utils/helpers.go:66-72 [MaxSlice] (the slices have one entry per thread, of which
    there is at least one), 82-87 [Sum] for uint32. *)
Definition max_slice (l : list N) : N := fold_left N.max l (hd 0 l).
Definition sum32 (l : list N) : N := fold_left (fun a x => (a + x) mod w32) l 0.

(** utils/helpers.go:89-117 [Median] for unsigned numbers below [w], with the
    overflow of the sum. *)
Definition median_u (w : N) (l : list N) : N :=
  match l with
  | [] => 0
  | [x] => x
  | _ =>
      let c := merge_sort N.le l in let k := (length c / 2)%nat in
      if Nat.even (length c) then nth k c 0
      else if nth (k - 1) c 0 =? nth k c 0 then nth k c 0
      else ((nth (k - 1) c 0 + nth k c 0) mod w) / 2
  end.

(** graph/graph.go:258-275: the cells of the per-thread slices of one thread. *)
Record part := Part { maxout : N; maxraw : N; sinks : N; heads : N; maxin : N }.
Definition part0 : part := Part 0 0 0 0 0.
(** The body of the loop, graph/graph.go:279-298, without the writes to the two lists;
    [ins] is "numDels == 0 || g.Options.TimeRange". *)
Definition see (ins : bool) (p : part) (v : vtx) : part :=
  Part (N.max (maxout p) (odeg v)) (N.max (maxraw p) (raw v))
       (if odeg v =? 0 then (sinks p + 1) mod w32 else sinks p)
       (if ins && (inpos v =? 0) then (heads p + 1) mod w32 else heads p)
       (if ins then N.max (maxin p) (inpos v) else maxin p).

(** graph/graph.go:277-300 through graph/graph-vertex.go:193-209 [NodeParallelFor]:
    one goroutine per thread; a step of goroutine [t] is one iteration of its loop.
    The goroutines share only the two lists. *)
Record pst := Pst { pos : list nat; parts : list part; lout : list N; lin : list N }.
Definition start (g : list thr) (t : nat) : nat := length (all_verts (take t g)).
Definition pst0 (g : list thr) : pst :=
  Pst (replicate (length g) 0%nat) (replicate (length g) part0)
      (replicate (length (all_verts g)) 0) (replicate (length (all_verts g)) 0).
Definition pstep (ins : bool) (g : list thr) (s : pst) (t : nat) : pst :=
  match pos s !! t, parts s !! t, g !! t with
  | Some i, Some p, Some th =>
      match verts th !! i with
      | Some v =>
          Pst (<[t := S i]> (pos s)) (<[t := see ins p v]> (parts s))
              (<[(start g t + i)%nat := odeg v]> (lout s))
              (if ins then <[(start g t + i)%nat := inpos v]> (lin s) else lin s)
      | None => s
      end
  | _, _, _ => s
  end.
Definition prun (ins : bool) (g : list thr) (sched : list nat) : pst := fold_left (pstep ins g) sched (pst0 g).
(** All goroutines have returned (NodeParallelFor waits for them). *)
Definition pdone (g : list thr) (s : pst) : Prop := pos s = map (fun th => length (verts th)) g.

(** graph/graph.go:257-318 [ComputeGraphStats]: the numbers printed (percentages left
    out); the last three only if in-degrees are known. *)
Record report := Report { r_vertices : N; r_maxraw : N; r_edges : N; r_sinks : N; r_maxout : N; r_medout : N;
                          r_in : option (N * N * N) }.
Definition ins_known (tr : bool) (g : list thr) : bool := (sum32 (map ndels g) =? 0) || tr.
Definition stats (tr : bool) (g : list thr) (sched : list nat) : report :=
  let ins := ins_known tr g in let s := prun ins g sched in
  Report (N.of_nat (length (all_verts g))) (max_slice (map maxraw (parts s))) (sum32 (map nedges g))
         (sum32 (map sinks (parts s))) (max_slice (map maxout (parts s))) (median_u w32 (lout s))
         (if ins then Some (sum32 (map heads (parts s)), max_slice (map maxin (parts s)), median_u w32 (lin s)) else None).

(** graph/graph.go:322-345 [InEdgesStats]: the map from targets to sources, built
    vertex by vertex, edge by edge; then read in the order [order] the runtime
    chooses for "range" over a map. *)
Fixpoint push (m : list (N * list N)) (k x : N) : list (N * list N) :=
  match m with
  | [] => [(k, [x])]
  | (j, l) :: m => if j =? k then (j, l ++ [x]) :: m else (j, l) :: push m k x
  end.
Definition in_table (g : list thr) : list (N * list N) :=
  fold_left (fun m v => fold_left (fun m d => push m d (raw v)) (outs v) m) (all_verts g) [].
Definition in_stats (order : list (N * list N)) : N * N :=
  let ls := map (fun x => N.of_nat (length (snd x))) order in
  (fold_left (fun m x => N.max x m) ls 0, median_u w64 ls).

(** graph/graph.go:402-419 [CheckGraphStructureEquality]; [false] is a panic, also the
    one of the nil dereference when the second graph lacks the id.
    NodeVertexFromRaw (graph/graph-vertex.go:110-115) is a search by raw id. *)
Definition check_structure (g1 g2 : list thr) : bool :=
  (length (all_verts g1) =? length (all_verts g2))%nat &&
  forallb (fun v => match List.find (fun w => raw w =? raw v) (all_verts g2) with
                    | Some w => (length (outs v) =? length (outs w))%nat
                    | None => false
                    end) (all_verts g1).

(** Which graph the stored state stands for: ids [ids], edges [links], and the edges
    [removed] by deletions (none if deletions only end edges, TimeRange).  The
    in-position of a vertex counts the edges ever added to it (C23), the counters
    wrap at 2^32 (C27). *)
Record holds (tr : bool) (g : list thr) (ids : list N) (links removed : list (N * N)) : Prop := Holds {
  h_threads : g <> [];
  h_ids : Permutation (map raw (all_verts g)) ids;
  h_once : List.NoDup ids;
  h_ends : forall e, In e (links ++ removed) -> In (fst e) ids /\ In (snd e) ids;
  h_outs : forall v, In v (all_verts g) -> Permutation (outs v) (map snd (List.filter (fun e => fst e =? raw v) links));
  h_ins : forall v, In v (all_verts g) -> inpos v = N.of_nat (length (List.filter (fun e => snd e =? raw v) (links ++ removed))) mod w32;
  h_edges : forall th, In th g -> nedges th = N.of_nat (length (concat (map outs (verts th)))) mod w32;
  h_dels : if tr then removed = [] else sum32 (map ndels g) = N.of_nat (length removed) mod w32;
}.
