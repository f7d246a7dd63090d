(** Making the graph that CompareToOracle computes the solution on: graph/oracle-compare.go:43-82 with
    NodeCopyVertexMailboxes, NodeCopyVerticesInto, NodeCopyVertexPropsInto (graph/graph-vertex.go:211-242), and the buckets for
    the view of a query, NodeAllocatePropertyBuckets (graph-vertex.go:244-254; graph/queries.go:102-110).

    What is shared and what is copied only shows with memory in the model: there is one store for every type of array element
    (Go's types keep them apart), an address is an index into it, a slice an address with a length, and [None] is a nil pointer
    or an index panic, as the context says.  The buckets have [B] elements (BUCKET_SIZE, graph/graph.go:41).

    Simplifications: a slice starts at offset 0 of its array, as all slices here; appending to the slice of vertices makes
    a new array (in Go the array that Init has just made may be used, nobody else has it); slices of bucket pointers are
    values (whoever shares one only reads it within its length); the elements of a property or of an inbox that are themselves
    references (colours of neighbours, the map of triangle counting) are part of the value: New makes new ones, and what
    CopyForOracle takes over is never written again (cmd/lp-tc/tc.go:45-48). *)
From Verif Require Import Base Copy_Spec.
Open Scope nat_scope.

Notation store A := (list (list A)).
Definition sread {A} (s : store A) (a i : nat) : option A := match s !! a with Some b => b !! i | None => None end.
(** [None]: nil or index panic. *)
Definition swrite {A} (s : store A) (a i : nat) (x : A) : option (store A) :=
  match s !! a with
  | Some b => if i <? length b then Some (<[a := <[i := x]> b]> s) else None
  | None => None
  end.
(** Go's copy(dst, src): as many as fit. *)
Definition copy_into {A} (dst src : list A) : list A := take (length dst) src ++ drop (length src) dst.

Record slice := Slice { arr : nat; slen : nat }.

Section copy.
  Context {Ed Q M X Mp : Type} (B : nat) (q0 : Q) (m0 : M).

  Record heap := Heap { hv : store slice; hp : store Q; hm : store (M * nat); he : store Ed; hs : store X; hmap : list Mp }.
  Definition set_hv (h : heap) v := Heap v (hp h) (hm h) (he h) (hs h) (hmap h).
  Definition set_hp (h : heap) p := Heap (hv h) p (hm h) (he h) (hs h) (hmap h).
  Definition set_hm (h : heap) m := Heap (hv h) (hp h) m (he h) (hs h) (hmap h).
  Definition set_he (h : heap) e := Heap (hv h) (hp h) (hm h) e (hs h) (hmap h).

  (** graph/graph.go:70-102, what is copied: slices of vertices and of buckets, the map, the counters. *)
  Record gthr := GT { verts : slice; props : list (option nat); boxes : list (option nat); structs : list (option nat); vmap : nat;
    nedges : N; ndels : N; at_event : N }.

  (** The bucket and position of a vertex: graph/graph-vertex.go:50-54. *)
  Definition bread {A} (s : store A) (bs : list (option nat)) (i : nat) : option A :=
    match bs !! (i / B) with Some (Some a) => sread s a (i mod B) | _ => None end.
  Definition bwrite {A} (s : store A) (bs : list (option nat)) (i : nat) (x : A) : option (store A) :=
    match bs !! (i / B) with Some (Some a) => swrite s a (i mod B) x | _ => None end.

  (** What can be seen of a graph through its threads: graph-vertex.go:70-152. *)
  Definition sedges (h : heap) (gt : gthr) (i : nat) : option (list Ed) :=
    if i <? slen (verts gt) then
      match sread (hv h) (arr (verts gt)) i with
      | Some s => match he h !! arr s with Some b => Some (take (slen s) b) | None => None end
      | None => None end
    else None.
  Definition look (h : heap) (g : list gthr) : seen Ed Q M X Mp := Seen
    (fun t => gt ← g !! t; Some (slen (verts gt)))
    (fun t => gt ← g !! t; hmap h !! vmap gt)
    (fun t i => gt ← g !! t; sedges h gt i)
    (fun t i => gt ← g !! t; bread (hs h) (structs gt) i)
    (fun t i => gt ← g !! t; bread (hp h) (props gt) i)
    (fun t i => gt ← g !! t; bread (hm h) (boxes gt) i).

  (** graph-vertex.go:221-227 [NodeCopyVerticesInto]. The zero value of a vertex has no edges. *)
  Definition copy_vertices (s : store slice) (src other : slice) : option (store slice * slice) :=
    let diff := slen src - slen other in
    let '(s1, other1) :=
      if 0 <? diff
      then (s ++ [take (slen other) (default [] (s !! arr other)) ++ replicate diff (Slice 0 0)], Slice (length s) (slen other + diff))
      else (s, other) in
    match s1 !! arr src, s1 !! arr other1 with
    | Some bs, Some bo => Some (<[arr other1 := copy_into (take (slen other1) bo) (take (slen src) bs) ++ drop (slen other1) bo]> s1, other1)
    | _, _ => None
    end.

  (** graph-vertex.go:235-241, the loop of [NodeCopyVertexPropsInto]. *)
  Fixpoint copy_buckets (s : store Q) (src other : list (option nat)) : option (store Q * list (option nat)) :=
    match src with
    | [] => Some (s, other)
    | p :: src =>
        match other with
        | [] => None
        | o :: other =>
            let '(s1, a) := match o with Some a => (s, a) | None => (s ++ [replicate B q0], length s) end in
            match p with
            | None => None
            | Some p =>
                match s1 !! p, s1 !! a with
                | Some bp, Some ba =>
                    match copy_buckets (<[a := copy_into ba bp]> s1) src other with
                    | Some (s2, r) => Some (s2, Some a :: r)
                    | None => None
                    end
                | _, _ => None
                end
            end
        end
    end.
  (** graph-vertex.go:230-234. *)
  Definition copy_props (s : store Q) (src other : list (option nat)) : option (store Q * list (option nat)) :=
    copy_buckets s src (other ++ replicate (length src - length other) None).

  (** graph-vertex.go:212-218 [NodeCopyVertexMailboxes]: new buckets, nothing copied. *)
  Definition copy_boxes (s : store (M * nat)) (src : list (option nat)) : store (M * nat) * list (option nat) :=
    (s ++ replicate (length src) (replicate B (m0, 0)), map Some (seq (length s) (length src))).

  (** graph-vertex.go:245-254 [NodeAllocatePropertyBuckets]. *)
  Definition allocate (s : store Q) (src other : list (option nat)) : store Q * list (option nat) :=
    let diff := length src - length other in
    (s ++ replicate diff (replicate B q0), other ++ map Some (seq (length s) diff)).

  (** oracle-compare.go:58-70, one thread. Init (graph.go:154-157) has made an empty slice of vertices; the slice of
      property buckets is nil; the map and the structures are taken over as they are. *)
  Definition copy_thread (h : heap) (gt : gthr) : option (heap * gthr) :=
    let h0 := set_hv h (hv h ++ [[]]) in
    match copy_vertices (hv h0) (verts gt) (Slice (length (hv h)) 0) with
    | None => None
    | Some (v, vs) =>
        match copy_props (hp h0) (props gt) [] with
        | None => None
        | Some (p, ps) =>
            let '(m, ms) := copy_boxes (hm h0) (boxes gt) in
            Some (set_hm (set_hp (set_hv h0 v) p) m, GT vs ps ms (structs gt) (vmap gt) (nedges gt) (ndels gt) (at_event gt))
        end
    end.
  Fixpoint copy_threads (h : heap) (g : list gthr) : option (heap * list gthr) :=
    match g with
    | [] => Some (h, [])
    | gt :: g =>
        match copy_thread h gt with
        | None => None
        | Some (h1, ot) => match copy_threads h1 g with Some (h2, o) => Some (h2, ot :: o) | None => None end
        end
    end.

  (** oracle-compare.go:72-76: *oracleProp = New(), and mailbox.Inbox = New() (the internal id leads to the vertex at hand: C18, C19). *)
  Definition reset_vertex (qnew : Q) (mnew : M) (ot : gthr) (h : heap) (i : nat) : option heap :=
    match bwrite (hp h) (props ot) i qnew with
    | None => None
    | Some p =>
        match bread (hm h) (boxes ot) i with
        | None => None
        | Some (_, act) => match bwrite (hm h) (boxes ot) i (mnew, act) with Some m => Some (set_hm (set_hp h p) m) | None => None end
        end
    end.
  (** oracle-compare.go:78-82, with CopyForOracle(oracleProp, given) as a function of both. *)
  Definition take_vertex (f : Q -> Q -> Q) (gt ot : gthr) (h : heap) (i : nat) : option heap :=
    match bread (hp h) (props ot) i, bread (hp h) (props gt) i with
    | Some q, Some q' => match bwrite (hp h) (props ot) i (f q q') with Some p => Some (set_hp h p) | None => None end
    | _, _ => None
    end.
  (** graph-vertex.go:174-185 [NodeForEachVertex], over the vertices of one thread, over all threads. *)
  Fixpoint each_vertex (f : heap -> nat -> option heap) (h : heap) (l : list nat) : option heap :=
    match l with [] => Some h | i :: l => match f h i with Some h => each_vertex f h l | None => None end end.
  Fixpoint each_thread (f : gthr -> gthr -> heap -> nat -> option heap) (h : heap) (g o : list gthr) : option heap :=
    match g, o with
    | gt :: g, ot :: o =>
        match each_vertex (f gt ot) h (seq 0 (slen (verts ot))) with Some h => each_thread f h g o | None => None end
    | _, _ => Some h
    end.

  (** oracle-compare.go:43-82. [take_over]: CopyForOracle, if the property has it. *)
  Definition oracle_graph (qnew : Q) (mnew : M) (take_over : option (Q -> Q -> Q)) (h : heap) (g : list gthr) : option (heap * list gthr) :=
    match copy_threads h g with
    | None => None
    | Some (h1, o) =>
        match each_thread (fun _ => reset_vertex qnew mnew) h1 g o with
        | None => None
        | Some h2 =>
            match take_over with
            | None => Some (h2, o)
            | Some f => match each_thread (take_vertex f) h2 g o with Some h3 => Some (h3, o) | None => None end
            end
        end
    end.

  (** What running an algorithm on a graph may write: properties, mailboxes, the slice of edges of a vertex
      (an algorithm may sort or replace it), all of the vertices of the graph, and elements of the edge arrays. *)
  Inductive write := WProp (t i : nat) (q : Q) | WBox (t i : nat) (b : M * nat) | WVertex (t i : nat) (s : slice) | WEdge (t i k : nat) (e : Ed).
  Definition or_same {A} (x : A) (o : option A) : A := default x o.
  Definition do_write (h : heap) (g : list gthr) (w : write) : heap :=
    match w with
    | WProp t i q => or_same h (gt ← g !! t; if i <? slen (verts gt) then p ← bwrite (hp h) (props gt) i q; Some (set_hp h p) else None)
    | WBox t i b => or_same h (gt ← g !! t; if i <? slen (verts gt) then m ← bwrite (hm h) (boxes gt) i b; Some (set_hm h m) else None)
    | WVertex t i s => or_same h (gt ← g !! t; if i <? slen (verts gt) then v ← swrite (hv h) (arr (verts gt)) i s; Some (set_hv h v) else None)
    | WEdge t i k e => or_same h (gt ← g !! t; if i <? slen (verts gt) then s ← sread (hv h) (arr (verts gt)) i;
                                  if k <? slen s then x ← swrite (he h) (arr s) k e; Some (set_he h x) else None else None)
    end.
  Definition do_writes (h : heap) (g : list gthr) (l : list write) : heap := fold_left (fun h w => do_write h g w) l h.
  Definition no_edge (w : write) : Prop := match w with WEdge _ _ _ _ => False | _ => True end.

  (** The property buckets of one thread of the graph and of the two views of LogTimeSeries (queries.go:38-43, 102-110), over a run:
      a vertex comes that needs a new bucket (stream-enact-events.go:21-27), a query uses one view or the other. *)
  Record vst := Vst { vs_store : store Q; vs_g : list (option nat); vs_a : list (option nat); vs_b : list (option nat) }.
  Inductive vact := Grow | View (second : bool).
  Definition vstep (s : vst) (x : vact) : vst :=
    match x with
    | Grow => Vst (vs_store s ++ [replicate B q0]) (vs_g s ++ [Some (length (vs_store s))]) (vs_a s) (vs_b s)
    | View false => let '(st, v) := allocate (vs_store s) (vs_g s) (vs_a s) in Vst st (vs_g s) v (vs_b s)
    | View true => let '(st, v) := allocate (vs_store s) (vs_g s) (vs_b s) in Vst st (vs_g s) (vs_a s) v
    end.
  Definition vrun (l : list vact) : vst := fold_left vstep l (Vst [] [] [] []).

  (** How graphs look in memory (NewVertex, stream-enact-events.go:15-37): buckets of [B] elements for all vertices, as many
      of each kind; the arrays are there. *)
  Definition covers {A} (s : store A) (bs : list (option nat)) (n : nat) : Prop :=
    n <= B * length bs /\ Forall (fun p => exists a b, p = Some a /\ s !! a = Some b /\ length b = B) bs.
  Definition in_memory (h : heap) (gt : gthr) : Prop :=
    (exists b, hv h !! arr (verts gt) = Some b /\ slen (verts gt) <= length b) /\
    covers (hp h) (props gt) (slen (verts gt)) /\ covers (hm h) (boxes gt) (slen (verts gt)) /\ covers (hs h) (structs gt) (slen (verts gt)).
End copy.
Arguments Heap {_ _ _ _ _} _ _ _ _ _ _.
