(** Model of utils/sorting.go: the index priority queue and FindTopNInArray. *)
From Verif Require Import Base Heap_Model.

Section model.
  Context {A : Type} (lt : A -> A -> bool).
  (** [d] fills impossible out-of-range reads of the input array: all indices
      handled below are in range, or the step is a panic ([None]). *)
  Context (d : A).

  (** utils/sorting.go:36 [indexedSf.Less], on the index values themselves:
      [Input[a] < Input[b]]. *)
  Definition idx_less (arr : list A) (a b : nat) : bool := lt (nth a arr d) (nth b arr d).

  (** utils/sorting.go:22-28 [indexed.Init] and 107-110 [PriorityQueueSf.Init].
      container/heap's Init/Fix/Pop/Push are the same loops as
      utils/priority-queue.go (Go standard library), so [Heap_Model] is reused. *)
  Definition sf_init (arr : list A) (size : nat) : list nat :=
    pq_init (idx_less arr) (seq 0 size).

  (** utils/sorting.go:81-87: the replacement loop over i in [i, len(array)). *)
  Fixpoint top_loop (fuel : nat) (arr : list A) (i : nat) (index : list nat) : option (list nat) :=
    match fuel with
    | O => Some index
    | S f =>
        match index !! 0 with                             (* pq.Peek() *)
        | None => None                                    (* index out of range *)
        | Some r =>
            let index' :=
              if lt (nth r arr d) (nth i arr d)
              then fix_at (idx_less arr) (<[0 := i]> index) 0   (* pq.Replace(0, i) *)
              else index in
            top_loop f arr (S i) index'
        end
    end.

  (** utils/sorting.go:67-96 [FindTopNInArray].  The array has fewer than 2^32
      entries.  The result slice is filled from the back. *)
  Definition find_top_n (arr : list A) (top_count : nat) : option (list (nat * A)) :=
    let top_count := if length arr <? top_count then length arr else top_count in
    match top_loop (length arr - top_count) arr top_count (sf_init arr top_count) with
    | None => None
    | Some index =>
        Some (rev (map (fun k => (k, nth k arr d)) (pop_all (idx_less arr) top_count index)))
    end.

  (** utils/sorting.go:112-114 [Insert] -> heap.Push -> 131-135 [Push]: the index
      appended is [len(pq.Index) - 1] evaluated before the append.  State: (Input,
      Index); only called here on a non-empty queue (on an empty one the index
      would be -1). *)
  Definition sf_insert (arr : list A) (index : list nat) (v : A) : list A * list nat :=
    let arr := arr ++ [v] in
    (arr, push (idx_less arr) index (length index - 1)).
End model.
