(** Model of utils/priority-queue.go (the heap part). *)
From Verif Require Import Base Heap_Spec.

Section model.
  Context {A : Type} (less : A -> A -> bool).

  (** [h[i].Less(h[j])]; in-range reads only (every caller below keeps the
      indices in range, the entry points test it where the caller chooses i). *)
  Definition less_at (h : list A) (i j : nat) : bool :=
    match h !! i, h !! j with Some a, Some b => less a b | _, _ => false end.

  (** [h[i], h[j] = h[j], h[i]] *)
  Definition swap (h : list A) (i j : nat) : list A :=
    match h !! i, h !! j with
    | Some a, Some b => <[i := b]> (<[j := a]> h)
    | _, _ => h
    end.

  (** utils/priority-queue.go:48-57 [up].  (j - 1) / 2 is 0 for j = 0 both in Go
      (truncation of -1/2) and here.  [fuel] bounds the iterations: j + 1 suffice. *)
  Fixpoint up (fuel : nat) (h : list A) (j : nat) : list A :=
    match fuel with
    | O => h
    | S f =>
        let i := (j - 1) / 2 in
        if (i =? j) || negb (less_at h j i) then h
        else up f (swap h i j) i
    end.

  (** utils/priority-queue.go:59-77 [down]; returns the slice and the final
      position ([i > i0] is computed by the caller).  int overflow of 2*i+1 is not
      modelled (slices are shorter than 2^62).  n iterations suffice. *)
  Fixpoint down (fuel : nat) (h : list A) (i n : nat) : list A * nat :=
    match fuel with
    | O => (h, i)
    | S f =>
        let j1 := 2 * i + 1 in
        if n <=? j1 then (h, i)
        else
          let j2 := j1 + 1 in
          let j := if (j2 <? n) && less_at h j2 j1 then j2 else j1 in
          if negb (less_at h j i) then (h, i)
          else down f (swap h i j) j n
    end.

  (** utils/priority-queue.go:13-18 [Init]: i from n/2 - 1 down to 0. *)
  Fixpoint init_loop (k : nat) (h : list A) : list A :=
    match k with
    | O => h
    | S i => init_loop i (fst (down (length h) h i (length h)))
    end.
  Definition pq_init (h : list A) : list A := init_loop (length h / 2) h.

  (** utils/priority-queue.go:22-25 [Push]. *)
  Definition push (h : list A) (x : A) : list A :=
    let h := h ++ [x] in
    up (length h) h (length h - 1).

  (** utils/priority-queue.go:29-38 [Pop]; [None] is the index panic on an empty heap. *)
  Definition pop (h : list A) : option (A * list A) :=
    match length h with
    | O => None
    | S n =>
        let h := swap h 0 n in
        let h := fst (down n h 0 n) in
        match h !! n with
        | Some item => Some (item, take n h)
        | None => None
        end
    end.

  (** utils/priority-queue.go:42-46 [Fix]. *)
  Definition fix_at (h : list A) (i : nat) : list A :=
    let (h', i') := down (length h) h i (length h) in
    if i <? i' then h' else up (S i) h' i.

  (** One API call ([Peek] is the read [h[0]]; [PqFix i x] is [h[i] = x; h.Fix(i)]). *)
  Definition pq_exec (h : list A) (o : pq_op) : list A * pq_res :=
    match o with
    | PqPush x => (push h x, PqUnit)
    | PqPop => match pop h with Some (x, h') => (h', PqElem x) | None => (h, PqPanic) end
    | PqPeek => match h !! 0 with Some x => (h, PqElem x) | None => (h, PqPanic) end
    | PqFix i x =>
        match h !! i with
        | Some old => (fix_at (<[i := x]> h) i, PqElem old)
        | None => (h, PqPanic)
        end
    end.

  Fixpoint pq_run (h : list A) (os : list pq_op) : list A * list pq_res :=
    match os with
    | [] => (h, [])
    | o :: os =>
        match pq_exec h o with
        | (h1, PqPanic) => (h1, [PqPanic])
        | (h1, r) => let (h2, rs) := pq_run h1 os in (h2, r :: rs)
        end
    end.

  (** A user loop that pops until the heap is empty. *)
  Fixpoint pop_all (fuel : nat) (h : list A) : list A :=
    match fuel with
    | O => []
    | S f => match pop h with Some (x, h') => x :: pop_all f h' | None => [] end
    end.
End model.

(** utils/priority-queue.go:89-105 [BinarySearchIdxFunc]; [cmp h] is
    [cmp(h, target)].  fuel n + 1 suffices; [uint(i+j) >> 1] is (i+j)/2. *)
Fixpoint bsearch_loop (fuel : nat) (cmp : nat -> Z) (i j : nat) : nat :=
  match fuel with
  | O => i
  | S f =>
      if i <? j then
        let h := (i + j) / 2 in
        if (cmp h <? 0)%Z then bsearch_loop f cmp (h + 1) j
        else bsearch_loop f cmp i h
      else i
  end.
Definition bsearch (n : nat) (cmp : nat -> Z) : nat * bool :=
  let i := bsearch_loop n cmp 0 n in
  (i, (i <? n) && (cmp i =? 0)%Z).
