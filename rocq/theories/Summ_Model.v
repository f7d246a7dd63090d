(** C95: the summaries printed during and after a run: utils/sorting.go:11-62, the line with the threads' states
    (graph/run-dynamic.go:56-75), the colour distribution (cmd/lp-colouring/main.go:18-35, colouring-msg.go:156-173). *)
From Verif Require Import Base.
Open Scope nat_scope.

(** sort.Stable for up to 20 elements (the one caller has 9) is an insertion sort: the element at [i] is swapped with its left
    neighbour as long as Less(j, j-1).  [rp]: the elements left of it, the nearest first.  For more elements sort.Stable merges sorted
    blocks of 20; C95_order_unique covers that: only its contract is used. *)
Section sort.
Context {T : Type} (lt : T -> T -> bool) (key : nat -> T).
Fixpoint sink (x : nat) (rp : list nat) : list nat :=
  match rp with
  | [] => [x]
  | y :: r => if lt (key x) (key y) then y :: sink x r else x :: rp
  end.
(** sorting.go:23-29 (Init: indexes 0 .. size-1) and 46-62; [lt] is Less on the keys (< in lines 37, > in line 45). *)
Definition give_indexes (n : nat) : list nat := rev (fold_left (fun rp x => sink x rp) (seq 0 n) []).
End sort.
Definition largest_first (input : list nat) : list nat := give_indexes (fun x y => y <? x) (fun i => nth i input 0) (length input).
Definition smallest_first (input : list nat) : list nat := give_indexes (fun x y => x <? y) (fun i => nth i input 0) (length input).

(** a[i]++; None: index out of range. *)
Fixpoint bump (a : list nat) (i : nat) : option (list nat) :=
  match a, i with
  | [], _ => None
  | c :: a', 0 => Some (S c :: a')
  | c :: a', S i' => match bump a' i' with Some a'' => Some (c :: a'') | None => None end
  end.
Definition bump_all (a : list nat) (l : list nat) : option (list nat) :=
  fold_left (fun o x => match o with Some a => bump a x | None => None end) l (Some a).

(** run-dynamic.go:56-75 with the statuses' numbers of graph.go:218-228 (REMIT = 0 .. DONE = 8): (status, count) as printed, in order. *)
Definition DONE : nat := 8.
Definition status_line (statuses : list nat) : option (list (nat * nat)) :=
  match bump_all (repeat 0 (DONE + 1)) statuses with
  | None => None
  | Some counts => Some (List.filter (fun p => 0 <? snd p) (map (fun i => (i, nth i counts 0)) (largest_first counts)))
  end.

(** lp-colouring/main.go:18-31, colouring-msg.go:156-169 (the same code): allColours and maxColour, the colours in the order of
    NodeForEachVertex. *)
Definition colour_one (o : option (list nat * nat)) (c : nat) : option (list nat * nat) :=
  match o with
  | None => None
  | Some (all, mx) =>
      let all := if length all <=? c then all ++ repeat 0 (c + 1 - length all) else all in
      match bump all c with None => None | Some all => Some (all, if mx <? c then c else mx) end
  end.
Definition colour_stat (colours : list nat) : option (list nat * nat) := fold_left colour_one colours (Some ([0], 0)).
(** main.go:34: maxColour+1 in uint32 and nColours, whose quotient is the Ratio. *)
Definition ratio (r : list nat * nat) : N * N := (((N.of_nat (snd r) + 1) mod 2 ^ 32)%N, N.of_nat (length (fst r))).
