(** The checks of cmd/lp-temporal-paths/correctness.go: OnCheckCorrectness (lines 74-156) and
    OnOracleCompare (lines 14-72).

    EXTEND_TO_EDGE_END is the constant true, so the second part of OnCheckCorrectness (line 141)
    is always done and BasicTraversalMin (lines 158-330) is never called (line 159).  [false] is a
    panic.  Not modelled: the order in which the threads check, and what is printed. *)
From Verif Require Import Base Window_Model Check_Model.
Open Scope N_scope.

(** Lines 83-101: where the window that [w] provides over the edge ends; [None] for an edge that cannot be traversed. *)
Definition provides (w : path) (eS eE : N) : option N :=
  if eS <=? p_start w then None
  else if eE <? eS then None
  else let e := if eE <? p_end w then eE else p_end w in if e <=? eS then None else Some e.
(** Lines 104-124: a window of the target that is worse than what could be provided. *)
Definition worse (w : path) (eS e : N) (t : path) : bool :=
  negb (p_end w <=? p_start t) && negb (p_end w <? p_end t) && (eS <? p_start t) && (p_end t <=? e).
(** Lines 81-127.  Edges are (destination, ((start, end), position)) as in Path_Model. *)
Definition nbrs_fine (win : nat -> list path) (ws : list path) (es : list (nat * (N * N * nat))) : bool :=
  forallb (fun w => forallb (fun '(d, (eS, en, _)) =>
    match provides w eS (extent en) with
    | None => true
    | Some e => forallb (fun t => negb (worse w eS e t)) (win d)
    end) es) ws.
(** Lines 130-139, 143-152: pairs of different indices. *)
Definition no_pair (bad : path -> path -> bool) (ws : list path) : bool :=
  forallb (fun i => forallb (fun j => (i =? j)%nat ||
    match ws !! i, ws !! j with Some a, Some b => negb (bad a b) | _, _ => true end) (seq 0 (length ws))) (seq 0 (length ws)).
Definition inside (a b : path) : bool := (p_start b <=? p_start a) && (p_end a <=? p_end b).
Definition joins (a b : path) : bool := (p_start b <=? p_start a) && (p_start a <? p_end b).
Definition tp_check (M : nat) (es : nat -> list (nat * (N * N * nat))) (win : nat -> list path) : bool :=
  all M (fun v => nbrs_fine win (win v) (es v) && no_pair inside (win v) && no_pair joins (win v)).

(** Lines 25-64: the numbers of windows, then the starts and the ends. *)
Definition tp_compare (M : nat) (oracle given : nat -> list path) : bool :=
  all M (fun v => (length (oracle v) =? length (given v))%nat &&
    forallb (fun '(a, b) => (p_start a =? p_start b) && (p_end a =? p_end b)) (List.combine (oracle v) (given v))).
