(** Model of the tables of time series: cmd/lp-pagerank/timeseries.go and the comparison of
    consecutive colourings in cmd/lp-colouring/timeseries.go.  Values are exact (Qc) instead of
    float64; rows are lists of cells instead of text. *)
From Verif Require Import Base RBO_Spec QcUtil Heap_Model TopN_Model.
From Coq Require Import QArith Qcanon.
Open Scope Qc_scope.

Definition qlt (a b : Qc) : bool := if Qclt_le_dec a b then true else false.
Definition is0 (x : Qc) : bool := if Qc_eq_dec x 0 then true else false.

(** cmd/lp-pagerank/timeseries.go:46-73 (not USE_INTEREST_ARRAY), [OnApplyTimeSeries]: [data] has the
    raw id and the mass of every vertex.  [res] has ten places from the start (62); the first
    [topN] of them are filled. *)
Definition places : nat := 10.
Definition wf_entry (data : list (N * Qc)) : option (list (N * Qc)) :=
  let topn := Nat.min places (length data) in
  match find_top_n qlt 0 (map snd data) topn with
  | None => None
  | Some ranking =>
      Some (map (fun x => (nth (fst x) (map fst data) 0%N, snd x)) ranking ++ repeat (0%N, 0) (places - length ranking))
  end.

(** 114-122: allVerticesMap and the header: the raw ids in order of first appearance. *)
Definition add_col (cols : list N) (e : N * Qc) : list N :=
  if existsb (N.eqb (fst e)) cols then cols else cols ++ [fst e].
Definition columns (db : list (list (N * Qc))) : list N := fold_left (fun cols entry => fold_left add_col entry cols) db [].

(** allVerticesMap[raw], for a raw id that is in the map. *)
Fixpoint col_of (cols : list N) (raw : N) : nat :=
  match cols with [] => 0 | c :: cols => if N.eqb c raw then 0 else S (col_of cols raw) end.
(** "for _, e := range entry: arr[allVerticesMap[e.First]] = e.Second" (154-156, 168-170, 181-183). *)
Definition fill (cols : list N) (arr : list Qc) (entry : list (N * Qc)) : list Qc :=
  fold_left (fun arr e => <[col_of cols (fst e) := snd e]> arr) entry arr.
Definition zeros (cols : list N) : list Qc := repeat 0 (length cols).

(** 137-139, 152-163: a row of the table without derivatives. *)
Definition wf_row (cols : list N) (entry : list (N * Qc)) : list (option Qc) :=
  map (fun x => if is0 x then None else Some x) (fill cols (zeros cols) entry).

(** 164-190: the rows with derivatives, for the entries from number [i] on; [prev]: the entry
    before, if any (its time is tsDB[i-1].Name).  [last], [curr]: the arrays of these names
    (allVerticesArrNext is all zero here). *)
Definition delta (tp tn l n : Qc) : Qc := (Q2Qc 100 * (n - l)) / ((tn - tp) / Q2Qc 3600 / Q2Qc 24).
Fixpoint dv_rows (cols : list N) (prev : option (Qc * list (N * Qc))) (last curr : list Qc) (db : list (Qc * list (N * Qc))) : list (option (list (option Qc))) :=
  match db with
  | [] => []
  | cur :: rest =>
      match rest with
      | [] => [None]                                           (* i = len(tsDB)-1: no cells *)
      | nxt :: _ =>
          let next := fill cols (zeros cols) (snd nxt) in
          let '(row, curr) :=
            match prev with
            | Some p => (map (fun ln => if (negb (is0 (snd ln)) && negb (is0 (fst ln)))%bool then Some (delta (fst p) (fst nxt) (fst ln) (snd ln)) else None)
                           (combine last next), curr)
            | None => ([], fill cols curr (snd cur))
            end in
          Some row :: dv_rows cols (Some cur) curr next rest
      end
  end.
Definition dv_table (db : list (Qc * list (N * Qc))) : list (option (list (option Qc))) :=
  let cols := columns (map snd db) in dv_rows cols None (zeros cols) (zeros cols) db.

(** cmd/lp-colouring/timeseries.go:152-166 and 175-190: [cur] and [prev] list the entries of the
    two maps in any order.  The percentage is [None] when it is 0/0. *)
Definition find_col (l : list (N * N)) (v : N) : option N :=
  option_map snd (List.find (fun e => N.eqb (fst e) v) l).
Definition same_diff (cur prev : list (N * N)) : nat * nat :=
  fold_left (fun sd e =>
    match find_col prev (fst e) with
    | Some c => if N.eqb (snd e) c then (S (fst sd), snd sd) else (fst sd, S (snd sd))
    | None => sd
    end) cur (0%nat, 0%nat).
Definition pct_same (cur prev : list (N * N)) : option Qc :=
  let '(same, diff) := same_diff cur prev in
  if Nat.eqb (same + diff) 0 then None else Some (inject_nat same * Q2Qc 100 / inject_nat (same + diff)).
