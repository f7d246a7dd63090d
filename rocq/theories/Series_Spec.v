(** What a table of a time series of ranks should show, and what the comparison of two
    colourings should count. *)
From Coq Require Import List NArith QArith Qcanon.
Import ListNotations.
Open Scope Qc_scope.

(** One entry: raw ids with values.  The cell of vertex [c] shows [m]. *)
Definition shows (entry : list (N * Qc)) (c : N) (m : Qc) : Prop := In (c, m) entry /\ m <> 0.
(** [x] is the change in percent points per day between values [a] and [b] at times [ta] and
    [tb] (in seconds). *)
Definition per_day (a b ta tb x : Qc) : Prop := x * (tb - ta) = Q2Qc 100 * (b - a) * Q2Qc 86400.

(** Vertices with a colour in both colourings: [n] of them, [same] with the same colour. *)
Definition agree (cur prev : list (N * N)) (v : N) : Prop := exists c, In (v, c) cur /\ In (v, c) prev.
Definition both (cur prev : list (N * N)) (v : N) : Prop := exists c d, In (v, c) cur /\ In (v, d) prev.
Definition counts (p : N -> Prop) (n : nat) : Prop := exists l, NoDup l /\ (forall v, In v l <-> p v) /\ length l = n.
