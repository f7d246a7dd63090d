(** The checks that the programs can run on their result (option -c): OnCheckCorrectness of
    cmd/lp-cc/main.go:11-31, cmd/lp-sssp/main.go:14-67, cmd/lp-sssp/sssp-msg.go:92-146,
    cmd/lp-colouring/main.go:37-77, cmd/lp-tc/main.go:11-28; and the comparison with the values of
    another graph, graph/oracle-compare.go:183-201.

    The vertices are 0, ..., M - 1.  [false] is a panic.  Not modelled: what is printed
    (counts, the longest path, the colours).  Distances are rationals; [rnd] is the rounding of an
    addition, as in Min_Model. *)
From Verif Require Import Base Helpers_Model.
From Coq Require Import QArith Qcanon.
Open Scope nat_scope.

Definition all (M : nat) (p : nat -> bool) : bool := forallb p (seq 0 M).

(** cmd/lp-cc/main.go:15-29; EMPTY_VAL is 2^32 - 1. *)
Definition cc_check (M : nat) (es : nat -> list (nat * unit)) (val : nat -> N) : bool :=
  all M (fun v => negb (val v =? 2 ^ 32 - 1)%N && forallb (fun e => (val (fst e) =? val v)%N) (es v)).

(** cmd/lp-sssp/main.go:46-61, sssp-msg.go:125-140.  [init]: what the vertex should have if the
    table of initial mail has it; the message variant expects 0 there whatever the table has. *)
Definition qeqb (x y : Qc) : bool := Qeq_bool x y.
Definition qltb (x y : Qc) : bool := negb (Qle_bool y x).
Definition sssp_check (rnd : Qc -> Qc) (top : Qc) (M : nat) (es : nat -> list (nat * Qc)) (init : nat -> option Qc) (val : nat -> Qc) : bool :=
  all M (fun v =>
    match init v with Some x => qeqb (val v) x | None => true end &&
    (qeqb (val v) top || forallb (fun e => negb (qltb (rnd (val v + snd e)%Qc) (val (fst e)))) (es v))).
Definition ssspm_check (rnd : Qc -> Qc) (top : Qc) (M : nat) (es : nat -> list (nat * Qc)) (init : nat -> option Qc) (val : nat -> Qc) : bool :=
  sssp_check rnd top M es (fun v => match init v with Some _ => Some 0%Qc | None => None end) val.

(** cmd/lp-colouring/main.go:38-75; EMPTY_VAL is (2^32 - 1) / 2; [indeg] is InEventPos.  Two
    adjacent vertices of one colour are a panic only if the edge back is there (lines 64-71). *)
Definition colour_check (M : nat) (es : nat -> list (nat * nat)) (indeg : nat -> nat) (col : nat -> N) : bool :=
  all M (fun u =>
    negb (col u =? (2 ^ 32 - 1) / 2)%N &&
    negb ((N.of_nat (length (es u)) <? col u)%N && (N.of_nat (indeg u) <? col u)%N) &&
    forallb (fun e => negb ((col u =? col (fst e))%N && negb (fst e =? u) && existsb (fun b => fst b =? u) (es (fst e)))) (es u)).

(** cmd/lp-tc/main.go:17-23. *)
Definition tc_check (M : nat) (edge_count update_at : nat -> nat) : bool := all M (fun v => update_at v =? edge_count v).

(** graph/oracle-compare.go:183-201, for values of [width] bits. *)
Definition oracle_compare (width : N) (M : nat) (oracle given : nat -> Z) : option (Z * Z * Z) :=
  result_compare width (map oracle (seq 0 M)) (map given (seq 0 M)).
