(** What the final PageRank scores should satisfy. *)
From Verif Require Import Base RBO_Spec.
From Coq Require Import QArith Qcanon.
Open Scope nat_scope.

Fixpoint lsum (l : list Qc) : Qc := match l with [] => 0%Qc | x :: r => (x + lsum r)%Qc end.
(** The sum a result is checked by: of the scores (flow, score), plus the flow left over, per
    vertex. *)
Definition score_total (l : list (Qc * Qc)) : Qc := (lsum (map snd l) + lsum (map fst l) / inject_nat (length l))%Qc.

(** The graph on the vertices below [N] in which every vertex without edges leads to all others. *)
Definition joined (N : nat) (out : nat -> list nat) (w : nat) : list nat :=
  match out w with [] => List.filter (fun v => negb (v =? w)) (seq 0 N) | l => l end.
