(** Statistics of a graph, independent of how the program stores or counts it. *)
From Coq Require Import List ZArith NArith Permutation.
From Verif Require Import Helpers_Spec.
Import ListNotations.
Open Scope N_scope.

(** How many entries of [l] satisfy [f]. *)
Definition count {A} (f : A -> bool) (l : list A) : N := N.of_nat (length (List.filter f l)).

(** Edges are pairs of ids; the same pair may occur several times. *)
Definition outdeg (links : list (N * N)) (u : N) : N := count (fun e => fst e =? u) links.
Definition indeg (links : list (N * N)) (u : N) : N := count (fun e => snd e =? u) links.

(** [m] is the greatest entry of [l], 0 if there is none. *)
Definition greatest (l : list N) (m : N) : Prop := (forall x, In x l -> x <= m) /\ (In m l \/ l = [] /\ m = 0).

(** What the program calls the median (C17): the upper middle entry for an even
    length; for an odd length, the truncated mean of the middle entry and the one
    below it. *)
Definition middle (l : list N) (m : N) : Prop :=
  let z := map Z.of_N l in let k := (length l / 2)%nat in
  (l = [] /\ m = 0) \/ (exists x, l = [x] /\ m = x) \/
  ((2 <= length l)%nat /\ exists lo hi, kth z (k - 1) (Z.of_N lo) /\ kth z k (Z.of_N hi) /\
     m = if Nat.even (length l) then hi else (lo + hi) / 2).

(** Two graphs are the same: the same ids and, between any two, as many edges. *)
Definition same_graph (ids1 : list N) (l1 : list (N * N)) (ids2 : list N) (l2 : list (N * N)) : Prop :=
  (forall u, In u ids1 <-> In u ids2) /\ Permutation l1 l2.
