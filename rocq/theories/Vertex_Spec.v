(** Vertex identifiers and enumeration, without bit operations. *)
From Coq Require Import NArith List.
Import ListNotations.

(** Thread [t], offset [i]: thread bits on top of 27 offset bits. *)
Definition packed (t i : N) : N := (t * 2 ^ 27 + i)%N.

(** All vertices, thread by thread: [counts] are the numbers of vertices per thread. *)
Fixpoint all_vertices_from (t : nat) (counts : list nat) : list (N * N) :=
  match counts with
  | [] => []
  | n :: rest => map (fun i => (N.of_nat t, N.of_nat i)) (seq 0 n) ++ all_vertices_from (S t) rest
  end.
Definition all_vertices (counts : list nat) : list (N * N) := all_vertices_from 0 counts.

(** First occurrences, in order, of a list of raw ids. *)
Fixpoint firsts (seen l : list N) : list N :=
  match l with
  | [] => []
  | x :: l => if existsb (N.eqb x) seen then firsts seen l else x :: firsts (x :: seen) l
  end.
