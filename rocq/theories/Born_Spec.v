(** Which vertices a time-series entry should report: those that occur in the events the query
    has seen. *)
From Coq Require Import NArith List.
Import ListNotations.

(** Events as pairs (source, destination). *)
Definition occurs (l : list (N * N)) (v : N) : Prop := exists e, In e l /\ (fst e = v \/ snd e = v).
(** All of them, each once. *)
Definition vertices_of (l : list (N * N)) : list N := nodup N.eq_dec (flat_map (fun e => [fst e; snd e]) l).
(** Every event is followed by its reverse (an undirected stream): number 2i+1 is number 2i
    with the ends exchanged. *)
Definition paired (l : list (N * N)) : Prop :=
  forall i a b, nth_error l (2 * i) = Some (a, b) -> nth_error l (2 * i + 1) = Some (b, a).
