(** The graph a file of edges describes. *)
From Coq Require Import NArith List.
From Verif Require Import Load_Spec.
Import ListNotations.

(** The file has a line for the edge from [a] to [b]. *)
Definition file_edge (o : opts) (wss : list (list (list N))) (a b : N) : Prop := exists ws, In ws wss /\ ids o ws = (a, b).
(** The graph: in an undirected one, every line stands for both directions. *)
Definition graph_edge (o : opts) (wss : list (list (list N))) (a b : N) : Prop :=
  file_edge o wss a b \/ undirected o = true /\ file_edge o wss b a.
(** [a] and [b] are connected when a walk leads from one to the other. *)
Inductive connected (E : N -> N -> Prop) : N -> N -> Prop :=
| conn_refl a : connected E a a
| conn_step a b c : connected E a b -> E b c -> connected E a c.
(** The number of edges into [b]. *)
Definition in_degree (o : opts) (wss : list (list (list N))) (b : N) : nat :=
  length (filter (fun ws => N.eqb (snd (ids o ws)) b) wss) +
  if undirected o then length (filter (fun ws => N.eqb (fst (ids o ws)) b) wss) else 0.

(** Edges (a, b, w) with a time or a weight. *)
Definition event_edge {P T} (key : P -> T) (l : list (sev P)) (a b : N) (w : T) : Prop :=
  exists e, In e l /\ src e = a /\ dst e = b /\ key (prop e) = w.
(** One arrives at [v] at time [t] when walking from [x], starting after time 0, over edges of increasing times. *)
Inductive arrives (E : N -> N -> N -> Prop) (x : N) : N -> N -> Prop :=
| arr_first v t : E x v t -> (0 < t)%N -> arrives E x v t
| arr_next u v t t' : arrives E x u t -> E u v t' -> (t < t')%N -> arrives E x v t'.
(** Walks with their lengths. *)
From Coq Require Import QArith Qcanon.
Inductive route (E : N -> N -> Qc -> Prop) : N -> N -> Qc -> Prop :=
| route_nil a : route E a a 0%Qc
| route_snoc a b c w x : route E a b x -> E b c w -> route E a c (x + w)%Qc.
