(** Colouring by messages only; [proper] and [greedy] are those of Colour_Spec.v and Wait_Spec.v. *)
From Verif Require Import Base Colour_Spec Wait_Spec.

(** The input lists undirected edges.  For a vertex, in the order of the input: the other ends of its
    edges.  An edge from a vertex to itself counts twice. *)
Fixpoint mentions (lines : list (nat * nat)) (v : nat) : list nat :=
  match lines with
  | [] => []
  | (x, y) :: l =>
      (if (x =? v)%nat then [y] else []) ++ (if (y =? v)%nat then [x] else []) ++ mentions l v
  end.
(** An edge of the input joins the two. *)
Definition joined (lines : list (nat * nat)) (u v : nat) : Prop := (u, v) ∈ lines \/ (v, u) ∈ lines.
Definition vertex (lines : list (nat * nat)) (v : nat) : Prop := exists u, joined lines u v.
Definition no_loops (lines : list (nat * nat)) : Prop := forall v, (v, v) ∉ lines.
(** Neighbours have different colours. *)
Definition coloured (lines : list (nat * nat)) (col : nat -> N) : Prop :=
  forall u v, joined lines u v -> col u <> col v.
(** Every vertex has the smallest colour that no neighbour before it has. *)
Definition greedily (first : nat -> nat -> bool) (lines : list (nat * nat)) (col : nat -> N) : Prop :=
  forall v, vertex lines v -> smallest_unused (fun c => exists u, joined lines u v /\ first u v = true /\ c = col u) (col v).
