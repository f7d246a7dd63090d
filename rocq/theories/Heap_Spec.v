(** What a user of a priority queue relies on: a bag of elements from which a
    minimum can be looked at and removed.  No mention of arrays or heap order. *)
From Coq Require Import List Permutation.
Import ListNotations.

Section spec.
  Context {A : Type} (less : A -> A -> bool).

  (** [less] is a strict weak order. *)
  Record weak_order : Prop := {
    wo_asym : forall a b, less a b = true -> less b a = false;
    wo_trans : forall a b c, less b a = false -> less c b = false -> less c a = false }.

  Definition is_min (x : A) (bag : list A) : Prop :=
    In x bag /\ forall y, In y bag -> less y x = false.

  Inductive pq_op :=
  | PqPush (x : A)          (* h.Push(x) *)
  | PqPop                   (* h.Pop() *)
  | PqPeek                  (* h[0] *)
  | PqFix (i : nat) (x : A) (* h[i] = x; h.Fix(i) *).

  (** Result: the popped / seen / overwritten element, or a panic. *)
  Inductive pq_res := PqUnit | PqElem (x : A) | PqPanic.

  Inductive pq_step : list A -> pq_op -> pq_res -> list A -> Prop :=
  | ps_push bag x bag' : Permutation bag' (x :: bag) -> pq_step bag (PqPush x) PqUnit bag'
  | ps_pop bag x bag' : is_min x bag -> Permutation bag (x :: bag') ->
      pq_step bag PqPop (PqElem x) bag'
  | ps_pop_empty : pq_step [] PqPop PqPanic []
  | ps_peek bag x bag' : is_min x bag -> Permutation bag bag' ->
      pq_step bag PqPeek (PqElem x) bag'
  | ps_peek_empty : pq_step [] PqPeek PqPanic []
  | ps_fix bag i old x rest bag' : i < length bag -> (i = 0 -> is_min old bag) ->
      Permutation bag (old :: rest) -> Permutation bag' (x :: rest) ->
      pq_step bag (PqFix i x) (PqElem old) bag'
  | ps_fix_out bag i x : length bag <= i -> pq_step bag (PqFix i x) PqPanic bag.

  (** After a panic the history stops. *)
  Inductive pq_steps : list A -> list pq_op -> list pq_res -> list A -> Prop :=
  | pss_nil bag : pq_steps bag [] [] bag
  | pss_panic bag o os bag' : pq_step bag o PqPanic bag' -> pq_steps bag (o :: os) [PqPanic] bag'
  | pss_cons bag o r os rs bag1 bag2 : r <> PqPanic ->
      pq_step bag o r bag1 -> pq_steps bag1 os rs bag2 ->
      pq_steps bag (o :: os) (r :: rs) bag2.
End spec.
Arguments PqPush {A}. Arguments PqPop {A}. Arguments PqPeek {A}. Arguments PqFix {A}.
Arguments PqUnit {A}. Arguments PqElem {A}. Arguments PqPanic {A}.
