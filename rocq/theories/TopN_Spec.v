(** What "the N largest entries of an array" means. *)
From Coq Require Import List Sorted.
Import ListNotations.

Section spec.
  Context {A : Type} (lt : A -> A -> bool).

  Record top_n (arr : list A) (n : nat) (res : list (nat * A)) : Prop := {
    tn_count : length res = Nat.min n (length arr);
    tn_distinct : NoDup (map fst res);
    tn_values : forall i v, In (i, v) res -> nth_error arr i = Some v;
    tn_descending : StronglySorted (fun a b => lt (snd a) (snd b) = false) res;
    tn_largest : forall j w, nth_error arr j = Some w -> ~ In j (map fst res) ->
                 forall i v, In (i, v) res -> lt v w = false }.
End spec.
