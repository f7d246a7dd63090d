(** Shared imports and small list helpers used by every area. *)
From Coq Require Export NArith ZArith Lia Bool List Permutation Sorted.
From Coq Require Export ZifyBool ZifyNat ZifyN.
From stdpp Require Export base list numbers option.
Ltac Zify.zify_post_hook ::= Z.div_mod_to_equations.

(** Go's [min]-free array read with an out-of-range panic as [None] is written
    [l !! i]; an array write is [<[i:=x]> l] (identity when out of range, so
    models that can go out of range test the bound explicitly). *)

(** Machine word sizes. *)
Definition w32 : N := (2 ^ 32)%N.
Definition w64 : N := (2 ^ 64)%N.
Lemma w32_val : w32 = 4294967296%N.
Proof. reflexivity. Qed.
Lemma w64_val : w64 = 18446744073709551616%N.
Proof. reflexivity. Qed.
Ltac wordlia := rewrite ?w32_val, ?w64_val in *; lia.

Global Arguments N.shiftl : simpl never.
Global Arguments N.shiftr : simpl never.
Global Arguments N.lor : simpl never.
Global Arguments N.land : simpl never.
Global Arguments N.modulo : simpl never.
Global Arguments N.div : simpl never.
Global Arguments N.pow : simpl never.

Lemma nth_error_lookup {A} (l : list A) (i : nat) : nth_error l i = l !! i.
Proof. revert i. induction l as [|x l IH]; intros [|i]; simpl; auto. Qed.
Global Arguments Nat.div : simpl never.
Global Arguments Nat.modulo : simpl never.
