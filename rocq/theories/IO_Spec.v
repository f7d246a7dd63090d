(** Words, decimal numerals and lines of a byte string.  Bytes are [N] below 256. *)
From Coq Require Import NArith List.
Import ListNotations.
Open Scope N_scope.

(** Tab, line feed, vertical tab, form feed, carriage return, blank. *)
Definition space (b : N) : Prop := In b [9; 10; 11; 12; 13; 32].

(** [splits line ws]: [ws] are the maximal runs of non-space bytes of [line]. *)
Inductive splits : list N -> list (list N) -> Prop :=
| sp_blank s : Forall space s -> splits s []
| sp_last s w : Forall space s -> w <> [] -> Forall (fun b => ~ space b) w -> splits (s ++ w) [w]
| sp_cons s w c rest ws : Forall space s -> w <> [] -> Forall (fun b => ~ space b) w -> space c ->
    splits rest ws -> splits (s ++ w ++ c :: rest) (w :: ws).

(** Positional value of a string of ASCII digits. *)
Fixpoint decimal (l : list N) : N :=
  match l with
  | [] => 0
  | d :: l => (d - 48) * 10 ^ N.of_nat (length l) + decimal l
  end.
Definition digit (b : N) : Prop := 48 <= b <= 57.

(** Lines: separated by byte 10; a last line without terminator counts if non-empty. *)
Fixpoint lines_from (cur l : list N) : list (list N) :=
  match l with
  | [] => match cur with [] => [] | _ => [rev cur] end
  | c :: l => if c =? 10 then rev cur :: lines_from [] l else lines_from (c :: cur) l
  end.
Definition lines (l : list N) : list (list N) := lines_from [] l.
