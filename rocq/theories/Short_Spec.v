(** Files whose lines may have too few words: what the loaders make of them. *)
From Coq Require Import NArith List PeanoNat.
From Verif Require Import IO_Spec Load_Spec.
Import ListNotations.
Open Scope N_scope.

(** [loose lines wss]: the edge lines of [lines], in order, split into words; every line is
    non-empty, an edge line has at most five words, and its first two words, if it has
    them, are numbers. *)
Inductive loose : list (list N) -> list (list (list N)) -> Prop :=
| lo_nil : loose [] []
| lo_comment l ls wss : comment l -> loose ls wss -> loose (l :: ls) wss
| lo_edge l ls ws wss : l <> [] -> ~ comment l -> Forall (fun b => b < 256) l -> splits l ws ->
    (length ws <= 5)%nat -> Forall digit (nth 0 ws []) -> Forall digit (nth 1 ws []) ->
    loose ls wss -> loose (l :: ls) (ws :: wss).

(** The word at place [j] of the last of the first [c] edge lines that is loader [i]'s
    (every [m]-th line is) and has a word at that place; empty if there is none. *)
Fixpoint last_word (m : nat) (wss : list (list (list N))) (i j c : nat) : list N :=
  match c with
  | O => []
  | S c =>
      let ws := nth c wss [] in
      if ((c mod m =? i)%nat && (j <? length ws)%nat)%bool then nth j ws [] else last_word m wss i j c
  end.
(** The [k]-th edge line, filled up from the earlier lines of the same loader. *)
Definition filled_line (m : nat) (wss : list (list (list N))) (k : nat) : list (list N) :=
  map (fun j => last_word m wss (k mod m) j (S k)) (seq 0 5).
Definition filled (m : nat) (wss : list (list (list N))) : list (list (list N)) :=
  map (filled_line m wss) (seq 0 (length wss)).
