(** A stream that adds and deletes edges: what is left after a prefix of it. *)
From Verif Require Import Base.
Open Scope nat_scope.

(** An event: a source, and an edge (a destination and a property) to be added, or the destination
    of one to be deleted.  What happens at [v] in the events [l], in order. *)
Inductive change (E : Type) := Plus (e : nat * E) | Minus (d : nat).
Arguments Plus {E} _. Arguments Minus {E} _.
Definition changes {E} (l : list (nat * change E)) (v : nat) : list (change E) :=
  map snd (List.filter (fun x => fst x =? v) l).

(** Deleting takes the oldest edge with this destination; there has to be one. *)
Fixpoint remove_oldest {E} (d : nat) (l : list (nat * E)) : option (list (nat * E)) :=
  match l with
  | [] => None
  | e :: l => if fst e =? d then Some l else option_map (cons e) (remove_oldest d l)
  end.
Fixpoint after {E} (l : list (nat * E)) (cs : list (change E)) : option (list (nat * E)) :=
  match cs with
  | [] => Some l
  | Plus e :: cs => after (l ++ [e]) cs
  | Minus d :: cs => match remove_oldest d l with Some l => after l cs | None => None end
  end.
(** What has ever been added, and how many edges go to [d]. *)
Definition added {E} (cs : list (change E)) : list (nat * E) := flat_map (fun c => match c with Plus e => [e] | Minus _ => [] end) cs.
Definition to {E} (d : nat) (l : list (nat * E)) : nat := length (List.filter (fun e => fst e =? d) l).
Definition same {E} (l l' : list (nat * E)) : Prop := forall d, to d l = to d l'.
