(** What a batch of topology events is to do to the out-edge lists.  Nothing here refers to the
    code. *)
From Coq Require Import NArith List.
Import ListNotations.
Open Scope N_scope.

(** Grouping: the distinct sources of a batch in order of first appearance, and the places of
    the batch at which a source occurs. *)
Fixpoint firsts (seen ss : list N) : list N :=
  match ss with
  | [] => []
  | s :: ss => if existsb (N.eqb s) seen then firsts seen ss else s :: firsts (s :: seen) ss
  end.
Fixpoint places_from (i : nat) (s : N) (ss : list N) : list nat :=
  match ss with
  | [] => []
  | s' :: ss => if s' =? s then i :: places_from (S i) s ss else places_from (S i) s ss
  end.
Definition places (s : N) (ss : list N) : list nat := places_from 0 s ss.

Section spec.
  (** Edges with a destination. *)
  Context {A : Type} (to : A -> N).

  Inductive change := Append (a : A) | Remove (d : N).

  (** FIFO deletion: the first edge to [d] goes, the rest keeps its order. *)
  Fixpoint remove_first (d : N) (l : list A) : option (list A) :=
    match l with
    | [] => None
    | a :: l => if to a =? d then Some l else option_map (cons a) (remove_first d l)
    end.
  Fixpoint fifo (l : list A) (cs : list change) : option (list A) :=
    match cs with
    | [] => Some l
    | Append a :: cs => fifo (l ++ [a]) cs
    | Remove d :: cs => match remove_first d l with Some l => fifo l cs | None => None end
    end.

  Definition count_to (d : N) (l : list A) : nat := length (filter (fun a => to a =? d) l).

  (** [split m l]: the elements of [l] selected by the mask, and the others. *)
  Definition picked (b : bool) (m : list bool) (l : list A) : list A :=
    map snd (filter (fun x => Bool.eqb (fst x) b) (combine m l)).

  (** What the algorithm is told: the list as it is after some edges were appended at [start], or
      the edges that have gone (in list order) and the list without them. *)
  Inductive report := Added (start : nat) (now : list A) | Deleted (gone now : list A).
  Fixpoint reported (l : list A) (rs : list report) (l' : list A) : Prop :=
    match rs with
    | [] => l' = l
    | Added k now :: rs => k = length l /\ (k < length now)%nat /\ firstn k now = l /\ reported now rs l'
    | Deleted gone now :: rs =>
        (exists m, length m = length l /\ gone = picked true m l /\ now = picked false m l) /\ gone <> [] /\ reported now rs l'
    end.
End spec.
Arguments change : clear implicits.
Arguments report : clear implicits.

(** Sliding window: of the edges added so far (source, timestamp, edge), those of [v] still in
    the window of length [w] at time [now]. *)
Definition in_window {A : Type} (w now v : N) (l : list (N * N * A)) : list A :=
  map snd (filter (fun x => andb (fst (fst x) =? v) (now <? snd (fst x) + w)) l).

Section orderly.
  Context {A : Type} (to : A -> N).
  (** A sequence of changes is orderly for an edge list if, whenever the k-th deletion of a
      consecutive run of deletions names the destination of the edge that stood k-th when the run
      began, the run has by then asked for all edges to that destination before it. *)
  Fixpoint orderly_from (base : list A) (asked : list N) (cur : list A) (cs : list (change A)) : Prop :=
    match cs with
    | [] => True
    | Append a :: cs => orderly_from (cur ++ [a]) [] (cur ++ [a]) cs
    | Remove d :: cs =>
        (forall e, nth_error base (length asked) = Some e -> to e = d ->
           (count_to to d (firstn (length asked) base) <= count_occ N.eq_dec asked d)%nat) /\
        match remove_first to d cur with
        | Some cur => orderly_from base (asked ++ [d]) cur cs
        | None => True
        end
    end.
  Definition orderly (l : list A) (cs : list (change A)) : Prop := orderly_from l [] l cs.
End orderly.

(** Edges with an end time are never removed; a deletion ends one of them. *)
Section ending.
  Context {A : Type} (to start : A -> N) (ended : A -> bool) (finish : N -> A -> A).
  Inductive tchange := TAppend (a : A) | TEnd (d s t : N).
  (** The first edge satisfying [p] is given the end time [t]. *)
  Fixpoint end_first (p : A -> bool) (t : N) (l : list A) : option (list A) :=
    match l with
    | [] => None
    | a :: l => if p a then Some (finish t a :: l) else option_map (cons a) (end_first p t l)
    end.
  (** The oldest edge not yet ended, if it goes to [d]; else the first one to [d] that was
      started at [s]. *)
  Definition end_one (d s t : N) (l : list A) : option (list A) :=
    match find (fun a => negb (ended a)) l with
    | None => None
    | Some a =>
        if to a =? d then end_first (fun a => negb (ended a)) t l
        else end_first (fun a => andb (andb (to a =? d) (negb (ended a))) (start a =? s)) t l
    end.
  Fixpoint ending (l : list A) (cs : list tchange) : option (list A) :=
    match cs with
    | [] => Some l
    | TAppend a :: cs => ending (l ++ [a]) cs
    | TEnd d s t :: cs => match end_one d s t l with Some l => ending l cs | None => None end
    end.
  Definition open_to (d : N) (l : list A) : nat := length (filter (fun a => andb (to a =? d) (negb (ended a))) l).
End ending.
Arguments tchange : clear implicits.
