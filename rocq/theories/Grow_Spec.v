(** Events of the growing queue, in the order in which they happen. *)
From Coq Require Import List NArith Bool.
Import ListNotations.

Section spec.
  Context {T : Type}.
  Inductive gev :=
  | GPut (v : T)            (* the item becomes visible *)
  | GFull (v : T)           (* an offer is refused *)
  | GClose
  | GGrow                   (* a new buffer of double size is published *)
  | GGot (v : T)
  | GEmpty                  (* Accept answers "nothing" *)
  | GClosed                 (* a blocking get answers "closed" *)
  | GIsClosed (b : bool)
  | GChecked                (* the consumer looked at its slot and saw no item *)
  | GLook                   (* ... and then looked whether the buffer has grown *)
  | GSwitch.                (* the consumer has moved to the new buffer *)

  Definition puts (l : list gev) : list T := flat_map (fun e => match e with GPut v => [v] | _ => [] end) l.
  Definition gots (l : list gev) : list T := flat_map (fun e => match e with GGot v => [v] | _ => [] end) l.
  Definition grows (l : list gev) : nat := length (filter (fun e => match e with GGrow => true | _ => false end) l).

  Inductive gop := GOOffer (v : T) | GOPut (v : T) | GOClose.
  Inductive gcop := GOAccept | GOGet | GOIsClosed.
  Definition ganswer (o : gop) (e : gev) : Prop :=
    match o with
    | GOOffer v => e = GPut v \/ e = GFull v
    | GOPut v => e = GPut v
    | GOClose => e = GClose
    end.
  Definition gcanswer (o : gcop) (e : gev) : Prop :=
    match o with
    | GOAccept => (exists v, e = GGot v) \/ e = GEmpty
    | GOGet => (exists v, e = GGot v) \/ e = GClosed
    | GOIsClosed => exists b, e = GIsClosed b
    end.
  Definition is_gpev (e : gev) : bool := match e with GPut _ | GFull _ | GClose => true | _ => false end.
  Definition is_gcev (e : gev) : bool := match e with GGot _ | GEmpty | GClosed | GIsClosed _ => true | _ => false end.

  (** What a queue that starts with capacity [cap] and may double [mg] times may do next after
      history [l]. *)
  Definition gjust (cap mg : N) (l : list gev) (e : gev) : Prop :=
    match e with
    | GGot v => exists rest, puts l = gots l ++ v :: rest
    | GClosed | GIsClosed true => puts l = gots l /\ In GClose l
    | GFull v => (N.of_nat (length (gots l)) + cap * 2 ^ N.of_nat (grows l) <= N.of_nat (length (puts l)))%N
    | GGrow => (N.of_nat (grows l) < mg)%N
    | _ => True
    end.

  (** The unlucky schedule: the consumer looks at its slot, sees nothing, and before it looks
      at the grown flag the producer puts at least one item into the old buffer and grows.
      [lost l] says that this has happened somewhere in [l]; the first component counts the
      items put since a look at the slot that is not yet followed by a look at the flag. *)
  Definition scan1 (st : option nat * bool) (e : gev) : option nat * bool :=
    match e with
    | GChecked => (Some O, snd st)
    | GLook => (None, snd st)
    | GPut _ => (option_map S (fst st), snd st)
    | GGrow => (fst st, snd st || match fst st with Some (S _) => true | _ => false end)
    | _ => st
    end.
  Definition scan (l : list gev) : option nat * bool := fold_left scan1 l (None, false).
  Definition lost (l : list gev) : bool := snd (scan l).
End spec.
Arguments gev : clear implicits.
Arguments gop : clear implicits.
