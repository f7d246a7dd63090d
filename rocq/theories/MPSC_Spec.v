(** Events of a queue with several producers, in the order in which they happen. *)
From Coq Require Import List NArith.
Import ListNotations.

Section spec.
  Context {T : Type}.
  Inductive mev :=
  | EStart (p : nat)                 (* producer p begins an offer *)
  | EClaim (p : nat) (v : T)         (* p takes the next ticket for item v *)
  | EDone (p : nat) (t : N) (v : T)  (* p's item is in its slot; the put returns *)
  | ERefuse (p : nat) (v : T)        (* p's offer is refused *)
  | EClose (p : nat)
  | EGot (v : T)                     (* the consumer receives v *)
  | EEmpty                           (* the consumer is told "nothing" *)
  | EChecked                         (* a blocking get looked and saw nothing *)
  | EClosed                          (* a blocking get is told "closed" *)
  | EAvail (n : N).                  (* the consumer is told how many items there are *)

  (** The tickets, in order: ticket number i is the i-th element. *)
  Definition claims (l : list mev) : list (nat * T) :=
    flat_map (fun e => match e with EClaim p v => [(p, v)] | _ => [] end) l.
  Definition gots (l : list mev) : list T :=
    flat_map (fun e => match e with EGot v => [v] | _ => [] end) l.
  Definition done_tickets (l : list mev) : list N :=
    flat_map (fun e => match e with EDone _ t _ => [t] | _ => [] end) l.

  Inductive mop := MOffer (v : T) | MPut (v : T) | MClose.
  Inductive mcop := MAccept | MGet | MAvail.
  Definition manswer (p : nat) (o : mop) (e : mev) : Prop :=
    match o with
    | MOffer v => (exists t, e = EDone p t v) \/ e = ERefuse p v
    | MPut v => exists t, e = EDone p t v
    | MClose => e = EClose p
    end.
  Definition mcanswer (o : mcop) (e : mev) : Prop :=
    match o with
    | MAccept => (exists v, e = EGot v) \/ e = EEmpty
    | MGet => (exists v, e = EGot v) \/ e = EClosed
    | MAvail => exists n, e = EAvail n
    end.
  (** The events that end a call of producer [p], resp. of the consumer. *)
  Definition ends_call (p : nat) (e : mev) : bool :=
    match e with
    | EDone p' _ _ | ERefuse p' _ | EClose p' => Nat.eqb p' p
    | _ => false
    end.
  Definition ends_ccall (e : mev) : bool :=
    match e with EGot _ | EEmpty | EClosed | EAvail _ => true | _ => false end.
  (** The items producer [p] has taken tickets for, and those it has finished putting. *)
  Definition claims_of (p : nat) (l : list mev) : list T :=
    map snd (filter (fun c => Nat.eqb (fst c) p) (claims l)).
  Definition dones_of (p : nat) (l : list mev) : list T :=
    flat_map (fun e => match e with EDone p' _ v => if Nat.eqb p' p then [v] else [] | _ => [] end) l.
  (** What a ticket queue of capacity [cap] may do next after history [l]: an item is finished
      once, under its own ticket, and only when fewer than [cap] tickets lie between it and
      the consumer; items are delivered in ticket order, after they are finished; "nothing"
      is only said when the next ticket is not finished; an offer is only refused when another
      producer took a ticket during it or all [cap] places are claimed; "closed" is only said
      after a close and after a look that saw nothing. *)
  Definition mjust (cap : N) (l : list mev) (e : mev) : Prop :=
    let got := N.of_nat (length (gots l)) in
    match e with
    | EDone p t v => nth_error (claims l) (N.to_nat t) = Some (p, v) /\ ~ In t (done_tickets l) /\ (t < got + cap)%N
    | EGot v => exists p, In (EDone p got v) l
    | EEmpty | EChecked => ~ In got (done_tickets l)
    | EAvail n => (N.of_nat (length (claims l)) < 2 ^ 64)%N -> n = (N.of_nat (length (claims l)) - got)%N
    | ERefuse p v => exists l1 l2, l = l1 ++ EStart p :: l2 /\
        Forall (fun e => e <> EStart p /\ ends_call p e = false) l2 /\
        (claims l2 <> [] \/ (got + cap <= N.of_nat (length (claims l)))%N)
    | EClosed => (exists p, In (EClose p) l) /\ exists l1 l2, l = l1 ++ EChecked :: l2 /\ gots l2 = []
    | _ => True
    end.
End spec.
Arguments mev : clear implicits.
Arguments mop : clear implicits.
