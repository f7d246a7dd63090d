(** What a bounded queue is, independently of any implementation: a log of events, in the
    order in which they take effect, replayed on a list. *)
From Coq Require Import List NArith.
Import ListNotations.
Open Scope N_scope.

Section spec.
  Context {T : Type}.
  Inductive qev :=
  | EPut (v : T)        (* an item goes in *)
  | EFull (v : T)       (* an offer is refused *)
  | EGot (v : T)        (* an item comes out *)
  | EEmpty              (* the consumer is told "empty" *)
  | EClose              (* the producer closes *)
  | EChecked            (* a blocking get looked and saw nothing *)
  | EClosed             (* a blocking get is told "closed" *)
  | ESpace (n : N)      (* the producer is told how much space there is *)
  | EAvail (n : N).     (* the consumer is told how many items there are *)

  Inductive fifo_step (cap : N) : list T -> qev -> list T -> Prop :=
  | FPut q v : N.of_nat (length q) < cap -> fifo_step cap q (EPut v) (q ++ [v])
  | FFull q v : N.of_nat (length q) = cap -> fifo_step cap q (EFull v) q
  | FGot q v : fifo_step cap (v :: q) (EGot v) q
  | FEmpty : fifo_step cap [] EEmpty []
  | FChecked : fifo_step cap [] EChecked []
  | FClose q : fifo_step cap q EClose q
  | FClosed q : fifo_step cap q EClosed q
  | FSpace q n : (* one less than the free space, 2^64 - 1 when there is none *)
      (N.of_nat (length q) < cap /\ n = cap - 1 - N.of_nat (length q)) \/
      (N.of_nat (length q) = cap /\ n = 2 ^ 64 - 1) ->
      fifo_step cap q (ESpace n) q
  | FAvail q n : n = N.of_nat (length q) -> fifo_step cap q (EAvail n) q.
  Inductive fifo (cap : N) : list T -> list qev -> list T -> Prop :=
  | fifo_nil q : fifo cap q [] q
  | fifo_cons q e q1 es q2 : fifo_step cap q e q1 -> fifo cap q1 es q2 -> fifo cap q (e :: es) q2.

  (** The items that went in and those that came out. *)
  Definition puts (log : list qev) : list T :=
    flat_map (fun e => match e with EPut v => [v] | _ => [] end) log.
  Definition gots (log : list qev) : list T :=
    flat_map (fun e => match e with EGot v => [v] | _ => [] end) log.

  (** Calls of the two sides, and the event each may end in. *)
  Inductive pop := Offer (v : T) | Put (v : T) | Close | Space.
  Inductive cop := Accept | Get | Avail.
  Definition panswer (o : pop) (e : qev) : Prop :=
    match o with
    | Offer v => e = EPut v \/ e = EFull v
    | Put v => e = EPut v
    | Close => e = EClose
    | Space => exists n, e = ESpace n
    end.
  Definition canswer (o : cop) (e : qev) : Prop :=
    match o with
    | Accept => (exists v, e = EGot v) \/ e = EEmpty
    | Get => (exists v, e = EGot v) \/ e = EClosed
    | Avail => exists n, e = EAvail n
    end.
  Definition is_pev (e : qev) : bool :=
    match e with EPut _ | EFull _ | EClose | ESpace _ => true | _ => false end.
  Definition is_cev (e : qev) : bool :=
    match e with EGot _ | EEmpty | EClosed | EAvail _ => true | _ => false end.
  Definition answered {O} (ans : O -> qev -> Prop) (prog : list O) (evs : list qev) : Prop :=
    exists don rest, prog = don ++ rest /\ Forall2 ans don evs.
End spec.
Arguments qev : clear implicits.
Arguments pop : clear implicits.
