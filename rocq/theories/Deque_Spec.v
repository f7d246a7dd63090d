(** A double-ended queue is a list. *)
From Coq Require Import List.
Import ListNotations.

Section spec.
  Context {T : Type}.
  Inductive dq_op :=
  | PushFront (v : T) | PushBack (v : T)
  | FastSlowPushBack (v : T)          (* FastPushBack, and SlowPushBack if it failed *)
  | PopFront | TryUpdatePopFront      (* TryPopFront, and UpdatePopFront if it succeeded *)
  | PopBack | Front | Back | Len.
  Inductive dq_res := Done | Elem (v : T) | Empty (* zero value, false *) | Size (n : nat).

  Definition last_opt (l : list T) : option T :=
    match rev l with [] => None | x :: _ => Some x end.

  Definition dq_spec (l : list T) (o : dq_op) : list T * dq_res :=
    match o with
    | PushFront v => (v :: l, Done)
    | PushBack v | FastSlowPushBack v => (l ++ [v], Done)
    | PopFront | TryUpdatePopFront => match l with [] => ([], Empty) | x :: l => (l, Elem x) end
    | PopBack => match last_opt l with None => ([], Empty) | Some x => (removelast l, Elem x) end
    | Front => match l with [] => ([], Empty) | x :: _ => (l, Elem x) end
    | Back => match last_opt l with None => ([], Empty) | Some x => (l, Elem x) end
    | Len => (l, Size (length l))
    end.
  Fixpoint dq_spec_run (l : list T) (os : list dq_op) : list dq_res :=
    match os with
    | [] => []
    | o :: os => let (l', r) := dq_spec l o in r :: dq_spec_run l' os
    end.
End spec.
Arguments dq_op : clear implicits.
Arguments dq_res : clear implicits.
