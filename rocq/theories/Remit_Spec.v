(** What the graph threads are to receive for a given sequence of emitted events, and when a
    query is to be asked. *)
From Coq Require Import NArith List.
From Verif Require Import Load_Spec.
Import ListNotations.
Open Scope N_scope.

Section spec.
  Context {P : Type}.
  (** Number of added edges into [d]. *)
  Definition adds_to (d : N) (l : list (sev P)) : nat :=
    length (filter (fun e => ((kind e =? ADD) && (dst e =? d))%bool) l).
  (** The position an event gets when [before] was emitted before it. *)
  Definition pos_after (before : list (sev P)) (e : sev P) : N :=
    if kind e =? ADD then N.of_nat (adds_to (dst e) before) mod 2 ^ 32 else 2 ^ 32 - 1.
  Fixpoint deliver_from (before l : list (sev P)) : list (sev P * N) :=
    match l with
    | [] => []
    | e :: l => (e, pos_after before e) :: deliver_from (before ++ [e]) l
    end.
  (** Every event with its position. *)
  Definition deliver (l : list (sev P)) : list (sev P * N) := deliver_from [] l.
  (** Of these, the ones whose source belongs to thread [t] of [nthr]. *)
  Definition share (nthr t : N) (l : list (sev P * N)) : list (sev P * N) :=
    filter (fun x => src (fst x) mod nthr =? t) l.
End spec.

(** Queries by event count: after event number k for k = interval, 2*interval, ... *)
Definition count_points (interval n : N) (qs : list N) : Prop :=
  (forall k, In k qs <-> 1 <= k <= n /\ exists j, k = j * interval) /\
  (forall a x b y c, qs = a ++ x :: b ++ y :: c -> x < y).

(** Queries by time: [time_points interval ts qs]: going through the timestamps [ts], a query
    is asked at exactly those listed in [qs]: the first that reaches [interval], then each
    time the first that lies at least [interval] after the previous query's. *)
Inductive time_points (interval : N) : N -> list N -> list N -> Prop :=
| tp_end target quiet : Forall (fun t => t < target) quiet -> time_points interval target quiet []
| tp_query target quiet t rest qs : Forall (fun t => t < target) quiet -> target <= t ->
    time_points interval (t + interval) rest qs ->
    time_points interval target (quiet ++ t :: rest) (t :: qs).
