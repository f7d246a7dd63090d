(** Model of graph/run-async.go:109-172 (ReceiveMessages, ProcessMessages).  The overflow buffer is
    the deque of Deque_Model.v.  The queue is a list; before every Accept, any number of
    notifications may have been put by other threads, and Accept may fail although the queue is not
    empty (a put that has claimed its slot but not yet filled it, see C12).  The array
    gt.Notifications is a list with an index panic.  [max] is MSG_MAX (graph/graph.go:35), which is
    also the length of that array (graph/graph.go:139).
    The test on the fill level of the queue (line 131) is an arbitrary boolean.  What the update
    does to a vertex is arbitrary; the field Activity is C32. *)
From Verif Require Import Base Deque_Spec Deque_Model.

Section recv.
Context {T U : Type} (zero : T) (update : U -> T -> U * N) (max : nat).

(** [arrived] and [handed] are not part of the program's state: all notifications put so far, and
    those for which OnUpdateVertex was called. [checks]: the calls of CheckTermination. *)
Record rst := Rst {
  buff : deque T; rq : list T; notifs : list T; cnt : nat; ust : U; recv : N; send : N;
  arrived : list T; handed : list T; checks : nat }.

(** What happens before and at a call of Accept. *)
Definition env := list (list T * bool).
Definition accept (q : list T) (e : env) : option T * list T * list T * env :=
  match e with
  | [] => (None, q, [], [])
  | (new, ok) :: e =>
      match q ++ new with
      | x :: q' => if ok then (Some x, q', new, e) else (None, q ++ new, new, e)
      | [] => (None, [], new, e)
      end
  end.

Definition put_notif (l : list T) (i : nat) (x : T) : option (list T) :=
  if i <? length l then Some (<[i := x]> l) else None.

(** Lines 112-119; [fuel] = max - algCount. *)
Fixpoint pop_loop (fuel : nat) (s : rst) : option rst :=
  match fuel with
  | O => Some s
  | S fuel =>
      match try_pop_front zero (buff s) with
      | None => None
      | Some (None, d) =>
          Some (Rst d (rq s) (notifs s) (cnt s) (ust s) (recv s) (send s) (arrived s) (handed s) (checks s))
      | Some (Some x, d) =>
          match update_pop_front d, put_notif (notifs s) (cnt s) x with
          | Some d, Some l =>
              pop_loop fuel (Rst d (rq s) l (S (cnt s)) (ust s) (recv s) (send s) (arrived s) (handed s) (checks s))
          | _, _ => None
          end
      end
  end.
(** Lines 123-129. *)
Fixpoint queue_loop (fuel : nat) (e : env) (s : rst) : option (rst * env) :=
  match fuel with
  | O => Some (s, e)
  | S fuel =>
      match accept (rq s) e with
      | (None, q, new, e) =>
          Some (Rst (buff s) q (notifs s) (cnt s) (ust s) (recv s) (send s) (arrived s ++ new) (handed s) (checks s), e)
      | (Some x, q, new, e) =>
          match put_notif (notifs s) (cnt s) x with
          | Some l => queue_loop fuel e
              (Rst (buff s) q l (S (cnt s)) (ust s) (recv s) (send s) (arrived s ++ new) (handed s) (checks s))
          | None => None
          end
      end
  end.
(** Lines 136-145; [fuel] is the number of Accepts described in [e], after which Accept fails. *)
Fixpoint drain_loop (fuel : nat) (e : env) (s : rst) : option rst :=
  match fuel with
  | O => Some s
  | S fuel =>
      match accept (rq s) e with
      | (None, q, new, e) =>
          Some (Rst (buff s) q (notifs s) (cnt s) (ust s) (recv s) (send s) (arrived s ++ new) (handed s) (checks s))
      | (Some x, q, new, e) =>
          match fast_slow_push_back zero (buff s) x with
          | Some d => drain_loop fuel e
              (Rst d q (notifs s) (cnt s) (ust s) (recv s) (send s) (arrived s ++ new) (handed s) (checks s))
          | None => None
          end
      end
  end.
(** Lines 109-148. *)
Definition receive (e : env) (full : bool) (s : rst) : option rst :=
  match (if dlen (buff s) =? 0 then Some s else pop_loop (max - cnt s) s) with
  | None => None
  | Some s =>
      match queue_loop (max - cnt s) e s with
      | None => None
      | Some (s, e) => if full then drain_loop (length e) e s else Some s
      end
  end.

(** Lines 155-161. *)
Fixpoint handle_loop (fuel i : nat) (sent : N) (s : rst) : option (rst * N) :=
  match fuel with
  | O => Some (s, sent)
  | S fuel =>
      match notifs s !! i with
      | None => None
      | Some x =>
          let '(u, k) := update (ust s) x in
          handle_loop fuel (S i) ((sent + k) mod w64)%N
            (Rst (buff s) (rq s) (notifs s) (cnt s) u (recv s) (send s) (arrived s) (handed s ++ [x]) (checks s))
      end
  end.
(** Lines 152-172, and the callers' algCount = 0 (run-async.go:226, run-dynamic.go:283). *)
Definition process (exitCheck : bool) (s : rst) : option rst :=
  match handle_loop (cnt s) 0 0%N s with
  | None => None
  | Some (s, sent) =>
      Some (if cnt s =? 0 then
              Rst (buff s) (rq s) (notifs s) 0 (ust s) (recv s) (send s) (arrived s) (handed s)
                (if exitCheck then S (checks s) else checks s)
            else
              Rst (buff s) (rq s) (notifs s) 0 (ust s) ((recv s + N.of_nat (cnt s)) mod w64)%N
                ((send s + sent) mod w64)%N (arrived s) (handed s) (checks s))
  end.

(** A thread calls ReceiveMessages any number of times between two calls of ProcessMessages
    (run-dynamic.go:197, 279; exactly once in run-async.go:214-215). *)
Inductive rcall := Receive (e : env) (full : bool) | Process (exitCheck : bool).
Definition rexec (s : rst) (c : rcall) : option rst :=
  match c with Receive e full => receive e full s | Process x => process x s end.
Fixpoint rrun (s : rst) (cs : list rcall) : option rst :=
  match cs with
  | [] => Some s
  | c :: cs => match rexec s c with Some s => rrun s cs | None => None end
  end.
Definition rstart (u : U) (junk : list T) : rst := Rst dq_init [] junk 0 u 0 0 [] [] 0.
End recv.
Arguments rst : clear implicits.
Arguments env : clear implicits.
Arguments rcall : clear implicits.
