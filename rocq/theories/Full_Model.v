(** The loops of the threads when the notification queues can be full: graph/graph.go:126-142 (their
    size), graph/algorithm.go:57-91 (EnsureSend waits until there is room, and does nothing else
    meanwhile), utils/ring-buffer.go:342-375 (PutFastMP, PutSlowMP), graph/run-async.go:109-148
    (ReceiveMessages, with the second buffer NotificationBuff, which is not limited).

    This is put on top of the loops of Whole_Model or Loop_Model, where a queue is never full: [wstep]
    are their steps, [trm] and [lwork] what they mean for the queues.  A message waits in the ring of a
    thread or in its second buffer.  Simplifications: those of the loops; a thread that finds the ring full
    takes its place in the ring when there is room again (in the code places are taken in the order of
    arrival); a thread that receives may empty the ring into its second buffer at any time while it
    receives (in the code after it has pulled enough); SendInitialMail, before the loops, is not limited here. *)
From Verif Require Import Base.
From Verif Require Engine_Model Term_Model.
Open Scope nat_scope.

Section full.
Context {W X : Type} (wstep : W -> nat -> X -> W) (trm : W -> Term_Model.st) (lwork : W -> nat -> X -> list (nat * Term_Model.choice)).
Context (cap : N).

Record fullst := Fst { lp : W; buf : nat -> N }.
Inductive fchoice := Plain (x : X) | Spill.

(** Messages in the ring of a thread. *)
Definition ring (s : fullst) (t : nat) : N := (Term_Model.queue (trm (lp s)) t - buf s t)%N.
(** Whom a step sends to. *)
Definition target (w : W) (t : nat) (x : X) : option nat :=
  match Term_Model.at_ (trm w) t, lwork w t x with Term_Model.Work _ _ _, [(_, Term_Model.Send u)] => Some u | _, _ => None end.
Definition full (s : fullst) (t : nat) (x : X) : bool := match target (lp s) t x with Some u => (cap <=? ring s u)%N | None => false end.
(** What is in the second buffer is pulled first (run-async.go:111-121). *)
Definition pulls (w w' : W) (t : nat) : bool := (Term_Model.queue (trm w') t <? Term_Model.queue (trm w) t)%N.
Definition receiving (w : W) (t : nat) : bool := match Term_Model.at_ (trm w) t with Term_Model.Recv _ => true | _ => false end.

Definition fstep (s : fullst) (t : nat) (x : fchoice) : fullst :=
  match x with
  | Plain x =>
      if full s t x then s
      else let w' := wstep (lp s) t x in Fst w' (if pulls (lp s) w' t then Engine_Model.upd (buf s) t (buf s t - 1)%N else buf s)
  | Spill => (* run-async.go:132-147 *)
      if receiving (lp s) t && (cap / 2 <? ring s t)%N then Fst (lp s) (Engine_Model.upd (buf s) t (Term_Model.queue (trm (lp s)) t)) else s
  end.
Definition frun (s : fullst) (sched : list (nat * fchoice)) : fullst := fold_left (fun s '(t, x) => fstep s t x) sched s.
Definition fstart (w : W) : fullst := Fst w (fun _ => 0%N).

(** The schedule of the loops in a schedule. *)
Definition plains (sched : list (nat * fchoice)) : list (nat * X) :=
  flat_map (fun '(t, x) => match x with Plain x => [(t, x)] | Spill => [] end) sched.
End full.
Arguments Fst {_} _ _. Arguments lp {_} _. Arguments buf {_} _ _. Arguments Plain {_} _. Arguments Spill {_}.

(** graph.go:126-141: the size of a queue, and RoundUpPow of it (ring-buffer.go:204-206). *)
Definition queue_size (multiplier threads : N) : N := (4096 * 4 * 2 ^ multiplier * (32 / threads))%N.
