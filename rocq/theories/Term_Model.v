(** Model of graph/termination.go:31-109 (CheckTermination, ResetTerminationState), run by threads
    that receive, process and send messages as in graph/run-async.go:109-172, 207-243
    (ReceiveMessages, ProcessMessages, ConvergeAsyncThread) and graph/run-dynamic.go:161-292,
    where topology events are a thread's own work.  Every access to shared memory is one step and
    memory is sequentially consistent.  Simplifications: counters are unbounded; a notification
    queue with its overflow deque is a number of messages, and sending is one step; epochs,
    blocking commands and super-steps are left out. *)
From Verif Require Import Base.
Open Scope N_scope.

(** What a thread is at (lines of termination.go unless named). *)
Inductive pc :=
| Recv (got : N)                  (* run-async.go:109-148, [got] notifications pulled so far *)
| Look (got : N)                  (* run-dynamic.go:201-217: look for topology events *)
| Work (got sent own : N)         (* run-async.go:155-165, run-dynamic.go:226-234: processing *)
| K0                              (* 34 *)
| KSum (i : nat) (acc : N)        (* 37-40 *)
| KReset (acc : N)                (* 44-46, between the two writes *)
| KViews (i : nat) (acc : N)      (* 50-55 *)
| KUnvote                         (* 52 *)
| KVote (acc : N)                 (* 58-60 *)
| KSeen (i : nat) (acc : N)       (* 63-68 *)
| KBack (acc : N)                 (* 65 *)
| KReady (acc : N)                (* 71-74 *)
| KReadys (i : nat)               (* 76-87 *)
| KFall (i : nat)                 (* 79-83: the other vote is read again *)
| KFinal                          (* 91 *)
| KFinals (i : nat)               (* 92-99 *)
| Done.                           (* 100, the thread leaves its loop *)

Definition fset {A} (f : nat -> A) (i : nat) (x : A) : nat -> A := fun j => if (j =? i)%nat then x else f j.

Record st := St {
  at_ : nat -> pc;
  open_ : nat -> bool;            (* topology events may still come *)
  queue : nat -> N;
  cnt : nat -> N;                 (* MsgSend + MsgRecv + EventActions *)
  data : nat -> N; view : nat -> N; vote : nat -> N }.  (* TerminateData, -View, -Votes *)

Definition at_pc (s : st) (t : nat) (p : pc) : st := St (fset (at_ s) t p) (open_ s) (queue s) (cnt s) (data s) (view s) (vote s).
Definition set_open (s : st) (t : nat) (v : bool) : st := St (at_ s) (fset (open_ s) t v) (queue s) (cnt s) (data s) (view s) (vote s).
Definition set_queue (s : st) (t : nat) (v : N) : st := St (at_ s) (open_ s) (fset (queue s) t v) (cnt s) (data s) (view s) (vote s).
Definition set_cnt (s : st) (t : nat) (v : N) : st := St (at_ s) (open_ s) (queue s) (fset (cnt s) t v) (data s) (view s) (vote s).
Definition set_data (s : st) (t : nat) (v : N) : st := St (at_ s) (open_ s) (queue s) (cnt s) (fset (data s) t v) (view s) (vote s).
Definition set_view (s : st) (t : nat) (v : N) : st := St (at_ s) (open_ s) (queue s) (cnt s) (data s) (fset (view s) t v) (vote s).
Definition set_vote (s : st) (t : nat) (v : N) : st := St (at_ s) (open_ s) (queue s) (cnt s) (data s) (view s) (fset (vote s) t v).

(** What the state does not determine: the thread goes on; stops pulling although there is more
    (MSG_MAX); sends a message; finishes a batch (and, in the iteration that finds the topology
    queue closed, checks for termination at once); has applied topology events and starts over,
    keeping what it pulled (run-dynamic.go:237-256), perhaps with no more to come; applies
    [k + 1] topology events; finds that no more will come. *)
Inductive choice := Go | Enough | Send (u : nat) | Finish | FinishCheck | More (closed : bool) | Own (k : N) | Close.

(** After the receive phase. *)
Definition received (s : st) (t : nat) (got : N) : st :=
  at_pc s t (if open_ s t then Look got else if got =? 0 then K0 else Work got 0 0).

(** [n] threads; [swap = false] is the code; [swap = true] has lines 44 and 45 exchanged. *)
Definition go (swap : bool) (n : nat) (s : st) (t : nat) (c : choice) : st :=
  match at_ s t, c with
  | Recv got, Go =>
      if queue s t =? 0 then received s t got
      else at_pc (set_queue s t (queue s t - 1)) t (Recv (got + 1))
  | Recv got, Enough => if got =? 0 then s else received s t got
  | Look got, Go => at_pc s t (if got =? 0 then Recv 0 else Work got 0 0)
  | Look got, Own k => if open_ s t then at_pc s t (Work got 0 (k + 1)) else s
  | Look got, Close => at_pc (set_open s t false) t (if got =? 0 then K0 else Work got 0 0)
  | Work got sent own, Send u => if (u <? n)%nat then at_pc (set_queue s u (queue s u + 1)) t (Work got (sent + 1) own) else s
  | Work got sent own, Finish => at_pc (set_cnt s t (cnt s t + got + sent + own)) t (Recv 0)
  | Work got sent own, FinishCheck => at_pc (set_open (set_cnt s t (cnt s t + got + sent + own)) t false) t K0
  | Work got sent own, More closed =>
      if own =? 0 then s
      else let s := set_cnt s t (cnt s t + sent + own) in at_pc (if closed then set_open s t false else s) t (Recv got)
  | K0, Go => at_pc (set_data s t (cnt s t)) t (KSum 0 0)
  | KSum i acc, Go =>
      let acc := acc + data s i in
      if (S i <? n)%nat then at_pc s t (KSum (S i) acc)
      else if view s t =? acc then at_pc s t (KViews 0 acc)
      else at_pc (if swap then set_vote s t 0 else set_view s t acc) t (KReset acc)
  | KReset acc, Go => at_pc (if swap then set_view s t acc else set_vote s t 0) t (Recv 0)
  | KViews i acc, Go =>
      at_pc s t (if view s i =? acc then (if (S i <? n)%nat then KViews (S i) acc else KVote acc) else KUnvote)
  | KUnvote, Go => at_pc (set_vote s t 0) t (Recv 0)
  | KVote acc, Go => at_pc (if vote s t =? 0 then set_vote s t 1 else s) t (KSeen 0 acc)
  | KSeen i acc, Go =>
      at_pc s t (if vote s i =? 0 then KBack acc else if (S i <? n)%nat then KSeen (S i) acc else KReady acc)
  | KBack _, Go => at_pc (set_vote s t 1) t (Recv 0)
  | KReady acc, Go => if vote s t =? 1 then at_pc (set_vote s t 2) t (Recv 0) else at_pc s t (KReadys 0)
  | KReadys i, Go =>
      at_pc s t (if vote s i <? 2 then (if vote s t =? 3 then KFall i else Recv 0)
                 else if (S i <? n)%nat then KReadys (S i) else KFinal)
  | KFall i, Go => at_pc (set_vote s t (if vote s i =? 0 then 1 else 2)) t (Recv 0)
  | KFinal, Go => at_pc (set_vote s t 3) t (KFinals 0)
  | KFinals i, Go =>
      at_pc s t (if vote s i =? 3 then (if (S i <? n)%nat then KFinals (S i) else Done) else Recv 0)
  | _, _ => s
  end.
Definition step (swap : bool) (n : nat) (s : st) (x : nat * choice) : st :=
  if (fst x <? n)%nat then go swap n s (fst x) (snd x) else s.
Definition exec (swap : bool) (n : nat) (s : st) (sched : list (nat * choice)) : st :=
  fold_left (step swap n) sched s.

(** 103-109; [own]: topology events may come; [q], [c]: what SendInitialMail
    (run-async.go:14-104) has sent, and counted. *)
Definition start (own : nat -> bool) (q c : nat -> N) : st :=
  St (fun _ => Recv 0) own q c (fun _ => 0) (fun _ => 0) (fun _ => 0).
