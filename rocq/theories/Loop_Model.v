(** The loop of a thread as a whole, for any machine that does the work: graph/run-async.go:109-243,
    graph/run-dynamic.go:161-292 and graph/termination.go:111-130 (EnsureCompleteness).  This is
    Whole_Model.v with the engine left open, so that it also fits the algorithms with active
    notifications (graph/algorithm.go:85-91).  A thread pulls notifications (only their number matters
    until they are processed), enacts topology changes, processes what it pulled, and checks for
    termination.  Simplifications: those of Term_Model; MsgSend and MsgRecv are counted as the
    messages go, not at the end of a batch; any number of changes (edges received from the remitter,
    edges added, initial mail) may come with an iteration that has topology events, and they come
    after the notifications are pulled: pulling touches no vertex. *)
From Verif Require Import Base.
From Verif Require Engine_Model Term_Model.
Open Scope nat_scope.
Notation upd := Engine_Model.upd.

(** What a thread can be told to do: go on with what it has begun, take the next notification of the
    batch, or change the graph. *)
Inductive mkind := IsRun | IsPop | IsChange.
Record machine := Machine {
  m_st : Type; m_choice : Type;
  m_step : m_st -> nat -> m_choice -> m_st;
  m_kind : m_choice -> mkind;
  m_busy : m_st -> nat -> bool;            (* the thread has begun something *)
  m_send : m_st -> nat -> option nat;      (* its next operation puts a notification into the queue of this thread *)
  m_len : m_st -> nat -> nat }.            (* notifications of the thread that are not processed *)
Arguments m_step {_} _ _ _. Arguments m_kind {_} _. Arguments m_busy {_} _ _. Arguments m_send {_} _ _. Arguments m_len {_} _ _.

(** What is expected of a machine: work happens at one thread, sending adds one notification to one
    queue of a thread below [n], taking one removes it, changing the graph touches no queue. *)
Record lawful (n : nat) (m : machine) : Prop := Lawful {
  l_other : forall (s : m_st m) t c w, m_kind c = IsRun \/ m_busy s t = false -> w <> t -> m_busy (m_step s t c) w = m_busy s w;
  l_run : forall (s : m_st m) t c u, m_kind c = IsRun -> m_busy s t = true ->
    m_len (m_step s t c) u = m_len s u + match m_send s t with Some d => if u =? d then 1 else 0 | None => 0 end;
  l_pop : forall (s : m_st m) t c u, m_kind c = IsPop -> m_busy s t = false -> 0 < m_len s t ->
    m_len (m_step s t c) u + (if u =? t then 1 else 0) = m_len s u;
  l_change : forall (s : m_st m) t c u, m_kind c = IsChange -> m_busy s t = false -> m_len (m_step s t c) u = m_len s u;
  l_send : forall (s : m_st m) t u, m_send s t = Some u -> u < n }.

Section loop.
Context (m : machine) (swap : bool) (n : nat).

Record wst := Wst {
  eng : m_st m; trm : Term_Model.st;
  did : nat -> N;                       (* notifications of the batch that are processed *)
  nsend : nat -> N; nrecv : nat -> N }. (* MsgSend, MsgRecv *)

(** The loop itself, or the work of the algorithm. *)
Inductive wchoice := Ctl (c : Term_Model.choice) | Do (c : m_choice m).

Definition act_on (s : wst) (t : nat) (c : m_choice m) (l : list (nat * Term_Model.choice)) (d : N) (ds dr : N) : wst :=
  Wst (m_step (eng s) t c) (Term_Model.exec swap n (trm s) l) (upd (did s) t d)
      (upd (nsend s) t (nsend s t + ds)%N) (upd (nrecv s) t (nrecv s t + dr)%N).
Definition loop_on (s : wst) (t : nat) (c : Term_Model.choice) : wst :=
  Wst (eng s) (Term_Model.step swap n (trm s) (t, c)) (upd (did s) t 0%N) (nsend s) (nrecv s).

(** May the loop take this step by itself?  May the machine? *)
Definition may_loop (s : wst) (t : nat) (c : Term_Model.choice) : bool :=
  match Term_Model.at_ (trm s) t with
  | Term_Model.Work got _ _ =>
      negb (m_busy (eng s) t) &&
      match c with
      | Term_Model.Finish | Term_Model.FinishCheck => (did s t =? got)%N   (* the batch is done *)
      | Term_Model.More _ => (did s t =? 0)%N                             (* run-dynamic.go:222-243: continue, before the batch *)
      | _ => false
      end
  | _ => true
  end.
Definition may_work (s : wst) (t : nat) (c : m_choice m) : bool :=
  match Term_Model.at_ (trm s) t with
  | Term_Model.Work got _ own =>
      match m_kind c with
      | IsRun => m_busy (eng s) t
      | IsPop => negb (m_busy (eng s) t) && (did s t <? got)%N
      | IsChange => negb (m_busy (eng s) t) && negb (own =? 0)%N && (did s t =? 0)%N
      end
  | _ => false
  end.
Definition sending (s : wst) (t : nat) (c : m_choice m) : list (nat * Term_Model.choice) :=
  match m_kind c, m_send (eng s) t with IsRun, Some u => [(t, Term_Model.Send u)] | _, _ => [] end.

Definition wstep (s : wst) (t : nat) (x : wchoice) : wst :=
  match x with
  | Ctl c => if may_loop s t c then loop_on s t c else s
  | Do c =>
      if may_work s t c
      then act_on s t c (sending s t c)
             (match m_kind c with IsPop => did s t + 1 | _ => did s t end)
             (N.of_nat (length (sending s t c)))
             (match m_kind c with IsPop => 1 | _ => 0 end)
      else s
  end.
Definition wrun (s : wst) (sched : list (nat * wchoice)) : wst := fold_left (fun s '(t, x) => wstep s t x) sched s.

(** As the loops start (run-async.go:246-262, run-dynamic.go:345-398): [e] is the machine after
    initial mail; [sent0] is what each thread has sent for it. *)
Definition wstart (e : m_st m) (own : nat -> bool) (sent0 : nat -> N) : wst :=
  Wst e (Term_Model.start own (fun t => N.of_nat (m_len e t)) sent0) (fun _ => 0%N) sent0 (fun _ => 0%N).

(** termination.go:111-130, after all have left: no panic. *)
Fixpoint sumN (f : nat -> N) (k : nat) : N := match k with O => 0%N | S k => (sumN f k + f k)%N end.
Definition complete (s : wst) : bool :=
  (sumN (nsend s) n =? sumN (nrecv s) n)%N && forallb (fun t => (Term_Model.queue (trm s) t =? 0)%N) (seq 0 n).

(** The steps of the machine, and of the loops, that a schedule takes. *)
Definition ework (s : wst) (t : nat) (x : wchoice) : list (nat * m_choice m) :=
  match x with Do c => if may_work s t c then [(t, c)] else [] | Ctl _ => [] end.
Definition lwork (s : wst) (t : nat) (x : wchoice) : list (nat * Term_Model.choice) :=
  match x with
  | Ctl c => if may_loop s t c then [(t, c)] else []
  | Do c => if may_work s t c then sending s t c else []
  end.
Fixpoint eworks (s : wst) (sched : list (nat * wchoice)) : list (nat * m_choice m) :=
  match sched with [] => [] | (t, x) :: rest => ework s t x ++ eworks (wstep s t x) rest end.
Fixpoint lworks (s : wst) (sched : list (nat * wchoice)) : list (nat * Term_Model.choice) :=
  match sched with [] => [] | (t, x) :: rest => lwork s t x ++ lworks (wstep s t x) rest end.
End loop.
Arguments eng {m} _. Arguments trm {m} _. Arguments did {m} _. Arguments nsend {m} _. Arguments nrecv {m} _.
Arguments Ctl {m} _. Arguments Do {m} _. Arguments complete {m} _ _.
