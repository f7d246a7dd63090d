(** The loop of a thread as a whole: graph/run-async.go:109-243 and graph/run-dynamic.go:161-292
    with the operations of the algorithm (Engine_Model) where Term_Model only counts, and
    graph/termination.go:111-130 (EnsureCompleteness).  A thread pulls notifications (only their
    number matters until they are processed), enacts topology changes, processes what it pulled,
    and checks for termination.  Simplifications: those of Engine_Model and Term_Model; MsgSend
    and MsgRecv are counted as the messages go, not at the end of a batch; any number of changes
    may come with an iteration that has topology events. *)
From Verif Require Import Base Engine_Spec Engine_Model Engine_Proofs.
From Verif Require Term_Model.
Open Scope nat_scope.

Section whole.
Context (a : alg) (owner : nat -> nat) (swap : bool) (n : nat).

Record wst := Wst {
  eng : est a; trm : Term_Model.st;
  did : nat -> N;                       (* notifications of the batch that are processed *)
  nsend : nat -> N; nrecv : nat -> N }. (* MsgSend, MsgRecv *)

(** The loop itself, or the work of the algorithm. *)
Inductive wchoice := Ctl (c : Term_Model.choice) | Do (c : choice a).

Definition act_on (s : wst) (t : nat) (c : choice a) (l : list (nat * Term_Model.choice)) (d : N) (ds dr : N) : wst :=
  Wst (estep a owner (eng s) t c) (Term_Model.exec swap n (trm s) l) (upd (did s) t d)
      (upd (nsend s) t (nsend s t + ds)%N) (upd (nrecv s) t (nrecv s t + dr)%N).
Definition loop_on (s : wst) (t : nat) (c : Term_Model.choice) : wst :=
  Wst (eng s) (Term_Model.step swap n (trm s) (t, c)) (upd (did s) t 0%N) (nsend s) (nrecv s).

Definition wstep (s : wst) (t : nat) (x : wchoice) : wst :=
  match Term_Model.at_ (trm s) t, x, todo (eng s) t with
  | Term_Model.Work _ _ _, Do Run, Put d :: _ => act_on s t Run [(t, Term_Model.Send (owner d))] (did s t) 1 0
  | Term_Model.Work _ _ _, Do Run, _ :: _ => act_on s t Run [] (did s t) 0 0
  | Term_Model.Work got _ _, Do Pop, [] => if (did s t <? got)%N then act_on s t Pop [] (did s t + 1) 0 1 else s
  | Term_Model.Work _ _ own, Do (AddEdges v es), [] => if (own =? 0)%N || negb (did s t =? 0)%N then s else act_on s t (AddEdges v es) [] 0 0 0
  | Term_Model.Work _ _ own, Do (DelEdges v gone), [] => if (own =? 0)%N || negb (did s t =? 0)%N then s else act_on s t (DelEdges v gone) [] 0 0 0
  | Term_Model.Work _ _ own, Do (SendInit v m), [] => if (own =? 0)%N || negb (did s t =? 0)%N then s else act_on s t (SendInit v m) [] 0 0 0
  | Term_Model.Work _ _ _, Do _, _ => s
  | Term_Model.Work got _ _, Ctl Term_Model.Finish, [] => if (did s t =? got)%N then loop_on s t Term_Model.Finish else s
  | Term_Model.Work got _ _, Ctl Term_Model.FinishCheck, [] => if (did s t =? got)%N then loop_on s t Term_Model.FinishCheck else s
  | Term_Model.Work _ _ _, Ctl (Term_Model.More b), [] => if (did s t =? 0)%N then loop_on s t (Term_Model.More b) else s
  | Term_Model.Work _ _ _, _, _ => s
  | _, Ctl c, _ => loop_on s t c
  | _, Do _, _ => s
  end.
Definition wrun (s : wst) (sched : list (nat * wchoice)) : wst := fold_left (fun s '(t, x) => wstep s t x) sched s.

(** As the loops start (run-async.go:246-262, run-dynamic.go:345-398): [e] is the engine after
    initial mail; [sent0] is what each thread has sent for it. *)
Definition wstart (e : est a) (own : nat -> bool) (sent0 : nat -> N) : wst :=
  Wst e (Term_Model.start own (fun t => N.of_nat (length (queue e t))) sent0) (fun _ => 0%N) sent0 (fun _ => 0%N).

(** termination.go:111-130, after all have left: no panic. *)
Fixpoint sumN (f : nat -> N) (k : nat) : N := match k with O => 0%N | S k => (sumN f k + f k)%N end.
Definition complete (s : wst) : bool :=
  (sumN (nsend s) n =? sumN (nrecv s) n)%N && forallb (fun t => (Term_Model.queue (trm s) t =? 0)%N) (seq 0 n).

(** The steps of the engine, and of the loops, that a schedule takes. *)
Definition ework (s : wst) (t : nat) (x : wchoice) : list (nat * choice a) :=
  match Term_Model.at_ (trm s) t, x with
  | Term_Model.Work got _ own, Do c =>
      match c, todo (eng s) t with
      | Run, _ :: _ => [(t, Run)]
      | Pop, [] => if (did s t <? got)%N then [(t, Pop)] else []
      | Run, [] | Pop, _ :: _ => []
      | _, [] => if (own =? 0)%N || negb (did s t =? 0)%N then [] else [(t, c)]
      | _, _ :: _ => []
      end
  | _, _ => []
  end.
Definition lwork (s : wst) (t : nat) (x : wchoice) : list (nat * Term_Model.choice) :=
  match Term_Model.at_ (trm s) t, x, todo (eng s) t with
  | Term_Model.Work _ _ _, Do Run, Put d :: _ => [(t, Term_Model.Send (owner d))]
  | Term_Model.Work _ _ _, Do _, _ => []
  | Term_Model.Work got _ _, Ctl Term_Model.Finish, [] => if (did s t =? got)%N then [(t, Term_Model.Finish)] else []
  | Term_Model.Work got _ _, Ctl Term_Model.FinishCheck, [] => if (did s t =? got)%N then [(t, Term_Model.FinishCheck)] else []
  | Term_Model.Work _ _ _, Ctl (Term_Model.More b), [] => if (did s t =? 0)%N then [(t, Term_Model.More b)] else []
  | Term_Model.Work _ _ _, _, _ => []
  | _, Ctl c, _ => [(t, c)]
  | _, Do _, _ => []
  end.
Fixpoint eworks (s : wst) (sched : list (nat * wchoice)) : list (nat * choice a) :=
  match sched with [] => [] | (t, x) :: rest => ework s t x ++ eworks (wstep s t x) rest end.
Fixpoint lworks (s : wst) (sched : list (nat * wchoice)) : list (nat * Term_Model.choice) :=
  match sched with [] => [] | (t, x) :: rest => lwork s t x ++ lworks (wstep s t x) rest end.
End whole.
Arguments eng {a} _. Arguments trm {a} _. Arguments did {a} _. Arguments nsend {a} _. Arguments nrecv {a} _.
Arguments Ctl {a} _. Arguments Do {a} _. Arguments complete {a} _ _.
