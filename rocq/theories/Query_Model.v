(** Queries on a graph that is being changed: graph/stream.go:88-160 (the Remitter's part in it),
    graph/graph.go:196-214 (Broadcast, AwaitAck, ExecuteQuery), graph/queries.go:47-144
    (LogTimeSeries, waiting for convergence), and in the loop of a thread
    (graph/run-dynamic.go:161-292) the commands EPOCH and RESUME, the topology queue, and what
    an epoch changes in the check for termination.

    One transition is: the Remitter passes an event on, or ends the stream; the logging goroutine
    sends a command to one thread, takes the answer of one thread, looks at the graph, or lets the
    stream go on; a thread does a step of Whole_Model, takes a command, pulls topology
    events, answers, or is resumed.

    Simplifications: those of Whole_Model; the events come to the Remitter in order (C22, C23);
    only ADD events; a thread may take a command at any time while it receives (the code does it
    only before); how many events a thread pulls at once is arbitrary; after a thread has once
    found its queue empty in an epoch it no longer looks (there is nothing, theorem C62_nothing_new);
    the events that a thread remits count in its check for termination, otherwise they are not
    modelled here; clearing the state of the termination check is one step (all threads wait for
    RESUME then).  A thread that waits for RESUME is one whose [acked] is set; where it
    goes on, the start of its loop, is entered when the state of the check is cleared. *)
From Verif Require Import Base Engine_Spec Engine_Model Engine_Proofs Whole_Model Query_Spec.
From Verif Require Term_Model.
Open Scope nat_scope.

Section query.
Context (a : alg) (owner : nat -> nat) (swap : bool) (n : nat).
(** The stream, and whether to ask after so many events. *)
Context (evs : list (nat * (nat * edge_t a))) (ask : nat -> bool).
Notation event := (nat * (nat * edge_t a))%type.

Inductive command := Epoch | Resume.
Inductive remitter := Streaming | Asked | Finished.
(** Waiting for an entry; sending EPOCH; awaiting answers; looking at the graph; sending RESUME. *)
Inductive logger := LWait | LCast (i : nat) | LAwait (i : nat) | LView | LResume (i : nat).

Record qst := Qst {
  who : wst a;
  tq : nat -> list event;       (* TopologyQueue *)
  batch : nat -> list event;    (* pulled, not enacted yet *)
  epoch : nat -> bool;
  acked : nat -> bool;
  cmds : nat -> list command;   (* Command *)
  resp : nat -> nat;            (* Response *)
  nxt : nat;                    (* remitted *)
  rem : remitter;
  lg : logger;
  seen : list nat }.            (* after how many events a query has looked *)

Definition set_who (s : qst) (x : wst a) : qst := Qst x (tq s) (batch s) (epoch s) (acked s) (cmds s) (resp s) (nxt s) (rem s) (lg s) (seen s).
Definition set_top (s : qst) (x : wst a) (q b : nat -> list event) : qst := Qst x q b (epoch s) (acked s) (cmds s) (resp s) (nxt s) (rem s) (lg s) (seen s).
Definition set_cmd (s : qst) (e k : nat -> bool) (c : nat -> list command) (r : nat -> nat) : qst :=
  Qst (who s) (tq s) (batch s) e k c r (nxt s) (rem s) (lg s) (seen s).
Definition set_lg (s : qst) (c : nat -> list command) (r : nat -> nat) (l : logger) : qst :=
  Qst (who s) (tq s) (batch s) (epoch s) (acked s) c r (nxt s) (rem s) l (seen s).

Definition nil {A} (l : list A) : bool := match l with [] => true | _ => false end.
Definition finished (s : qst) : bool := match rem s with Finished => true | _ => false end.

(** The Remitter (stream.go:108-146); it waits in ExecuteQuery while [rem] is [Asked]. *)
Definition remit (s : qst) : qst :=
  match rem s with
  | Streaming =>
      match nth_error evs (nxt s) with
      | Some (v, x) => Qst (who s) (upd (tq s) (owner v) (tq s (owner v) ++ [(v, x)])) (batch s) (epoch s) (acked s) (cmds s) (resp s)
                           (S (nxt s)) (if ask (S (nxt s)) then Asked else Streaming) (lg s) (seen s)
      | None => Qst (who s) (tq s) (batch s) (epoch s) (acked s) (cmds s) (resp s) (nxt s) Finished (lg s) (seen s)
      end
  | _ => s
  end.

(** The logging goroutine (queries.go:47-144).  The channels Command and Response have room for one
    (graph.go:134-135). *)
Definition restart (w : wst a) : wst a :=
  Wst a (eng w) (Term_Model.start (fun _ => true) (Term_Model.queue (trm w)) (Term_Model.cnt (trm w))) (did w) (nsend w) (nrecv w).
Definition log_step (s : qst) : qst :=
  match lg s with
  | LWait => match rem s with Asked => set_lg s (cmds s) (resp s) (LCast 0) | _ => s end
  | LCast i => if i <? n then (if nil (cmds s i) then set_lg s (upd (cmds s) i [Epoch]) (resp s) (LCast (S i)) else s) else set_lg s (cmds s) (resp s) (LAwait 0)
  | LAwait i => if i <? n then match resp s i with O => s | S r => set_lg s (cmds s) (upd (resp s) i r) (LAwait (S i)) end
                else set_lg s (cmds s) (resp s) LView
  | LView => Qst (restart (who s)) (tq s) (batch s) (epoch s) (acked s) (cmds s) (resp s) (nxt s) (rem s) (LResume 0) (seen s ++ [nxt s])
  | LResume i => if i <? n then (if nil (cmds s i) then set_lg s (upd (cmds s) i [Resume]) (resp s) (LResume (S i)) else s)
                 else Qst (who s) (tq s) (batch s) (epoch s) (acked s) (cmds s) (resp s) (nxt s) Streaming LWait (seen s)
  end.

(** A thread.  [Pull k r]: [k] events are pulled from the topology queue, [r] have been remitted. *)
Inductive tchoice := Take | Loop (x : wchoice a) | Pull (k : nat) (r : N) | Answer | Awake.
Definition on (s : qst) (t : nat) (x : wchoice a) : qst := set_who s (wstep a owner swap n (who s) t x).
Definition rest_of (l : list event) (v : nat) : list event := List.filter (fun x => negb (fst x =? v)) l.
Definition looking (s : qst) (t : nat) : bool := match Term_Model.at_ (trm (who s)) t with Term_Model.Look _ => true | _ => false end.

Definition loop (s : qst) (t : nat) (x : wchoice a) : qst :=
  match x with
  | Ctl Term_Model.Go => if looking s t && (negb (nil (tq s t)) || epoch s t) then s else on s t x
  | Ctl Term_Model.Close => if nil (tq s t) && (epoch s t || finished s) then on s t x else s
  | Ctl (Term_Model.Own _) => s
  | Ctl Term_Model.Finish => if nil (batch s t) then on s t x else s
  | Ctl Term_Model.FinishCheck => if nil (batch s t) && nil (tq s t) && finished s then on s t x else s
  | Ctl (Term_Model.More b) => if nil (batch s t) && (negb b || nil (tq s t) && finished s) then on s t x else s
  | Ctl _ => on s t x
  | Do Pop => if nil (batch s t) then on s t x else s
  | Do Run => on s t x
  | Do (AddEdges v _) =>
      (* all that the batch has for [v], in its order *)
      let x := Do (AddEdges (a := a) v (out (batch s t) v)) in
      if (owner v =? t) && negb (nil (out (batch s t) v)) && negb (nil (ework a (who s) t x))
      then set_top s (wstep a owner swap n (who s) t x) (tq s) (upd (batch s) t (rest_of (batch s t) v)) else s
  | Do (SendInit _ _) => on s t x
  | Do (DelEdges _ _) => s
  end.
Definition may_pull (s : qst) (t : nat) (k : nat) (r : N) : bool :=
  looking s t && Term_Model.open_ (trm (who s)) t && (k <=? length (tq s t)) && (negb (k =? 0) || nil (tq s t)) &&
  ((r =? 0)%N || negb (epoch s t)) && negb (N.of_nat k + r =? 0)%N.
Definition pull (s : qst) (t : nat) (k : nat) (r : N) : qst :=
  if may_pull s t k r
  then set_top s (wstep a owner swap n (who s) t (Ctl (Term_Model.Own (N.of_nat k + r - 1))))
                 (upd (tq s) t (skipn k (tq s t))) (upd (batch s) t (batch s t ++ firstn k (tq s t)))
  else s.
Definition at_done (s : qst) (t : nat) : bool := match Term_Model.at_ (trm (who s)) t with Term_Model.Done => true | _ => false end.
Definition receiving (s : qst) (t : nat) : bool := match Term_Model.at_ (trm (who s)) t with Term_Model.Recv _ => true | _ => false end.
Definition tstep (s : qst) (t : nat) (x : tchoice) : qst :=
  if n <=? t then s
  else if acked s t then
    match x, cmds s t with   (* run-dynamic.go:241-248: waits for RESUME *)
    | Awake, Resume :: c => set_cmd s (upd (epoch s) t false) (upd (acked s) t false) (upd (cmds s) t c) (resp s)
    | _, _ => s
    end
  else
    match x with
    | Take => match cmds s t with   (* 98-125 *)
              | c :: l => if receiving s t then set_cmd s (match c with Epoch => upd (epoch s) t true | Resume => epoch s end) (acked s) (upd (cmds s) t l) (resp s) else s
              | [] => s
              end
    | Loop x => loop s t x
    | Pull k r => pull s t k r
    | Answer => if at_done s t && epoch s t && (resp s t =? 0) then set_cmd s (epoch s) (upd (acked s) t true) (cmds s) (upd (resp s) t (S (resp s t))) else s
    | Awake => s
    end.

Inductive actor := Remitter | Logger | Thread (t : nat) (x : tchoice).
Definition qstep (s : qst) (x : actor) : qst :=
  match x with Remitter => remit s | Logger => log_step s | Thread t x => tstep s t x end.
Definition qrun (s : qst) (sched : list actor) : qst := fold_left qstep sched s.
(** [e], [sent0]: the engine after initial mail, as in Whole_Model. *)
Definition qstart (e : est a) (sent0 : nat -> N) : qst :=
  Qst (wstart a e (fun _ => true) sent0) (fun _ => []) (fun _ => []) (fun _ => false) (fun _ => false) (fun _ => []) (fun _ => 0) 0 Streaming LWait [].

(** The steps of the engine that a step takes. *)
Definition qwork (s : qst) (x : actor) : list (nat * choice a) :=
  match x with
  | Thread t (Loop x) =>
      if (n <=? t) || acked s t then [] else
      match x with
      | Do Pop => if nil (batch s t) then ework a (who s) t x else []
      | Do Run | Do (SendInit _ _) => ework a (who s) t x
      | Do (AddEdges v _) =>
          let x := Do (AddEdges (a := a) v (out (batch s t) v)) in
          if (owner v =? t) && negb (nil (out (batch s t) v)) then ework a (who s) t x else []
      | _ => []
      end
  | _ => []
  end.
Fixpoint qworks (s : qst) (sched : list actor) : list (nat * choice a) :=
  match sched with [] => [] | x :: l => qwork s x ++ qworks (qstep s x) l end.
End query.
Arguments who {a} _. Arguments tq {a} _ _. Arguments batch {a} _ _. Arguments epoch {a} _ _. Arguments acked {a} _ _.
Arguments cmds {a} _ _. Arguments resp {a} _ _. Arguments nxt {a} _. Arguments rem {a} _. Arguments lg {a} _. Arguments seen {a} _.
Arguments Take {a}. Arguments Loop {a} _. Arguments Pull {a} _ _. Arguments Answer {a}. Arguments Awake {a}.
Arguments Remitter {a}. Arguments Logger {a}. Arguments Thread {a} _ _.

(** When to ask (stream.go:91-95, 125-136).  By the number of events: *)
Fixpoint count_target (interval remitted : nat) : nat := (* nextTarget after so many events *)
  match remitted with
  | O => interval
  | S r => let target := count_target interval r in if target <=? S r then target + interval else target
  end.
Definition ask_count (interval k : nat) : bool := match k with O => false | S r => count_target interval r <=? k end.
(** and by timestamps. *)
Fixpoint time_target (interval : N) (ts : list N) : N := (* after the events with timestamps [ts], last first *)
  match ts with
  | [] => interval
  | x :: l => let target := time_target interval l in if (target <=? x)%N then (x + interval)%N else target
  end.
Definition ask_time (interval : N) (ts : list N) (k : nat) : bool :=
  match rev (firstn k ts) with [] => false | x :: l => (time_target interval l <=? x)%N && (k <=? length ts) end.
