(** A static run (graph/algorithm.go:183-213, without the dynamic mode): the graph is loaded first, by
    ConvergeDynamic with the algorithm blankAlg (algorithm.go:277-306), which does nothing; then
    SendInitialMail (graph/run-async.go:14-107) starts the algorithm itself on the graph.

    Loading is the program of QDel_Model with the algorithm [blank]: there, a new vertex (stream-enact-events.go:12-84)
    merges its initial mail, which blankAlg.MailMerge refuses; OnEdgeAdd and OnEdgeDel send nothing.
    The command BLOCK_ALG_IF_TOP (algorithm.go:191) only delays the processing of messages; there are none.
    Simplifications: those of QDel_Model; OnInEdgeAdd, which blankAlg passes on, is not modelled here
    (Wait_Model and Born_Model have it); mailbox algorithms only (for initial notes see [nstep]). *)
From Verif Require Import Base Engine_Spec Engine_Model Whole_Model QDel_Spec QDel_Model.
From Verif Require Term_Model.
Open Scope nat_scope.

Definition blank (a : alg) : alg := {|
  prop_t := prop_t a; cell_t := cell_t a; msg_t := msg_t a; edge_t := edge_t a;
  merge _ _ _ b := (b, false);                      (* algorithm.go:289 *)
  take c := (c, c);                                 (* 290: the mailbox is not touched *)
  react _ _ p _ _ := (p, [], []) |}.                (* 286-288, 296-306 *)

Section static.
Context (a : alg) (owner : nat -> nat) (swap : bool) (n : nat).
Context (evs : list (nat * change (edge_t a))) (ask : nat -> bool).
(** Mailboxes and properties as NewVertex makes them. *)
Context (b : nat -> list (cell_t a)) (p : nat -> prop_t a).

Definition empty : est (blank a) := estart (blank a) b p (fun _ => []).
Definition load (sched : list (actor (blank a))) : qst (blank a) := qrun (blank a) owner swap n evs ask (qstart (blank a) empty (fun _ => 0%N)) sched.

(** The state in which the algorithm starts: mailboxes are set to BaseVertexMailbox where there is one (run-async.go:15-27),
    here [base]; everything else is as loading has left it. *)
Definition handover (base : nat -> list (cell_t a) -> list (cell_t a)) (s : est (blank a)) : est a :=
  Est (a := a) (fun v => base v (box s v)) (act s) (queue s) (prop s) (edges s) (fun _ => []) (fun _ => 0) [].
End static.

(** SendInitialMail with notification queues of [cap] places, before any thread receives: initial mail is merged and the
    vertices react (run-async.go:32-47, 85-105); a notification for a full queue waits for ever
    (algorithm.go:69, utils/ring-buffer.go:352-365). *)
Section mail.
Context (a : alg) (owner : nat -> nat) (cap : nat).
Definition blocked (s : est a) (t : nat) : bool := match todo s t with Put d :: _ => cap <=? length (queue s (owner d)) | _ => false end.
Definition istep (s : est a) (t : nat) (c : choice a) : est a :=
  match c with
  | Run => if blocked s t then s else estep a owner s t Run
  | SendInit v m => estep a owner s t (SendInit v m)
  | _ => s
  end.
Definition irun (s : est a) (sched : list (nat * choice a)) : est a := fold_left (fun s '(t, c) => istep s t c) sched s.
(** The steps that are taken. *)
Definition iwork (s : est a) (t : nat) (c : choice a) : list (nat * choice a) :=
  match c with Run => if blocked s t then [] else [(t, Run)] | SendInit v m => [(t, SendInit v m)] | _ => [] end.
Fixpoint iworks (s : est a) (sched : list (nat * choice a)) : list (nat * choice a) :=
  match sched with [] => [] | (t, c) :: l => iwork s t c ++ iworks (istep s t c) l end.
End mail.

(** Initial notes for all vertices: by NewVertex while loading, to the vertex's own thread (stream-enact-events.go:67-81; with
    blankAlg the note is empty, but it is sent; nobody receives before the stream is closed: run-dynamic.go:194-198), and
    by SendInitialMail (run-async.go:50-68), before any thread receives.  [count t]: how many vertices thread [t] has;
    the state: how many notes the queue of each thread holds. *)
Section notes.
Context (cap : nat) (count : nat -> nat).
Definition nstep (sent : nat -> nat) (t : nat) : nat -> nat :=
  if (sent t <? count t) && (sent t <? cap) then upd sent t (S (sent t)) else sent.
Definition nrun (sched : list nat) : nat -> nat := fold_left nstep sched (fun _ => 0).
End notes.
