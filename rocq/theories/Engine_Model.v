(** Model of the asynchronous engine with unique notifications, generic in the algorithm:
    graph/run-async.go:14-172 (SendInitialMail, ProcessMessages), graph/algorithm.go:59-83
    (EnsureSend, UniqueNotification), graph/stream-enact-events.go:43-66, 250-262, 385-400 (a new
    vertex, OnEdgeAdd and OnEdgeDel as called by EnactTopologyEvents).  Every access to memory
    that other threads use is one step; memory is sequentially consistent.
    Simplifications: a notification waits in its thread's queue until it is processed (the batch
    array and the overflow deque hold the first part of that queue); putting into a queue is one
    step and never fails; the scan of a mailbox with several cells reads one cell per step and
    does not block merges (in the code it may). *)
From Verif Require Import Base Engine_Spec.

(** What an algorithm supplies (graph/algorithm.go:12-21).  A mailbox is a list of cells.
    - [merge m s d box]: MailMerge of incoming [m] from [s] into the mailbox of [d];
    - [take c]: what MailRetrieve leaves in a cell, and what it reads;
    - [react v k p es cs]: OnUpdateVertex, OnEdgeAdd or OnEdgeDel, with the cells that were read;
      the messages to merge, and those to merge when the former caused no notification. *)
Inductive kind (E : Type) := KUpd | KAdd (start : nat) | KDel (deleted : list (nat * E)).
Arguments KUpd {E}. Arguments KAdd {E} _. Arguments KDel {E} _.
Record alg := Alg {
  prop_t : Type; cell_t : Type; msg_t : Type; edge_t : Type;
  merge : msg_t -> nat -> nat -> list cell_t -> list cell_t * bool;
  take : cell_t -> cell_t * cell_t;
  react : nat -> kind edge_t -> prop_t -> list (nat * edge_t) -> list cell_t ->
          prop_t * list (nat * msg_t) * list (nat * msg_t) }.

Section engine.
Context (a : alg) (owner : nat -> nat).

(** What a thread has still to do. *)
Inductive op :=
| Merge (s d : nat) (m : msg_t a)                (* MailMerge into the mailbox of [d] *)
| Cas (d : nat)                                  (* algorithm.go:78 *)
| Put (d : nat)                                  (* algorithm.go:79, 69 *)
| Dec (v : nat)                                  (* run-async.go:157 *)
| Begin (v : nat) (k : kind (edge_t a))          (* MailRetrieve is called *)
| Scan (v : nat) (k : kind (edge_t a)) (i : nat) (got : list (cell_t a))
| Else (l : list (nat * nat * msg_t a))          (* nothing was sent so far: merge these too *)
| Init (v : nat) (m : msg_t a).                  (* the initial mail of a vertex *)

Record est := Est {
  box : nat -> list (cell_t a); act : nat -> nat; queue : nat -> list nat;
  prop : nat -> prop_t a; edges : nat -> list (nat * edge_t a);
  todo : nat -> list op; sent : nat -> nat; elog : list event }.

Definition upd {A} (f : nat -> A) (i : nat) (x : A) : nat -> A := fun j => if (j =? i)%nat then x else f j.

(** Scheduling: thread [t] executes its next operation, or, when it has none, takes a
    notification, applies additions or deletions of edges at a vertex, or sends initial mail. *)
Inductive choice :=
| Run | Pop
| AddEdges (v : nat) (es : list (nat * edge_t a))
| DelEdges (v : nat) (gone : list bool)
| SendInit (v : nat) (m : msg_t a).

Fixpoint masked {A} (b : bool) (l : list A) (gone : list bool) : list A :=
  match l, gone with
  | x :: l', g :: gone' => if eqb g b then x :: masked b l' gone' else masked b l' gone'
  | _, [] => if b then [] else l
  | [], _ => []
  end.

Definition exec_op (s : est) (t : nat) (o : op) (rest : list op) : est :=
  match o with
  | Merge src d m =>
      let '(b, new) := merge a m src d (box s d) in
      Est (upd (box s) d b) (act s) (queue s) (prop s) (edges s)
          (upd (todo s) t (if new then Cas d :: rest else rest)) (sent s) (if new then elog s ++ [Told d] else elog s)
  | Cas d =>
      if (act s d =? 0)%nat
      then Est (box s) (upd (act s) d 1%nat) (queue s) (prop s) (edges s) (upd (todo s) t (Put d :: rest)) (sent s) (elog s)
      else Est (box s) (act s) (queue s) (prop s) (edges s) (upd (todo s) t rest) (sent s) (elog s)
  | Put d =>
      Est (box s) (act s) (upd (queue s) (owner d) (queue s (owner d) ++ [d])) (prop s) (edges s)
          (upd (todo s) t rest) (upd (sent s) t (S (sent s t))) (elog s)
  | Dec v =>
      Est (box s) (upd (act s) v (act s v - 1)%nat) (queue s) (prop s) (edges s) (upd (todo s) t rest) (sent s) (elog s)
  | Begin v k =>
      Est (box s) (act s) (queue s) (prop s) (edges s) (upd (todo s) t (Scan v k 0 [] :: rest)) (sent s) (elog s ++ [Began v])
  | Scan v k i got =>
      match box s v !! i with
      | Some c =>
          let '(c', x) := take a c in
          Est (upd (box s) v (<[i := c']> (box s v))) (act s) (queue s) (prop s) (edges s)
              (upd (todo s) t (Scan v k (S i) (got ++ [x]) :: rest)) (sent s) (elog s)
      | None =>
          let '(p, ms, ms') := react a v k (prop s v) (edges s v) got in
          Est (box s) (act s) (queue s) (upd (prop s) v p) (edges s)
              (upd (todo s) t (map (fun '(d, m) => Merge v d m) ms ++ Else (map (fun '(d, m) => (v, d, m)) ms') :: rest)) (sent s) (elog s)
      end
  | Else l =>
      Est (box s) (act s) (queue s) (prop s) (edges s)
          (upd (todo s) t (if (sent s t =? 0)%nat then map (fun '(v, d, m) => Merge v d m) l ++ rest else rest)) (sent s) (elog s)
  | Init v m =>
      let '(b, new) := merge a m v v (box s v) in
      Est (upd (box s) v b) (act s) (queue s) (prop s) (edges s)
          (upd (todo s) t (if new then Begin v KUpd :: rest else rest)) (sent s) (if new then elog s ++ [Told v] else elog s)
  end.

Definition start_task (s : est) (t : nat) (l : list op) : est :=
  Est (box s) (act s) (queue s) (prop s) (edges s) (upd (todo s) t l) (upd (sent s) t 0%nat) (elog s).
Definition set_edges (s : est) (v : nat) (es : list (nat * edge_t a)) : est :=
  Est (box s) (act s) (queue s) (prop s) (upd (edges s) v es) (todo s) (sent s) (elog s).

Definition estep (s : est) (t : nat) (c : choice) : est :=
  match todo s t, c with
  | o :: rest, Run => exec_op s t o rest
  | [], Pop =>
      match queue s t with
      | v :: q => start_task (Est (box s) (act s) (upd (queue s) t q) (prop s) (edges s) (todo s) (sent s) (elog s)) t [Dec v; Begin v KUpd]
      | [] => s
      end
  | [], AddEdges v es =>
      if (owner v =? t)%nat then start_task (set_edges s v (edges s v ++ es)) t [Begin v (KAdd (length (edges s v)))] else s
  | [], DelEdges v gone =>
      if (owner v =? t)%nat
      then start_task (set_edges s v (masked false (edges s v) gone)) t [Begin v (KDel (masked true (edges s v) gone))] else s
  | [], SendInit v m => if (owner v =? t)%nat then start_task s t [Init v m] else s
  | _, _ => s
  end.
Definition erun (s : est) (sched : list (nat * choice)) : est := fold_left (fun s '(t, c) => estep s t c) sched s.

(** Mailboxes and properties of all vertices as created, and the edges present when the
    algorithm starts; no notifications. *)
Definition estart (b : nat -> list (cell_t a)) (p : nat -> prop_t a) (es : nat -> list (nat * edge_t a)) : est :=
  Est b (fun _ => 0%nat) (fun _ => []) p es (fun _ => []) (fun _ => 0%nat) [].
End engine.
