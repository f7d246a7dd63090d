(** The event pipeline with queues of limited size, from the file to the graph threads, and the waiting for its end:
    EdgeEnqueueToEmitter and LoadGraphStream (graph/stream.go:246-328), Emitter (167-245), checkToRemit with its caller
    (graph/stream-enact-events.go:86-118, graph/run-dynamic.go:174-184), Remitter (graph/stream.go:84-165), the taking
    of topology events (graph/run-dynamic.go:201-214 and the sends on doneEvents at 249, 254, 268) and the waiting of
    ConvergeDynamic (graph/run-dynamic.go:352-385).
    What happens to the events is Remit_Model's; here it is said when a step can be taken.  A line of the file is the
    list of events the emitter sends for it (one, or two if undirected), with the numbers C21 gives them.
    Simplifications: those of Remit_Model; a reader closes its queue together with its last put; no queries.
    The rings: a ring of fixed size takes an item if it has fewer than its size (utils/ring-buffer.go:149-179);
    a growing one takes an item if it has fewer than some number at least as large as its first size, or if it has just grown
    (480-497), which is the choice [true] of the step that puts; checkToRemit counts the places itself, by EnqCheckRange (68-71),
    which says one less than there are. *)
From Verif Require Import Base Vertex_Model Load_Spec Load_Model Remit_Model.
Open Scope nat_scope.

Section model.
Context {P : Type} (zero : P).

(** The goroutine in ConvergeDynamic: waits for the stream, for the threads' remitting, for their events, then for
    the algorithm. *)
Inductive mpc := MInput | MRemits (k : nat) | MEvents (k : nat) | MAlg.

(** [src]: lines a reader has not yet put; [lq]: the readers' queues; [cur]: the queue the emitter looks at next;
    [eseen]: it has seen it empty and looks whether it is closed (utils/ring-buffer.go:114-130); [over]: it was told so.
    In [pip], [todo] is what the emitter has in hand; an event in the Remitter's hand ([hand]) is still the
    first of its ToRemitQueue there.  [strc]: strucClosed of a thread; [nrem], [nevt]: what is in the channels
    doneRemit and doneEvents.  [gone]: lines the emitter has taken (a log). *)
Record flow := Flow {
  src : nat -> list (list (tev P)); lq : nat -> list (list (tev P)); cur : nat; eseen : bool; over : bool;
  pip : pipe P; hand : bool; strc : nat -> bool; mst : mpc; nrem : nat; nevt : nat; gone : list (list (tev P)) }.

(** Number of readers and threads; sizes of the readers' queues, of FromEmitQueue, of the order queue, of
    ToRemitQueue and of TopologyQueue. *)
Context (k n : nat) (sl : nat) (sf so st_ sq : nat).
Notation nn := (N.of_nat n).

(** EnqCheckRange. *)
Definition space (size used : nat) : nat := (size - 1) - used.
Definition waiting (s : flow) (t : nat) : nat :=
  length (tr (pip s) t) - match rst (pip s) with RLook u => if hand s && (u =? t) then 1 else 0 | _ => 0 end.

Definition set_pip (s : flow) (p : pipe P) : flow :=
  Flow (src s) (lq s) (cur s) (eseen s) (over s) p (hand s) (strc s) (mst s) (nrem s) (nevt s) (gone s).
Definition set_hand (s : flow) (p : pipe P) (b : bool) : flow :=
  Flow (src s) (lq s) (cur s) (eseen s) (over s) p b (strc s) (mst s) (nrem s) (nevt s) (gone s).
Definition with_todo (p : pipe P) (l : list (tev P)) : pipe P :=
  Pipe l (bst p) (bclosed p) (fe p) (ord p) (verts p) (inpos p) (tr p) (trclosed p) (rst p) (tq p) (emitted p) (rlog p) (taken p) (spurious p).

(** Reader [i] puts its next line. *)
Definition read (s : flow) (i : nat) : flow :=
  match src s i with
  | [] => s
  | x :: r => if length (lq s i) <? sl
      then Flow (fset (src s) i r) (fset (lq s) i (lq s i ++ [x])) (cur s) (eseen s) (over s) (pip s) (hand s) (strc s) (mst s) (nrem s) (nevt s) (gone s)
      else s
  end.

(** The emitter gets the next line, or is told that the queue is closed. *)
Definition get (s : flow) : flow :=
  if eseen s then
    match src s (cur s) with
    | [] => Flow (src s) (lq s) (cur s) false true (pip s) (hand s) (strc s) (mst s) (nrem s) (nevt s) (gone s)
    | _ => Flow (src s) (lq s) (cur s) false (over s) (pip s) (hand s) (strc s) (mst s) (nrem s) (nevt s) (gone s)
    end
  else
    match lq s (cur s) with
    | [] => Flow (src s) (lq s) (cur s) true (over s) (pip s) (hand s) (strc s) (mst s) (nrem s) (nevt s) (gone s)
    | x :: q => Flow (src s) (fset (lq s) (cur s) q) (S (cur s) mod k) false (over s) (with_todo (pip s) x) (hand s) (strc s) (mst s) (nrem s) (nevt s) (gone s ++ [x])
    end.
Definition emit (s : flow) (grow : bool) : flow :=
  match bst (pip s), todo (pip s) with
  | BPut, [] => if over s then set_pip s (bstep nn (pip s)) else get s
  | BPut, e :: _ => if grow || (length (fe (pip s) (wth nn (tdst e))) <? sf) then set_pip s (bstep nn (pip s)) else s
  | BOrder t, _ => if grow || (length (ord (pip s)) <? so) then set_pip s (bstep nn (pip s)) else s
  end.

(** A thread passes one event on, or sees that there will be no more. *)
Definition pass (s : flow) (t : nat) : flow :=
  if trclosed (pip s) t || (space st_ (waiting s t) =? 0) then s else
  let p := gstep t (pip s) in
  Flow (src s) (lq s) (cur s) (eseen s) (over s) p (hand s) (strc s) (mst s) (if trclosed p t then S (nrem s) else nrem s) (nevt s) (gone s).

(** The Remitter. *)
Definition hand_on (s : flow) (d : nat) (grow : bool) : flow :=
  if grow || (length (tq (pip s) d) <? sq) then set_hand s (rstep zero nn (pip s)) false else s.
Definition remitter (s : flow) (grow : bool) : flow :=
  match rst (pip s) with
  | RLook t =>
      match tr (pip s) t with
      | r :: _ => if hand s then hand_on s (wth nn (rsrc r)) grow else set_hand s (pip s) true
      | [] => set_pip s (rstep zero nn (pip s))
      end
  | RSeen t => if trclosed (pip s) t then hand_on s (wth nn 0%N) grow else set_pip s (rstep zero nn (pip s))
  | _ => set_pip s (rstep zero nn (pip s))
  end.

(** A thread takes an event from its TopologyQueue, or sees that there will be no more. *)
Definition taking (s : flow) (t : nat) : flow :=
  if strc s t then s else
  match tq (pip s) t with
  | _ :: _ => set_pip s (tstep t (pip s))
  | [] => match rst (pip s) with
      | RDone => Flow (src s) (lq s) (cur s) (eseen s) (over s) (pip s) (hand s) (fset (strc s) t true) (mst s) (nrem s) (S (nevt s)) (gone s)
      | _ => s
      end
  end.

(** ConvergeDynamic. *)
Definition main (s : flow) : flow :=
  let go m r e := Flow (src s) (lq s) (cur s) (eseen s) (over s) (pip s) (hand s) (strc s) m r e (gone s) in
  match mst s with
  | MInput => match rst (pip s) with RDone => go (MRemits n) (nrem s) (nevt s) | _ => s end
  | MRemits O => go (MEvents n) (nrem s) (nevt s)
  | MRemits (S j) => if nrem s =? 0 then s else go (MRemits j) (nrem s - 1) (nevt s)
  | MEvents O => go MAlg (nrem s) (nevt s)
  | MEvents (S j) => if nevt s =? 0 then s else go (MEvents j) (nrem s) (nevt s - 1)
  | MAlg => s
  end.

Inductive factor := FRead (i : nat) | FEmit (grow : bool) | FPass (t : nat) | FRemit (grow : bool) | FTake (t : nat) | FMain.
Definition fstep (s : flow) (a : factor) : flow :=
  match a with
  | FRead i => if i <? k then read s i else s
  | FEmit g => emit s g
  | FPass t => if t <? n then pass s t else s
  | FRemit g => remitter s g
  | FTake t => if t <? n then taking s t else s
  | FMain => main s
  end.
Definition frun (s : flow) (l : list factor) : flow := fold_left fstep l s.
Fixpoint frounds (s : flow) (R : nat -> list factor) (j : nat) : flow :=
  match j with O => s | S j => frun (frounds s R j) (R j) end.

(** The lines of reader [i] among those from line number [j] on (graph/stream.go:278: lines % enqCount == myIndex). *)
Fixpoint dealt (i j : nat) (file : list (list (tev P))) : list (list (tev P)) :=
  match file with [] => [] | x :: f => if j mod k =? i then x :: dealt i (S j) f else dealt i (S j) f end.
Definition fstart (file : list (list (tev P))) : flow :=
  Flow (fun i => dealt i 0 file) (fun _ => []) 0 false false (pipe_init []) false (fun _ => false) MInput 0 0 [].
End model.
Arguments flow P : clear implicits. Arguments fstart {P} k file.
