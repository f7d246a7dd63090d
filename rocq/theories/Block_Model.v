(** Queries that do not wait for the algorithm (NoConvergeForQuery): graph/queries.go:47-144 with
    BLOCK_ALL (when the vertex properties must not change) or BLOCK_TOP (when they may), and the commands
    BLOCK_ALL, BLOCK_TOP and RESUME in the loop of a thread (graph/run-dynamic.go:98-125, 165-168, and
    [blockTop] in 174-292).  For an algorithm with OnFinish also QueryFinishConcurrent
    (queries.go:151-168): it is handed the graph, and reads it while the threads go on
    (cmd/lp-pagerank/pagerank.go:193-226).

    One transition is as in Query_Model: of the Remitter, of the logging goroutine, of a thread;
    or the finishing goroutine reads one vertex.

    Simplifications: those of Query_Model; the property and the number of out-edges of a vertex are
    read at once; clearing the state of the termination check is one step; no super-steps;
    CompareToOracle is not done. *)
From Verif Require Import Base Engine_Spec Engine_Model Engine_Proofs Whole_Model Query_Spec.
From Verif Require Export Query_Model.
From Verif Require Term_Model.
Open Scope nat_scope.

Section block.
Context (a : alg) (owner : nat -> nat) (swap : bool) (n : nat).
Context (evs : list (nat * (nat * edge_t a))) (ask : nat -> bool).
(** AllowAsyncVertexProps; the vertices that OnFinish reads, none when the algorithm has no OnFinish. *)
Context (async : bool) (verts : list nat).
Notation event := (nat * (nat * edge_t a))%type.

Inductive bcommand := BlockAll | BlockTop | BResume.
Record bst := Bst {
  bwho : wst a;
  btq : nat -> list event;        (* TopologyQueue *)
  bbatch : nat -> list event;     (* pulled, not enacted yet *)
  top : nat -> bool;              (* blockTop *)
  held : nat -> bool;             (* waits for RESUME in checkCommandsDynamic *)
  bcmds : nat -> list bcommand;
  bresp : nat -> nat;
  bnxt : nat;
  brem : remitter;
  blg : logger;
  bseen : list nat;               (* after how many events a query has looked *)
  fin : list nat;                 (* still to be read by the finishing goroutine *)
  copy : nat -> option (prop_t a * nat) }. (* what it has read: property, number of out-edges *)

Definition bset_who (s : bst) (x : wst a) : bst := Bst x (btq s) (bbatch s) (top s) (held s) (bcmds s) (bresp s) (bnxt s) (brem s) (blg s) (bseen s) (fin s) (copy s).
Definition bset_top (s : bst) (x : wst a) (q b : nat -> list event) : bst := Bst x q b (top s) (held s) (bcmds s) (bresp s) (bnxt s) (brem s) (blg s) (bseen s) (fin s) (copy s).
Definition bset_cmd (s : bst) (e k : nat -> bool) (c : nat -> list bcommand) (r : nat -> nat) : bst :=
  Bst (bwho s) (btq s) (bbatch s) e k c r (bnxt s) (brem s) (blg s) (bseen s) (fin s) (copy s).
Definition bset_lg (s : bst) (c : nat -> list bcommand) (r : nat -> nat) (l : logger) : bst :=
  Bst (bwho s) (btq s) (bbatch s) (top s) (held s) c r (bnxt s) (brem s) l (bseen s) (fin s) (copy s).
Definition bfinished (s : bst) : bool := match brem s with Finished => true | _ => false end.

(** The Remitter (stream.go:108-146). *)
Definition bremit (s : bst) : bst :=
  match brem s with
  | Streaming =>
      match nth_error evs (bnxt s) with
      | Some (v, x) => Bst (bwho s) (upd (btq s) (owner v) (btq s (owner v) ++ [(v, x)])) (bbatch s) (top s) (held s) (bcmds s) (bresp s)
                           (S (bnxt s)) (if ask (S (bnxt s)) then Asked else Streaming) (blg s) (bseen s) (fin s) (copy s)
      | None => Bst (bwho s) (btq s) (bbatch s) (top s) (held s) (bcmds s) (bresp s) (bnxt s) Finished (blg s) (bseen s) (fin s) (copy s)
      end
  | _ => s
  end.

(** The logging goroutine; which command (queries.go:72-77); ResetTerminationState
    (termination.go:103-109); the channel to the finishing goroutine has no buffer, it is handed the next graph
    when it is done with the last. *)
Definition block : bcommand := if async then BlockTop else BlockAll.
Definition reset (w : wst a) : wst a :=
  let x := trm w in
  Wst a (eng w) (Term_Model.St (Term_Model.at_ x) (Term_Model.open_ x) (Term_Model.queue x) (Term_Model.cnt x) (fun _ => 0%N) (fun _ => 0%N) (fun _ => 0%N)) (did w) (nsend w) (nrecv w).
Definition blog_step (s : bst) : bst :=
  match blg s with
  | LWait => match brem s with Asked => bset_lg s (bcmds s) (bresp s) (LCast 0) | _ => s end
  | LCast i => if i <? n then (if nil (bcmds s i) then bset_lg s (upd (bcmds s) i [block]) (bresp s) (LCast (S i)) else s) else bset_lg s (bcmds s) (bresp s) (LAwait 0)
  | LAwait i => if i <? n then match bresp s i with O => s | S r => bset_lg s (bcmds s) (upd (bresp s) i r) (LAwait (S i)) end
                else bset_lg s (bcmds s) (bresp s) LView
  | LView => if nil (fin s)
             then Bst (reset (bwho s)) (btq s) (bbatch s) (top s) (held s) (bcmds s) (bresp s) (bnxt s) (brem s) (LResume 0) (bseen s ++ [bnxt s]) verts (fun _ => None)
             else s
  | LResume i => if i <? n then (if nil (bcmds s i) then bset_lg s (upd (bcmds s) i [BResume]) (bresp s) (LResume (S i)) else s)
                 else Bst (bwho s) (btq s) (bbatch s) (top s) (held s) (bcmds s) (bresp s) (bnxt s) Streaming LWait (bseen s) (fin s) (copy s)
  end.
(** OnFinish, one vertex (pagerank.go:201-212). *)
Definition bread (s : bst) (v : nat) : bst :=
  if existsb (Nat.eqb v) (fin s)
  then Bst (bwho s) (btq s) (bbatch s) (top s) (held s) (bcmds s) (bresp s) (bnxt s) (brem s) (blg s) (bseen s)
           (List.filter (fun u => negb (u =? v)) (fin s)) (upd (copy s) v (Some (prop (eng (bwho s)) v, length (edges (eng (bwho s)) v))))
  else s.

Definition bon (s : bst) (t : nat) (x : wchoice a) : bst := bset_who s (wstep a owner swap n (bwho s) t x).
Definition blooking (s : bst) (t : nat) : bool := match Term_Model.at_ (trm (bwho s)) t with Term_Model.Look _ => true | _ => false end.
Definition breceiving (s : bst) (t : nat) : bool := match Term_Model.at_ (trm (bwho s)) t with Term_Model.Recv _ => true | _ => false end.
(** Does the thread find its topology queue closed (205-209)? *)
Definition closed_now (s : bst) (t : nat) : bool := negb (top s t) && nil (btq s t) && bfinished s.

Definition bloop (s : bst) (t : nat) (x : wchoice a) : bst :=
  match x with
  | Ctl Term_Model.Go => if blooking s t && negb (nil (btq s t)) && negb (top s t) then s else bon s t x
  | Ctl Term_Model.Close => if closed_now s t then bon s t x else s
  | Ctl (Term_Model.Own _) => s
  | Ctl Term_Model.Finish => if nil (bbatch s t) then bon s t x else s
  | Ctl Term_Model.FinishCheck => if nil (bbatch s t) && closed_now s t then bon s t x else s
  | Ctl (Term_Model.More b) => if nil (bbatch s t) && (negb b || closed_now s t) then bon s t x else s
  | Ctl _ => bon s t x
  | Do Pop => if nil (bbatch s t) then bon s t x else s
  | Do Run => bon s t x
  | Do (AddEdges v _) =>
      (* all that the batch has for [v], in its order *)
      let x := Do (AddEdges (a := a) v (out (bbatch s t) v)) in
      if (owner v =? t) && negb (nil (out (bbatch s t) v)) && negb (nil (ework a (bwho s) t x))
      then bset_top s (wstep a owner swap n (bwho s) t x) (btq s) (upd (bbatch s) t (rest_of a (bbatch s t) v)) else s
  | Do (SendInit _ _) => bon s t x
  | Do (DelEdges _ _) => s
  end.
(** [k] events are pulled from the topology queue, [r] have been remitted; neither when topology is blocked. *)
Definition bmay_pull (s : bst) (t : nat) (k : nat) (r : N) : bool :=
  blooking s t && Term_Model.open_ (trm (bwho s)) t && (k <=? length (btq s t)) && (negb (k =? 0) || nil (btq s t)) &&
  negb (top s t) && negb (N.of_nat k + r =? 0)%N.
Definition bpull (s : bst) (t : nat) (k : nat) (r : N) : bst :=
  if bmay_pull s t k r
  then bset_top s (wstep a owner swap n (bwho s) t (Ctl (Term_Model.Own (N.of_nat k + r - 1))))
                  (upd (btq s) t (skipn k (btq s t))) (upd (bbatch s) t (bbatch s t ++ firstn k (btq s t)))
  else s.
Definition btake (s : bst) (t : nat) : bst :=
  match bcmds s t with
  | [] => s
  | c :: l =>
      if breceiving s t then
        match c with
        | BlockAll => if bresp s t =? 0 then bset_cmd s (top s) (upd (held s) t true) (upd (bcmds s) t l) (upd (bresp s) t 1) else s
        | BlockTop => if bresp s t =? 0 then bset_cmd s (upd (top s) t true) (held s) (upd (bcmds s) t l) (upd (bresp s) t 1) else s
        | BResume => bset_cmd s (upd (top s) t false) (held s) (upd (bcmds s) t l) (bresp s)
        end
      else s
  end.
Definition btstep (s : bst) (t : nat) (x : tchoice a) : bst :=
  if n <=? t then s
  else if held s t then
    match x, bcmds s t with   (* 102: waits for RESUME; anything else panics *)
    | Awake, BResume :: c => bset_cmd s (top s) (upd (held s) t false) (upd (bcmds s) t c) (bresp s)
    | _, _ => s
    end
  else
    match x with
    | Take => btake s t
    | Loop x => bloop s t x
    | Pull k r => bpull s t k r
    | Answer | Awake => s
    end.

Inductive bactor := BRemitter | BLogger | BThread (t : nat) (x : tchoice a) | BFinisher (v : nat).
Definition bstep (s : bst) (x : bactor) : bst :=
  match x with BRemitter => bremit s | BLogger => blog_step s | BThread t x => btstep s t x | BFinisher v => bread s v end.
Definition brun (s : bst) (sched : list bactor) : bst := fold_left bstep sched s.
Definition bstart (e : est a) (sent0 : nat -> N) : bst :=
  Bst (wstart a e (fun _ => true) sent0) (fun _ => []) (fun _ => []) (fun _ => false) (fun _ => false) (fun _ => []) (fun _ => 0) 0 Streaming LWait [] [] (fun _ => None).

(** The steps of the engine that a step takes. *)
Definition bwork (s : bst) (x : bactor) : list (nat * choice a) :=
  match x with
  | BThread t (Loop x) =>
      if (n <=? t) || held s t then [] else
      match x with
      | Do Pop => if nil (bbatch s t) then ework a (bwho s) t x else []
      | Do Run | Do (SendInit _ _) => ework a (bwho s) t x
      | Do (AddEdges v _) =>
          let x := Do (AddEdges (a := a) v (out (bbatch s t) v)) in
          if (owner v =? t) && negb (nil (out (bbatch s t) v)) then ework a (bwho s) t x else []
      | _ => []
      end
  | _ => []
  end.
Fixpoint bworks (s : bst) (sched : list bactor) : list (nat * choice a) :=
  match sched with [] => [] | x :: l => bwork s x ++ bworks (bstep s x) l end.
End block.
Arguments bwho {a} _. Arguments btq {a} _ _. Arguments bbatch {a} _ _. Arguments top {a} _ _. Arguments held {a} _ _.
Arguments bcmds {a} _ _. Arguments bresp {a} _ _. Arguments bnxt {a} _. Arguments brem {a} _. Arguments blg {a} _. Arguments bseen {a} _.
Arguments fin {a} _. Arguments copy {a} _ _.
Arguments BRemitter {a}. Arguments BLogger {a}. Arguments BThread {a} _ _. Arguments BFinisher {a} _.
