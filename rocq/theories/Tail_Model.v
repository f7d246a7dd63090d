(** Model of the way of a query's result into the printed table: Remitter (ExecuteQuery),
    LogTimeSeries, QueryFinishConcurrent and main as goroutines.
    [must]: the algorithm has OnFinish (queries.go:33-36).  What happens to the threads while the
    logger looks is the subject of Query_Model and Block_Model; here it is one step.  [n]: number of
    queries of the run.  [two]: the logger alternates between two views (true in the code). *)
From Verif Require Import Base Tail_Spec.

Inductive logger := LIdle | LGot (k : nat) | LCopied (k : nat) | LSent (k : nat) | LExit.
Inductive finisher := FIdle | FWork (k : nat) (view : bool).
Inductive launch := MRun | MClosed | MPrinted (table : list (nat * option nat)).

Record tail := Tail {
  issued : nat;                   (* queries sent by the Remitter *)
  entries : list nat;             (* g.LogEntryChan *)
  waiting : nat;                  (* g.QueryWaiter *)
  log : logger;
  cur : bool;                     (* which of the two views is currG *)
  view0 : option nat; view1 : option nat;  (* the query whose structure the view holds *)
  fin : finisher;
  tsdb : list (nat * option nat); (* tsDB of the algorithm *)
  main : launch
}.
Definition start_tail : tail := Tail 0 [] 0 LIdle false None None FIdle [] MRun.

Definition look (s : tail) (b : bool) : option nat := if b then view1 s else view0 s.

Inductive act := AIssue | AClose | ARecv | ACopy | ASend | ADone | AExit | AFinish | APrint.

Section model.
  Context (must two : bool) (n : nat).
  Definition tstep (s : tail) (a : act) : tail :=
    match a with
    | AIssue => (* graph.go:208-214; the Remitter waits before it goes on *)
        if (issued s <? n) && (waiting s =? 0) then
          Tail (S (issued s)) (entries s ++ [issued s]) 1 (log s) (cur s) (view0 s) (view1 s) (fin s) (tsdb s) (main s)
        else s
    | AClose => (* algorithm.go:211-213: Run has returned, so the stream has ended; close(g.LogEntryChan) *)
        match main s with
        | MRun => if (issued s =? n) && (waiting s =? 0) then
            Tail (issued s) (entries s) (waiting s) (log s) (cur s) (view0 s) (view1 s) (fin s) (tsdb s) MClosed
          else s
        | _ => s
        end
    | ARecv => (* queries.go:47 *)
        match log s, entries s with
        | LIdle, k :: r => Tail (issued s) r (waiting s) (LGot k) (cur s) (view0 s) (view1 s) (fin s) (tsdb s) (main s)
        | _, _ => s
        end
    | ACopy => (* 100-109 if the algorithm finishes; else 116-119: QueryFinalize on g itself *)
        match log s with
        | LGot k =>
            if must then
              if cur s then Tail (issued s) (entries s) (waiting s) (LCopied k) (cur s) (view0 s) (Some k) (fin s) (tsdb s) (main s)
              else Tail (issued s) (entries s) (waiting s) (LCopied k) (cur s) (Some k) (view1 s) (fin s) (tsdb s) (main s)
            else Tail (issued s) (entries s) (waiting s) (LSent k) (cur s) (view0 s) (view1 s) (fin s) (tsdb s ++ [(k, Some k)]) (main s)
        | _ => s
        end
    | ASend => (* 112-113: unbuffered, so the finisher must be receiving *)
        match log s, fin s with
        | LCopied k, FIdle =>
            Tail (issued s) (entries s) (waiting s) (LSent k) (if two then negb (cur s) else cur s) (view0 s) (view1 s) (FWork k (cur s)) (tsdb s) (main s)
        | _, _ => s
        end
    | ADone => (* 143 *)
        match log s with
        | LSent k => Tail (issued s) (entries s) (waiting s - 1) LIdle (cur s) (view0 s) (view1 s) (fin s) (tsdb s) (main s)
        | _ => s
        end
    | AExit => (* 47, 145: the channel is closed and empty *)
        match log s, entries s, main s with
        | LIdle, [], MRun => s
        | LIdle, [], _ => Tail (issued s) [] (waiting s) LExit (cur s) (view0 s) (view1 s) (fin s) (tsdb s) (main s)
        | _, _, _ => s
        end
    | AFinish => (* 155-162: OnFinish and QueryFinalize, which appends to tsDB *)
        match fin s with
        | FWork k b => Tail (issued s) (entries s) (waiting s) (log s) (cur s) (view0 s) (view1 s) FIdle (tsdb s ++ [(k, look s b)]) (main s)
        | FIdle => s
        end
    | APrint => (* cmd/lp-pagerank/main.go:42-44: PrintTimeSeries after the launch has returned *)
        match main s with
        | MClosed => Tail (issued s) (entries s) (waiting s) (log s) (cur s) (view0 s) (view1 s) (fin s) (tsdb s) (MPrinted (tsdb s))
        | _ => s
        end
    end.
  Definition trun (l : list act) : tail := fold_left tstep l start_tail.
End model.
