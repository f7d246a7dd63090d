(** One iteration of a graph thread's loop, with all its commands, counters, buffers and waiting: graph/run-dynamic.go:99-350
    (checkCommandsDynamic and ConvergeDynamicThread), graph/run-async.go:174-240 (checkCommandsAsync and ConvergeAsyncThread) and
    utils/helpers.go:19-28 (BackOff).  What the iteration finds (commands, what checkToRemit does, notifications, events in the
    TopologyQueue, expired edges, the answers of CheckTermination and AwaitSuperStepConvergence) is given by a [world]; it may be
    anything.  Simplifications: time measurements and status are left out; the second buffer of ReceiveMessages (C31) is part of the
    notifications that are there; uint64 overflow of pullUpToBase is not modelled; a panic stops the thread. *)
From Verif Require Import Base.
Open Scope nat_scope.

Inductive cmd := BLOCK_ALL | BLOCK_TOP | BLOCK_TOP_ASYNC | RESUME | BLOCK_ALG_IF_TOP | TOP_SYNC | EPOCH.
Inductive crash := NotResumed | OutOfRange | TermBlocked | TooLong | NoTopology.

Section turn.
Context {E M : Type} (zero : E).
(** BASE_SIZE (graph.go:33), MSG_MAX (graph.go:35), TOPOLOGY_FIRST (graph.go:36); LogTimeseries and whether the algorithm has OnSuperStepConverged (run-dynamic.go:134-135). *)
Context (base msgmax : nat) (topFirst series super : bool).

Record world := World {
  w_cmd : option cmd;             (* len(gt.Command) > 0 and what it is *)
  w_next : cmd;                   (* the command received while blocked by BLOCK_ALL *)
  w_resume : cmd;                 (* the command received at the end of an epoch *)
  w_rclosed : bool; w_rcount : N; (* what checkToRemit returns *)
  w_mail : list M;                (* notifications waiting *)
  w_top : list E;                 (* events in the TopologyQueue *)
  w_tclosed : bool;               (* TopologyQueue.IsClosed *)
  w_more : list E;                (* expired edges that EnactTopologyEvents puts behind the events, stream-enact-events.go:177-181 *)
  w_edges : Z;                    (* addEvents - delEvents *)
  w_term : bool; w_super : bool }. (* what CheckTermination and AwaitSuperStepConvergence return *)

Record thr := Thr {
  blockTop : bool;
  topSync : bool;
  algIfTop : bool;
  epoch : bool;
  strucC : bool;
  remitC : bool;
  completed : bool;
  pull : nat;
  buff : list E;
  edges : Z;
  topCount : nat;
  notes : list M;
  topFail : N;
  algFail : N;
  acks : nat;
  doneE : nat;
  doneR : nat;
  slept : N;
  actions : N;
  enacted : list E;
  handled : list M;
  crashed : option crash }.
Definition set_blockTop (s : thr) (x : bool) : thr := Thr x (topSync s) (algIfTop s) (epoch s) (strucC s) (remitC s) (completed s) (pull s) (buff s) (edges s) (topCount s) (notes s) (topFail s) (algFail s) (acks s) (doneE s) (doneR s) (slept s) (actions s) (enacted s) (handled s) (crashed s).
Definition set_topSync (s : thr) (x : bool) : thr := Thr (blockTop s) x (algIfTop s) (epoch s) (strucC s) (remitC s) (completed s) (pull s) (buff s) (edges s) (topCount s) (notes s) (topFail s) (algFail s) (acks s) (doneE s) (doneR s) (slept s) (actions s) (enacted s) (handled s) (crashed s).
Definition set_algIfTop (s : thr) (x : bool) : thr := Thr (blockTop s) (topSync s) x (epoch s) (strucC s) (remitC s) (completed s) (pull s) (buff s) (edges s) (topCount s) (notes s) (topFail s) (algFail s) (acks s) (doneE s) (doneR s) (slept s) (actions s) (enacted s) (handled s) (crashed s).
Definition set_epoch (s : thr) (x : bool) : thr := Thr (blockTop s) (topSync s) (algIfTop s) x (strucC s) (remitC s) (completed s) (pull s) (buff s) (edges s) (topCount s) (notes s) (topFail s) (algFail s) (acks s) (doneE s) (doneR s) (slept s) (actions s) (enacted s) (handled s) (crashed s).
Definition set_strucC (s : thr) (x : bool) : thr := Thr (blockTop s) (topSync s) (algIfTop s) (epoch s) x (remitC s) (completed s) (pull s) (buff s) (edges s) (topCount s) (notes s) (topFail s) (algFail s) (acks s) (doneE s) (doneR s) (slept s) (actions s) (enacted s) (handled s) (crashed s).
Definition set_remitC (s : thr) (x : bool) : thr := Thr (blockTop s) (topSync s) (algIfTop s) (epoch s) (strucC s) x (completed s) (pull s) (buff s) (edges s) (topCount s) (notes s) (topFail s) (algFail s) (acks s) (doneE s) (doneR s) (slept s) (actions s) (enacted s) (handled s) (crashed s).
Definition set_completed (s : thr) (x : bool) : thr := Thr (blockTop s) (topSync s) (algIfTop s) (epoch s) (strucC s) (remitC s) x (pull s) (buff s) (edges s) (topCount s) (notes s) (topFail s) (algFail s) (acks s) (doneE s) (doneR s) (slept s) (actions s) (enacted s) (handled s) (crashed s).
Definition set_pull (s : thr) (x : nat) : thr := Thr (blockTop s) (topSync s) (algIfTop s) (epoch s) (strucC s) (remitC s) (completed s) x (buff s) (edges s) (topCount s) (notes s) (topFail s) (algFail s) (acks s) (doneE s) (doneR s) (slept s) (actions s) (enacted s) (handled s) (crashed s).
Definition set_buff (s : thr) (x : list E) : thr := Thr (blockTop s) (topSync s) (algIfTop s) (epoch s) (strucC s) (remitC s) (completed s) (pull s) x (edges s) (topCount s) (notes s) (topFail s) (algFail s) (acks s) (doneE s) (doneR s) (slept s) (actions s) (enacted s) (handled s) (crashed s).
Definition set_edges (s : thr) (x : Z) : thr := Thr (blockTop s) (topSync s) (algIfTop s) (epoch s) (strucC s) (remitC s) (completed s) (pull s) (buff s) x (topCount s) (notes s) (topFail s) (algFail s) (acks s) (doneE s) (doneR s) (slept s) (actions s) (enacted s) (handled s) (crashed s).
Definition set_topCount (s : thr) (x : nat) : thr := Thr (blockTop s) (topSync s) (algIfTop s) (epoch s) (strucC s) (remitC s) (completed s) (pull s) (buff s) (edges s) x (notes s) (topFail s) (algFail s) (acks s) (doneE s) (doneR s) (slept s) (actions s) (enacted s) (handled s) (crashed s).
Definition set_notes (s : thr) (x : list M) : thr := Thr (blockTop s) (topSync s) (algIfTop s) (epoch s) (strucC s) (remitC s) (completed s) (pull s) (buff s) (edges s) (topCount s) x (topFail s) (algFail s) (acks s) (doneE s) (doneR s) (slept s) (actions s) (enacted s) (handled s) (crashed s).
Definition set_topFail (s : thr) (x : N) : thr := Thr (blockTop s) (topSync s) (algIfTop s) (epoch s) (strucC s) (remitC s) (completed s) (pull s) (buff s) (edges s) (topCount s) (notes s) x (algFail s) (acks s) (doneE s) (doneR s) (slept s) (actions s) (enacted s) (handled s) (crashed s).
Definition set_algFail (s : thr) (x : N) : thr := Thr (blockTop s) (topSync s) (algIfTop s) (epoch s) (strucC s) (remitC s) (completed s) (pull s) (buff s) (edges s) (topCount s) (notes s) (topFail s) x (acks s) (doneE s) (doneR s) (slept s) (actions s) (enacted s) (handled s) (crashed s).
Definition set_acks (s : thr) (x : nat) : thr := Thr (blockTop s) (topSync s) (algIfTop s) (epoch s) (strucC s) (remitC s) (completed s) (pull s) (buff s) (edges s) (topCount s) (notes s) (topFail s) (algFail s) x (doneE s) (doneR s) (slept s) (actions s) (enacted s) (handled s) (crashed s).
Definition set_doneE (s : thr) (x : nat) : thr := Thr (blockTop s) (topSync s) (algIfTop s) (epoch s) (strucC s) (remitC s) (completed s) (pull s) (buff s) (edges s) (topCount s) (notes s) (topFail s) (algFail s) (acks s) x (doneR s) (slept s) (actions s) (enacted s) (handled s) (crashed s).
Definition set_doneR (s : thr) (x : nat) : thr := Thr (blockTop s) (topSync s) (algIfTop s) (epoch s) (strucC s) (remitC s) (completed s) (pull s) (buff s) (edges s) (topCount s) (notes s) (topFail s) (algFail s) (acks s) (doneE s) x (slept s) (actions s) (enacted s) (handled s) (crashed s).
Definition set_slept (s : thr) (x : N) : thr := Thr (blockTop s) (topSync s) (algIfTop s) (epoch s) (strucC s) (remitC s) (completed s) (pull s) (buff s) (edges s) (topCount s) (notes s) (topFail s) (algFail s) (acks s) (doneE s) (doneR s) x (actions s) (enacted s) (handled s) (crashed s).
Definition set_actions (s : thr) (x : N) : thr := Thr (blockTop s) (topSync s) (algIfTop s) (epoch s) (strucC s) (remitC s) (completed s) (pull s) (buff s) (edges s) (topCount s) (notes s) (topFail s) (algFail s) (acks s) (doneE s) (doneR s) (slept s) x (enacted s) (handled s) (crashed s).
Definition set_enacted (s : thr) (x : list E) : thr := Thr (blockTop s) (topSync s) (algIfTop s) (epoch s) (strucC s) (remitC s) (completed s) (pull s) (buff s) (edges s) (topCount s) (notes s) (topFail s) (algFail s) (acks s) (doneE s) (doneR s) (slept s) (actions s) x (handled s) (crashed s).
Definition set_handled (s : thr) (x : list M) : thr := Thr (blockTop s) (topSync s) (algIfTop s) (epoch s) (strucC s) (remitC s) (completed s) (pull s) (buff s) (edges s) (topCount s) (notes s) (topFail s) (algFail s) (acks s) (doneE s) (doneR s) (slept s) (actions s) (enacted s) x (crashed s).
Definition set_crashed (s : thr) (x : option crash) : thr := Thr (blockTop s) (topSync s) (algIfTop s) (epoch s) (strucC s) (remitC s) (completed s) (pull s) (buff s) (edges s) (topCount s) (notes s) (topFail s) (algFail s) (acks s) (doneE s) (doneR s) (slept s) (actions s) (enacted s) (handled s) x.

(** Lines 137-148 and graph.go:138: the buffer starts with 64 times the size of a batch. *)
Definition tstart : thr :=
  Thr false false false false false false false base (repeat zero (64 * base)) 0%Z 0 [] 0 0 0 0 0 0 0 [] [] None.

(** utils/helpers.go:19-28: sleeps (count + 1) * 100 microseconds, then panics if the count is above 2000. *)
Definition backoff (s : thr) (c : N) : thr :=
  let s := set_slept s (slept s + (c + 1) * 100)%N in
  if (2000 <? c)%N then set_crashed s (Some TooLong) else s.

Definition ack (s : thr) : thr := set_acks s (S (acks s)).
(** run-dynamic.go:99-125. *)
Definition command (s : thr) (c next : cmd) : thr :=
  match c with
  | BLOCK_ALL => let s := ack s in match next with RESUME => s | _ => set_crashed s (Some NotResumed) end
  | BLOCK_TOP => ack (set_blockTop s true)
  | BLOCK_TOP_ASYNC => set_blockTop s true
  | RESUME => set_blockTop s false
  | BLOCK_ALG_IF_TOP => set_algIfTop s true
  | TOP_SYNC => set_topSync s true
  | EPOCH => set_epoch s true
  end.

(** Lines 174-192, with the count that the rest of the iteration sees. *)
Definition remit (s : thr) (w : world) : thr * N :=
  if (negb (epoch s) && negb (remitC s) && negb (blockTop s))%bool then
    let s := set_actions s (actions s + w_rcount w)%N in
    if w_rclosed w then (set_doneR (set_remitC s true) (S (doneR s)), 0%N) else (s, w_rcount w)
  else (s, 0%N).

(** Lines 194-198, run-async.go:109-148. *)
Definition receive (s : thr) (w : world) : thr :=
  set_notes s (notes s ++ firstn (msgmax - length (notes s)) (w_mail w)).

(** Lines 205-215: [n] more events may be pulled, [i] are.  Each Accept writes to the buffer, also the last one that finds nothing
    (it writes an empty event).  Result: buffer, number of events, whether an Accept failed. *)
Fixpoint fill (n i : nat) (b : list E) (l : list E) : option (list E * nat * bool) :=
  match n with
  | O => Some (b, i, false)
  | S n' =>
      if i <? length b then
        match l with e :: l' => fill n' (S i) (<[i := e]> b) l' | [] => Some (<[i := zero]> b, i, true) end
      else None
  end.
(** stream-enact-events.go:175-184: expired edges go behind the events, at the end of the buffer if there is no room. *)
Fixpoint inject (i : nat) (b : list E) (l : list E) : list E :=
  match l with
  | [] => b
  | e :: l' => inject (S i) (if length b <=? i then b ++ [e] else <[i := e]> b) l'
  end.

(** Lines 236-247. *)
Definition grown (s : thr) : thr :=
  if (N.of_nat (pull s) <? Z.to_N (edges s mod 2 ^ 32) / 64)%N then
    let s := set_pull s (2 * pull s) in
    if length (buff s) <? pull s then set_buff s (repeat zero (pull s)) else s
  else s.
Definition done_events (s : thr) : thr := set_doneE s (S (doneE s)).

(** Lines 203-270: the new state, whether the loop starts again (continue), topFailed. *)
Definition topology (s : thr) (w : world) (rc : N) : thr * bool * bool :=
  match fill (pull s) 0 (buff s) (w_top w) with
  | None => (set_crashed s (Some OutOfRange), false, false)
  | Some (b, k, failed) =>
      let s := set_topCount (set_buff s b) k in
      let s := if (failed && w_tclosed w)%bool then set_strucC s true else s in
      if negb (k =? 0) then
        let s := set_actions s (actions s + N.of_nat k)%N in
        let s := set_buff s (inject k (buff s) (w_more w)) in
        let s := set_enacted s (enacted s ++ firstn (k + length (w_more w)) (buff s)) in
        let s := set_edges s (edges s + w_edges w)%Z in
        if ((k =? pull s) || topSync s)%bool then
          let s := grown s in (if strucC s then done_events s else s, true, false)
        else if series then (if strucC s then done_events s else s, true, false)
        else (if strucC s then done_events (set_buff s []) else s, false, false)
      else
        let '(s, tf) :=
          if (topSync s && (rc =? 0)%N)%bool then (ack (set_topSync s false), false)
          else (s, ((rc =? 0)%N && negb (epoch s))%bool) in
        (if strucC s then done_events (set_buff s []) else s, false, tf)
  end.

(** Lines 272-305 (and ProcessMessages, run-async.go:152-172): the new state and algFailed. *)
Definition check_term (s : thr) : bool :=
  ((strucC s && remitC s) || (blockTop s && super) || (epoch s && (topCount s =? 0)))%bool.
Definition empty {A} (l : list A) : bool := match l with [] => true | _ => false end.
Definition algorithm (s : thr) (w : world) : thr * bool :=
  let c := (empty (notes s) && check_term s && w_term w)%bool in
  let af := (negb c && empty (notes s))%bool in
  let s := set_notes (set_handled s (handled s ++ notes s)) [] in
  let c := if (c && super)%bool then w_super w else c in
  if (c && epoch s)%bool then
    let s := ack s in
    match w_resume w with
    | RESUME => (set_algFail (set_topFail (set_completed (set_epoch s false) false) 0%N) 0%N, af)
    | _ => (set_crashed s (Some NotResumed), af)
    end
  else if (c && blockTop s)%bool then (set_crashed s (Some TermBlocked), af)
  else (set_completed s c, af).

(** Lines 308-338. *)
Definition back_off (s : thr) (pt pa tf af : bool) : thr :=
  if ((negb pt || tf) && (negb pa || af))%bool then
    let s := if tf then let s := backoff s (topFail s) in set_topFail s (topFail s + 1)%N else set_topFail s 0%N in
    match crashed s with
    | Some _ => s
    | None =>
        if af then
          let s := if (algFail s mod 10 =? 0)%N then backoff s (algFail s / 10)%N else s in set_algFail s (algFail s + 1)%N
        else set_algFail s 0%N
    end
  else set_algFail (set_topFail s 0%N) 0%N.

(** Lines 160-344. *)
Definition turn (s : thr) (w : world) : thr :=
  match crashed s, completed s with
  | None, false =>
      let s := match w_cmd w with Some c => command s c (w_next w) | None => s end in
      match crashed s with
      | Some _ => s
      | None =>
          let '(s, rc) := remit s w in
          let pa := (strucC s || negb (topFirst || algIfTop s))%bool in
          let s := if pa then receive s w else s in
          let pt := (negb (strucC s) && negb (blockTop s))%bool in
          let '(s, again, tf) := if pt then topology s w rc else (s, false, false) in
          match crashed s, again with
          | None, false =>
              let '(s, af) := if pa then algorithm s w else (s, false) in
              match crashed s with Some _ => s | None => back_off s pt pa tf af end
          | _, _ => s
          end
      end
  | _, _ => s
  end.
Definition turns (s : thr) (ws : list world) : thr := fold_left turn ws s.

(** The static loop, run-async.go:174-240: algNoCountTimes is [algFail]. *)
Definition command_static (s : thr) (c next : cmd) : thr :=
  match c with
  | BLOCK_ALL => let s := ack s in match next with RESUME => s | _ => set_crashed s (Some NotResumed) end
  | BLOCK_TOP | BLOCK_ALG_IF_TOP | TOP_SYNC => set_crashed s (Some NoTopology)
  | EPOCH => set_epoch s true
  | RESUME | BLOCK_TOP_ASYNC => s
  end.
Definition turn_static (s : thr) (w : world) : thr :=
  match crashed s, completed s with
  | None, false =>
      let s := match w_cmd w with Some c => command_static s c (w_next w) | None => s end in
      match crashed s with
      | Some _ => s
      | None =>
          let s := receive s w in
          let c := (empty (notes s) && w_term w)%bool in
          let s := if (negb c && empty (notes s))%bool then
              let s := set_algFail s (algFail s + 1)%N in
              if (algFail s mod 100 =? 0)%N then backoff s (algFail s / 100)%N else s
            else set_algFail s 0%N in
          match crashed s with
          | Some _ => s
          | None =>
              let s := set_notes (set_handled s (handled s ++ notes s)) [] in
              let c := if (c && super)%bool then w_super w else c in
              if (c && epoch s)%bool then
                let s := ack s in
                match w_resume w with
                | RESUME => set_algFail (set_epoch s false) 0%N
                | _ => set_crashed s (Some NotResumed)
                end
              else set_completed s c
          end
      end
  | _, _ => s
  end.
Definition turns_static (s : thr) (ws : list world) : thr := fold_left turn_static ws s.

(** The waiting of a queue's slow operations (utils/ring-buffer.go:114-130, 166-179, 274-285, 315-326, 358-365, 481-496): look; if it is
    not ready, BackOff with the number of failures so far.  [looks]: what each look finds.  Result: the failures, and whether it panicked. *)
Inductive waited := Ready (fails : N) | Panic | Waiting (fails : N).
Fixpoint slow (fails : N) (looks : list bool) : waited :=
  match looks with
  | [] => Waiting fails
  | true :: _ => Ready fails
  | false :: l => if (2000 <? fails)%N then Panic else slow (fails + 1) l
  end.
End turn.
