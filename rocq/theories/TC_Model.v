(** Triangle counting (cmd/lp-tc/tc.go) on the engine with active notifications, fed by a stream of
    undirected edges.

    Vertices are numbered; [raw] gives their raw identifiers (uint32).  Counters are natural
    numbers (uint32 there).  The edges a notification carries are a slice of the edges of its
    sender, which are never changed once added; here it is their raw identifiers.  OnEdgeDel
    panics and is not modelled. *)
From Verif Require Import Base Active_Spec Active_Model.

Definition EMPTY : N := 4294967295.       (* tc.go:16, math.MaxUint32 *)
Definition FLAG : N := 2147483648.        (* tc.go:17 *)
Definition MASK : N := 2147483647.        (* tc.go:18 *)
Definition flagged (r : N) : bool := negb (N.land r FLAG =? 0)%N.

(** tc.go:20-25; the map is a list of pairs. *)
Record tcp := Tcp { NumLeader : nat; UpdateAt : nat; EdgesToPos : list (N * nat) }.
Fixpoint find_pos (m : list (N * nat)) (r : N) : option nat :=
  match m with [] => None | (k, p) :: m' => if (k =? r)%N then Some p else find_pos m' r end.
(** An edge: Property.Raw and Pos. *)
Notation tedge := (N * nat)%type.
(** tc.go:36-39: NewEdges and Pos. *)
Notation tnote := (list N * nat)%type.

(** tc.go:64-73: the edges that close a triangle. *)
Definition closes (m : list (N * nat)) (pos : nat) (r : N) : bool :=
  negb (r =? EMPTY)%N && match find_pos m (N.land r MASK) with Some p => p <? pos | None => false end.
Definition closing (m : list (N * nat)) (x : tnote) : nat := length (List.filter (closes m (snd x)) (fst x)).

(** Notifications along the edges [from..to) that are not flagged, with the edges [lo..hi e). *)
Definition along (es : list (nat * tedge)) (from to lo : nat) (hi : nat -> nat) : list (nat * tnote) :=
  flat_map (fun e => match nth_error es e with
    | Some (d, (r, pos)) => if flagged r then [] else [(d, (map (fun x => fst (snd x)) (firstn (hi e - lo) (skipn lo es)), pos))]
    | None => [] end) (seq from (to - from)).

(** tc.go:95-107 OnInEdgeAdd: the new property, and the raw identifier the edge gets. *)
Definition on_in_edge (p : tcp) (src dst : N) (pos idx : nat) : tcp * N :=
  if (dst =? src)%N then (p, EMPTY)
  else match find_pos (EdgesToPos p) src with
    | None => (Tcp (NumLeader p) (UpdateAt p) ((src, pos) :: EdgesToPos p), if Nat.even idx then N.lor dst FLAG else dst)
    | Some _ => (p, EMPTY)
    end.

Definition tcount : aalg := {|
  p_t := tcp; n_t := tnote; e_t := tedge; u_t := N * N * nat * nat;
  touch '(src, dst, pos, idx) p := fst (on_in_edge p src dst pos idx);
  areact _ k act p es :=
    match k with
    | KNote x =>                                           (* 61-92 OnUpdateVertex *)
        let p := Tcp (NumLeader p + closing (EdgesToPos p) x) (UpdateAt p) (EdgesToPos p) in
        if (act =? 0) && (UpdateAt p <? length es)
        then (Tcp (NumLeader p) (length es) (EdgesToPos p), along es (S (UpdateAt p)) (length es) (UpdateAt p) (fun e => e))
        else (p, [])
    | KAdded start =>                                      (* 110-136 OnEdgeAdd *)
        let '(p, ms) := if act =? 0
          then (Tcp (NumLeader p) (length es) (EdgesToPos p), along es (S (UpdateAt p)) start (UpdateAt p) (fun e => e))
          else (p, []) in
        (p, ms ++ along es start (length es) 0 (fun e => Nat.min (UpdateAt p) e))
    end |}.

(** The stream.  The emitter sends every edge twice, from source to destination and back, with
    consecutive indices (graph/stream.go:188-226).  A destination sees its events in order, and
    marks each with the raw identifier and its position (stream-enact-events.go:93-112); then the
    source adds them, in order, in batches.  Events of different vertices are not ordered. *)
Definition events (E : list (nat * nat)) : list (nat * nat) := flat_map (fun '(a, b) => [(a, b); (b, a)]) E.
Definition event (E : list (nat * nat)) (i : nat) : nat * nat := nth i (events E) (0, 0).
Definition those (E : list (nat * nat)) (p : nat * nat -> bool) : list nat :=
  List.filter (fun i => p (event E i)) (seq 0 (length (events E))).
Definition ins E v : list nat := those E (fun e => snd e =? v).
Definition outs E u : list nat := those E (fun e => fst e =? u).

Record tst := Tst { base : ast tcount; got : nat -> nat; added : nat -> nat; mark : nat -> option tedge }.
Inductive tchoice := TRun | TPop | TNote (v : nat) | TIn (v : nat) | TOut (v k : nat).

Fixpoint marked (E : list (nat * nat)) (m : nat -> option tedge) (l : list nat) : option (list (nat * tedge)) :=
  match l with
  | [] => Some []
  | i :: r => match m i, marked E m r with Some x, Some y => Some ((snd (event E i), x) :: y) | _, _ => None end
  end.

Section tc.
Context (raw : nat -> N) (owner : nat -> nat) (E : list (nat * nat)).
(** Thread [t] runs, takes a notification, sends the initial notification of a vertex
    (tc.go:56-58), receives the next event into [v], or adds up to [k] edges at [v]. *)
Definition tstep (s : tst) (t : nat) (c : tchoice) : tst :=
  let on c' := Tst (astep tcount owner (base s) t c') (got s) (added s) (mark s) in
  match c with
  | TRun => on ARun
  | TPop => on APop
  | TNote v => on (ANote (a := tcount) v ([], 0))
  | TIn v =>
      match atodo (base s) t, nth_error (ins E v) (got s v) with
      | [], Some i =>
          if owner v =? t
          then let u := fst (event E i) in
               let pos := got s v in
               let '(p, r) := on_in_edge (aprop (base s) v) (raw u) (raw v) pos i in
               Tst (astep tcount owner (base s) t (ATouch (a := tcount) v (raw u, raw v, pos, i)))
                   (upd (got s) v (S pos)) (added s) (upd (mark s) i (Some (r, pos)))
          else s
      | _, _ => s
      end
  | TOut v k =>
      match atodo (base s) t, marked E (mark s) (firstn k (skipn (added s v) (outs E v))) with
      | [], Some (e :: es) =>
          if owner v =? t
          then Tst (astep tcount owner (base s) t (AAdd (a := tcount) v (e :: es))) (got s) (upd (added s) v (added s v + length (e :: es))) (mark s)
          else s
      | _, _ => s
      end
  end.
Definition trun (s : tst) (sched : list (nat * tchoice)) : tst := fold_left (fun s '(t, c) => tstep s t c) sched s.
Definition tnew : tst := Tst (astart tcount (fun _ => Tcp 0 0 []) (fun _ => [])) (fun _ => 0) (fun _ => 0) (fun _ => None).

(** A static graph: all events are received and added before the algorithm starts, without
    OnEdgeAdd. *)
Definition tloaded : tst :=
  let s := trun tnew (map (fun i => let v := snd (event E i) in (owner v, TIn v)) (seq 0 (length (events E)))) in
  let es v := match marked E (mark s) (outs E v) with Some l => l | None => [] end in
  Tst (Ast (aact (base s)) (aqueue (base s)) (aprop (base s)) es (atodo (base s)) (alog (base s)))
      (got s) (fun v => length (es v)) (mark s).
End tc.
