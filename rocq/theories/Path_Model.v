(** Model of cmd/lp-temporal-paths/temporal-paths.go for the engine of Engine_Model.v; MailRetrieve and
    pushWindows are in Window_Model.v.  A mailbox is NewPath followed by the slice NbrScratch; an edge
    has its timestamp, its end time (0: none) and its position.  MailMerge is one step: a slot is
    written by a single vertex, the slice grows under the lock, and the unlocked reads of the slice are
    taken to be consistent.  Edges are never removed (the program sets TimeRange, main.go:17): a
    deletion sets the end time of an edge. *)
From Verif Require Import Base Engine_Model Window_Spec Window_Model.
Open Scope nat_scope.

(** A mail has Pos = MaxUint32 (initial mail of the source), or a position and an offer. *)
Inductive tmsg := MInit | MOffer (pos : nat) (offer : path).
(** Lines 90-118. *)
Definition grow_slots (l : list path) (pos : nat) : list path := l ++ replicate (S pos - length l) no_path.
Definition tp_merge (m : tmsg) (cells : list path) : list path * bool :=
  match cells with
  | [] => ([], false)
  | new :: slots =>
      match m with
      | MInit => (whole :: slots, true)
      | MOffer pos p =>
          if length slots <=? pos then (new :: <[pos := p]> (grow_slots slots pos), true)
          else match slots !! pos with
               | Some prev => if differ prev p then (new :: <[pos := p]> slots, true) else (cells, false)
               | None => (cells, false)
               end
      end
  end.

Definition tedge : Type := N * N * nat.
(** Lines 370-376, 388-393: offers to a range of edges, the search starting where the previous one found a window. *)
Fixpoint push_all (ws : list path) (from : nat) (es : list (nat * tedge)) : list (nat * tmsg) :=
  match es with
  | [] => []
  | (d, (ts, en, pos)) :: es' =>
      let '(o, f) := find_offer ts en ws from in (d, MOffer pos o) :: push_all ws f es'
  end.
(** Lines 405-408. *)
Definition push_each (ws : list path) (es : list (nat * tedge)) : list (nat * tmsg) :=
  map (fun '(d, (ts, en, pos)) => (d, MOffer pos (fst (find_offer ts en ws 0)))) es.
(** Lines 361-378. *)
Definition on_update (p : tprop) (es : list (nat * tedge)) : tprop * list (nat * tmsg) :=
  if changed p then (TProp (nexts p) (wins p) false, push_all (nexts p) 0 es) else (p, []).
(** Lines 361-410, after MailRetrieve.  [None] is a vertex at which MailRetrieve aborted the program. *)
Definition tp_react (k : kind tedge) (p : option tprop) (es : list (nat * tedge)) (cs : list path) :
    option tprop * list (nat * tmsg) * list (nat * tmsg) :=
  match p, cs with
  | Some p, new :: slots =>
      match mail_retrieve new slots p with
      | None => (None, [], [])
      | Some q =>
          let '(q, ms) := on_update q es in
          match k with
          | KUpd => (Some q, ms, [])
          | KAdd start => (Some q, ms, push_all (wins q) 0 (skipn start es))
          | KDel ended => (Some q, ms, push_each (wins q) ended)
          end
      end
  | _, _ => (p, [], [])
  end.
Definition tpaths : alg := {|
  prop_t := option tprop; cell_t := path; msg_t := tmsg; edge_t := tedge;
  merge m _ _ cells := tp_merge m cells; take c := (c, c);
  react v k p es cs := tp_react k p es cs |}.

(** graph/stream-enact-events.go:350-388: the edge of [u] at a slot (destination, position) gets an end
    time; [ended] are those edges as handed to OnEdgeDel (there in the order of the events). *)
Definition set_end (x : nat * nat * N) (e : nat * tedge) : nat * tedge :=
  let '(d, p, en) := x in let '(d', (ts, en', p')) := e in
  if (d =? d') && (p =? p') then (d', (ts, en, p')) else e.
Definition end_all (l : list (nat * nat * N)) (es : list (nat * tedge)) : list (nat * tedge) :=
  fold_left (fun es x => map (set_end x) es) l es.
Definition ended (l : list (nat * nat * N)) (es : list (nat * tedge)) : list (nat * tedge) :=
  List.filter (fun '(d, (_, _, p)) => existsb (fun '(d', p', _) => (d =? d') && (p =? p')) l) es.

(** Scheduling: as in the engine; the initial mail goes to the source (main.go:20-21); new edges (dst, (timestamp, position)) have no
    end time; edges end. *)
Inductive tchoice :=
| TRun | TPop | TInit
| TAdd (v : nat) (es : list (nat * (N * nat)))
| TEnd (v : nat) (l : list (nat * nat * N)).
Definition new_edge (e : nat * (N * nat)) : nat * tedge := let '(d, (ts, p)) := e in (d, (ts, 0%N, p)).
Definition tstep (owner : nat -> nat) (src : nat) (s : est tpaths) (t : nat) (c : tchoice) : est tpaths :=
  match c with
  | TRun => estep tpaths owner s t (Run tpaths)
  | TPop => estep tpaths owner s t (Pop tpaths)
  | TInit => estep tpaths owner s t (SendInit tpaths src MInit)
  | TAdd v es => estep tpaths owner s t (AddEdges tpaths v (map new_edge es))
  | TEnd v l =>
      match todo tpaths s t with
      | [] => if owner v =? t
              then let es := end_all l (edges tpaths s v) in
                   start_task tpaths (set_edges tpaths s v es) t [Begin tpaths v (KDel (ended l es))]
              else s
      | _ => s
      end
  end.
Definition tpath_run owner src (s : est tpaths) (sched : list (nat * tchoice)) : est tpaths :=
  fold_left (fun s '(t, c) => tstep owner src s t c) sched s.
(** Lines 45-47, 79-88: vertices and mailboxes as created, [b v] slots. *)
Definition tpath_start (b : nat -> nat) (es : nat -> list (nat * tedge)) : est tpaths :=
  estart tpaths (fun v => no_path :: replicate (b v) no_path) (fun _ => Some (TProp [] [] false)) es.

(** An edge without its end time, and the edges that are ever added at [u]. *)
Definition stat (e : nat * tedge) : nat * (N * nat) := let '(d, (ts, _, p)) := e in (d, (ts, p)).
Definition tadded (sched : list (nat * tchoice)) (u : nat) : list (nat * (N * nat)) :=
  concat (map (fun '(_, c) => match c with TAdd v es => if v =? u then es else [] | _ => [] end) sched).
Definition tever (es : nat -> list (nat * tedge)) (sched : list (nat * tchoice)) (u : nat) : list (nat * (N * nat)) :=
  map stat (es u) ++ tadded sched u.
