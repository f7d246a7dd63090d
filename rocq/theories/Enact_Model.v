(** Model of graph/stream-enact-events.go: checkInsertPending, InjectExpired and
    EnactTopologyEvents.  [None] is a panic.  Source vertices are given by their internal id
    (the VertexMap look-up is C52); a vertex not seen before has PendingIdx 0 and no edges, as
    NewVertex makes it. *)
From Verif Require Import Base Load_Spec.
Open Scope N_scope.

Section model.
  (** The edge property with its accessors. *)
  Context {P : Type} (get_ts get_end : P -> N) (set_ts set_end : N -> P -> P).

  (** graph-edge.go:15-19 [Edge]; stream.go:71-76 [RawEdgeEvent], the packed word already
      taken apart (C21). *)
  Record edge := Edge { didx : N; pos : N; prop : P }.
  Record ev := Ev { etype : N; eidx : N; esrc : N; eedge : edge }.

  (** graph.go:85-105, the fields used here. *)
  Record gt := Gt {
    pending : N -> N; unique : N; pbuff : list (list N);
    tbuff : list ev; outs : N -> list edge; expired : list (N * ev) }.

  Definition upd {A} (f : N -> A) (i : N) (x : A) : N -> A := fun j => if j =? i then x else f j.
  Definition nget {A} (l : list A) (i : N) : option A := l !! N.to_nat i.
  Definition nset {A} (l : list A) (i : N) (x : A) : list A := <[N.to_nat i := x]> l.

  (** 187-207 [checkInsertPending]. *)
  Definition check_insert_pending (g : gt) (sidx pend uc : N) : option (gt * N) :=
    let v := pending g sidx in
    if v <? unique g then
      let p := upd (pending g) sidx ((uc + unique g) mod w64) in
      let b := if N.of_nat (length (pbuff g)) <=? uc then pbuff g ++ [[sidx; pend]]
               else nset (pbuff g) uc (match nget (pbuff g) uc with Some l => l ++ [sidx; pend] | None => [] end) in
      Some (Gt p (unique g) b (tbuff g) (outs g) (expired g), uc + 1)
    else
      match nget (pbuff g) (v - unique g) with
      | None => None
      | Some l => Some (Gt (pending g) (unique g) (nset (pbuff g) (v - unique g) (l ++ [pend])) (tbuff g) (outs g) (expired g), uc)
      end.

  (** 216-226, the first look through; [evs] are the events from number [i] on. *)
  Fixpoint gather (del_on_expire : N) (i : N) (evs : list ev) (g : gt) (uc : N) : option (gt * N) :=
    match evs with
    | [] => Some (g, uc)
    | e :: evs =>
        match check_insert_pending g (esrc e) (i mod w32) uc with
        | None => None
        | Some (g, uc) =>
            let g := if (0 <? del_on_expire) && (etype e =? ADD)
                     then Gt (pending g) (unique g) (pbuff g) (tbuff g) (outs g) (expired g ++ [(esrc e, e)]) else g in
            gather del_on_expire (i + 1) evs g uc
        end
    end.

  Definition with_expired (g : gt) (x : list (N * ev)) : gt := Gt (pending g) (unique g) (pbuff g) (tbuff g) (outs g) x.
  Definition with_type (e : ev) (t : N) : ev := Ev t (eidx e) (esrc e) (eedge e).
  Definition with_prop (e : ev) (p : P) : ev := Ev (etype e) (eidx e) (esrc e) (Edge (didx (eedge e)) (pos (eedge e)) p).
  Definition ts_of (e : ev) : N := get_ts (prop (eedge e)).

  (** 128-154: the copies of this batch's additions become future deletions.  The index is
      computed in uint64.  The first out-of-order timestamp panics, so the sorting of 155-161 is
      never reached. *)
  Fixpoint stamp (time_range : bool) (del_on_expire latest count : N) (i : N) (evs : list ev) (x : list (N * ev)) : option (list (N * ev)) :=
    match evs with
    | [] => Some x
    | e :: evs =>
        if negb (etype e =? ADD) then stamp time_range del_on_expire latest count (i + 1) evs x
        else
          let j := (N.of_nat (length x) + w64 - count + i) mod w64 in
          match nget x j with
          | None => None
          | Some (s, f) =>
              let t := ts_of f in
              if latest <? t then None
              else
                let p := set_ts ((t + del_on_expire) mod w64) (prop (eedge f)) in
                let p := if time_range then set_end ((t + del_on_expire) mod w64) p else p in
                stamp time_range del_on_expire latest count (i + 1) evs (nset x j (s, with_prop (with_type f DEL) p))
          end
    end.

  (** 163-183: inject what has expired; [k] is expiredIndex. *)
  Fixpoint inject (del_on_expire latest count : N) (k : N) (x : list (N * ev)) (g : gt) (uc : N) : option (gt * N) :=
    match x with
    | [] => Some (with_expired g [], uc)
    | (s, f) :: rest =>
        if negb (etype f =? DEL) then inject del_on_expire latest count (k + 1) rest g uc
        else if latest <? ts_of f then Some (with_expired g x, uc)
        else
          let f := with_prop f (set_ts ((ts_of f + w64 - del_on_expire) mod w64) (prop (eedge f))) in
          match check_insert_pending g s ((count + k) mod w32) uc with
          | None => None
          | Some (g, uc) =>
              let tb := if N.of_nat (length (tbuff g)) <=? count + k then tbuff g ++ [f] else nset (tbuff g) (count + k) f in
              inject del_on_expire latest count (k + 1) rest (Gt (pending g) (unique g) (pbuff g) tb (outs g) (expired g)) uc
          end
    end.

  (** 121-184 [InjectExpired]. *)
  Definition inject_expired (time_range : bool) (del_on_expire : N) (evs : list ev) (g : gt) (uc : N) : option (gt * N) :=
    let count := N.of_nat (length evs) in
    match list.last evs with
    | None => None
    | Some e =>
        match stamp time_range del_on_expire (ts_of e) count 0 evs (expired g) with
        | None => None
        | Some x => inject del_on_expire (ts_of e) count 0 x (with_expired g x) uc
        end
    end.

  (** ** One vertex *)

  Definition MARK : N := 2 ^ 31.
  Definition marked (e : edge) : bool := negb (N.land (pos e) MARK =? 0).
  Definition mark (e : edge) : edge := Edge (didx e) (N.lor (pos e) MARK) (prop e).
  Definition unmark (e : edge) : edge := Edge (didx e) (N.land (pos e) (MARK - 1)) (prop e).

  (** 293-300, the linear search. *)
  Fixpoint find_edge (f : edge -> bool) (l : list edge) : option nat :=
    match l with
    | [] => None
    | e :: l => if f e then Some O else option_map S (find_edge f l)
    end.

  (** 270-312: consecutive deletions.  [k] is deleteIdx, [sel] is warnSelectDelete as far as
      this thread is concerned, [ix] is deleteEdgesIdx. *)
  Fixpoint del_run (k : nat) (l : list edge) (sel : bool) (ix : list nat) (cs : list ev) : option (nat * list edge * bool * list nat * list ev) :=
    match cs with
    | [] => Some (k, l, sel, ix, [])
    | c :: rest =>
        if etype c =? DEL then
          let d := didx (eedge c) in
          match l !! k with
          | None => None
          | Some e =>
              if (didx e =? d) && negb (marked e)
              then del_run (S k) (<[k := mark e]> l) sel (ix ++ [k]) rest
              else
                match find_edge (fun e => (didx e =? d) && negb (marked e)) l with
                | None => None
                | Some j => del_run (S k) (match l !! j with Some e => <[j := mark e]> l | None => l end) true (ix ++ [j]) rest
                end
          end
        else Some (k, l, sel, ix, c :: rest)
    end.

  (** sort.SliceStable: the result of a stable sort is determined by the keys. *)
  Fixpoint insert_by (key : edge -> N) (e : edge) (l : list edge) : list edge :=
    match l with
    | [] => [e]
    | e' :: l => if key e <=? key e' then e :: e' :: l else e' :: insert_by key e l
    end.
  Definition stable_sort (key : edge -> N) (l : list edge) : list edge := foldr (insert_by key) [] l.

  Definition flag_ts (e : edge) : edge := Edge (didx e) (pos e) (set_ts (N.lor (get_ts (prop e)) (2 ^ 63)) (prop e)).
  Definition unflag_ts (e : edge) : edge := Edge (didx e) (pos e) (set_ts (N.land (get_ts (prop e)) (2 ^ 63 - 1)) (prop e)).

  (** 313-353: take the marked edges out.  Results: remaining edges, deletedEdges. *)
  Definition take_out (by_ts sel : bool) (k : nat) (l : list edge) (ix : list nat) : list edge * list edge :=
    let n := (length l - k)%nat in
    let '(rest, del) :=
      if negb sel then (drop k l, take k l)
      else if by_ts then
        let l := fold_left (fun l i => match l !! i with Some e => <[i := flag_ts e]> l | None => l end) ix l in
        let l := stable_sort (fun e => get_ts (prop e)) l in
        (take n l, map unflag_ts (drop n l))
      else
        let l := stable_sort (fun e => N.land (pos e) MARK) l in
        (take n l, drop n l) in
    (rest, map unmark del).

  (** 359-361. *)
  Fixpoint skip_ended (k : nat) (l : list edge) : option nat :=
    match l with
    | [] => None
    | e :: l => if get_end (prop e) =? 0 then Some k else skip_ended (S k) l
    end.
  (** 355-396: consecutive deletions of TimeRange edges. *)
  Definition end_edge (t : N) (e : edge) : edge := Edge (didx e) (pos e) (set_end t (prop e)).
  Fixpoint end_run (k : nat) (l : list edge) (sel : bool) (del : list edge) (cs : list ev) : option (list edge * bool * list edge * list ev) :=
    match cs with
    | [] => Some (l, sel, del, [])
    | c :: rest =>
        if etype c =? DEL then
          let d := didx (eedge c) in
          let t := get_end (prop (eedge c)) in
          match skip_ended k (drop k l) with
          | None => None
          | Some k =>
              match l !! k with
              | None => None
              | Some e =>
                  if didx e =? d then end_run (S k) (<[k := end_edge t e]> l) sel (del ++ [end_edge t e]) rest
                  else
                    match find_edge (fun e => (didx e =? d) && (get_end (prop e) =? 0) && (get_ts (prop e) =? get_ts (prop (eedge c)))) l with
                    | None => None
                    | Some j =>
                        match l !! j with
                        | None => None
                        | Some e' => end_run k (<[j := end_edge t e']> l) true (del ++ [end_edge t e']) rest
                        end
                    end
              end
          end
        else Some (l, sel, del, c :: rest)
    end.

  Record opt := Opt { time_range : bool; by_ts : bool; del_on_expire : N }.

  (** The calls into the algorithm, each with the edge list it sees. *)
  Inductive call := OnAdd (eidx_start : nat) (l : list edge) | OnDel (deleted l : list edge).

  Fixpoint add_run (l : list edge) (cs : list ev) : list edge * list ev :=
    match cs with
    | c :: rest => if etype c =? ADD then add_run (l ++ [eedge c]) rest else (l, cs)
    | [] => (l, [])
    end.

  (** 246-402, the loop over the changes of one vertex.  [other n] says whether some other
      thread has set warnSelectDelete by the time this thread reads it with [n] changes left.
      An event that is neither ADD nor DEL makes the code loop forever: out of fuel. *)
  Fixpoint rounds (fuel : nat) (o : opt) (other : nat -> bool) (l : list edge) (sel : bool) (cs : list ev) (log : list call) (adds dels : N)
    : option (list edge * bool * list call * N * N) :=
    match cs with
    | [] => Some (l, sel, log, adds, dels)
    | _ :: _ =>
        match fuel with
        | O => None
        | S fuel =>
            let start := length l in
            let '(l, cs) := add_run l cs in
            let log := if (start <? length l)%nat then log ++ [OnAdd start l] else log in
            let adds := (adds + N.of_nat (length l - start)) mod w32 in
            match cs with
            | [] => Some (l, sel, log, adds, dels)
            | _ :: _ =>
                if time_range o then
                  match end_run 0 l sel [] cs with
                  | None => None
                  | Some (l, sel, del, cs) => rounds fuel o other l sel cs (log ++ [OnDel del l]) adds ((dels + N.of_nat (length del)) mod w32)
                  end
                else
                  match del_run 0 l sel [] cs with
                  | None => None
                  | Some (k, l, sel, ix, cs) =>
                      let '(l, del) := take_out (by_ts o) (sel || other (length cs)) k l ix in
                      rounds fuel o other l (sel || other (length cs)) cs (log ++ [OnDel del l]) adds ((dels + N.of_nat (length del)) mod w32)
                  end
            end
        end
    end.

  (** 237-405, the loop over the vertices; [u] counts from 0 to uniqueCount. *)
  Fixpoint over_vertices (o : opt) (other : N -> nat -> bool) (n : nat) (u : N) (g : gt) (sel : bool) (adds dels : N) (log : list (N * call))
    : option (gt * bool * N * N * list (N * call)) :=
    match n with
    | O => Some (g, sel, adds, dels, log)
    | S n =>
        match nget (pbuff g) u with
        | Some (sidx :: ps) =>
            match mapM (nget (tbuff g)) ps with
            | None => None
            | Some cs =>
                match rounds (S (length cs)) o (other u) (outs g sidx) sel cs [] adds dels with
                | None => None
                | Some (l, sel, lg, adds, dels) =>
                    over_vertices o other n (u + 1)
                      (Gt (pending g) (unique g) (nset (pbuff g) u []) (tbuff g) (upd (outs g) sidx l) (expired g))
                      sel adds dels (log ++ map (pair sidx) lg)
                end
            end
        | _ => None
        end
    end.

  (** 209-408 [EnactTopologyEvents] on the batch [evs], which run-dynamic.go:205-206 has put at
      the beginning of TopologyEventBuff. *)
  Definition put_batch (evs tb : list ev) : list ev := evs ++ drop (length evs) tb.
  Definition enact (o : opt) (other : N -> nat -> bool) (evs : list ev) (g : gt) (sel : bool) : option (gt * bool * N * N * list (N * call)) :=
    let g := Gt (pending g) (unique g) (pbuff g) (put_batch evs (tbuff g)) (outs g) (expired g) in
    match gather (del_on_expire o) 0 evs g 0 with
    | None => None
    | Some (g, uc) =>
        match (if 0 <? del_on_expire o then inject_expired (time_range o) (del_on_expire o) evs g uc else Some (g, uc)) with
        | None => None
        | Some (g, uc) =>
            let g := Gt (pending g) ((unique g + uc) mod w64) (pbuff g) (tbuff g) (outs g) (expired g) in
            over_vertices o other (N.to_nat uc) 0 g sel 0 0 []
        end
    end.
  (** graph.go:136-151. *)
  Definition gt0 (buff : list ev) (slots : nat) : gt := Gt (fun _ => 0) 1 (repeat [] slots) buff (fun _ => []) [].

  (** run-dynamic.go:226-232: the counters. *)
  Record counters := Counters { num_adds : N; num_dels : N; num_edges : N }.
  Definition count_batch (c : counters) (adds dels : N) : counters :=
    Counters ((num_adds c + adds) mod w32) ((num_dels c + dels) mod w32) ((num_edges c + (adds + w32 - dels) mod w32) mod w32).

  (** A history: batches with what the other threads did meanwhile. *)
  Fixpoint history (o : opt) (bs : list (list ev * (N -> nat -> bool))) (g : gt) (sel : bool) (c : counters) : option (gt * bool * counters) :=
    match bs with
    | [] => Some (g, sel, c)
    | (evs, other) :: bs =>
        match enact o other evs g sel with
        | None => None
        | Some (g, sel, adds, dels, _) => history o bs g sel (count_batch c adds dels)
        end
    end.
End model.
Arguments edge : clear implicits.
Arguments ev : clear implicits.
Arguments gt : clear implicits.
Arguments call : clear implicits.
