(** Model of utils/deque.go.  The circular doubly linked list of nodes is represented by
    two lists of slices: [used], the nodes from head to tail, and [spare], the nodes after
    the tail up to the one before the head.  So head = first of [used], tail = last of
    [used], [head.p != tail] and [tail.n != head] both say that [spare] is not empty, and
    [head == tail] says that [used] has one element. *)
From Verif Require Import Base Deque_Spec.

Section model.
  Context {T : Type} (zero : T).

  (** utils/deque.go:70-80; [inited] says that tZero is not nil. *)
  Record deque := Dq {
    used : list (list T); spare : list (list T);
    hp : nat; hlp : nat; tp : nat; dlen : nat; spareLinks : Z; inited : bool }.

  (** The zero value, and utils/deque.go:96-100 [Init]. *)
  Definition dq_zero : deque := Dq [] [] 0 0 0 0 0 false.
  Definition dq_init : deque := Dq [] [] 0 0 0 0 0 true.

  Definition firstSliceSize : nat := 4.
  Definition sliceGrowthFactor : nat := 4.
  Definition maxFirstSliceSize : nat := 64.
  Definition maxInternalSliceSize : nat := 256.
  Definition maxSpareLinks : Z := 5.
  Definition make (n : nat) : list T := replicate n zero.

  (** v[i] = x with the index panic as [None]; [v[i]]. *)
  Definition set_at (b : list T) (i : nat) (x : T) : option (list T) :=
    if i <? length b then Some (<[i := x]> b) else None.

  (** d.head.v = b; d.tail.v = b *)
  Definition set_head (u : list (list T)) (b : list T) : list (list T) :=
    match u with [] => [] | _ :: r => b :: r end.
  Definition set_tail (u : list (list T)) (b : list T) : list (list T) :=
    match u with [] => [] | _ => removelast u ++ [b] end.
  Definition head_v (d : deque) : list T := match used d with b :: _ => b | [] => [] end.
  Definition tail_v (d : deque) : list T := List.last (used d) [].

  (** d.len++; d.head.v[d.hp] = v (end of PushFront). *)
  Definition pf_write (d : deque) (v : T) : option deque :=
    match set_at (head_v d) (hp d) v with
    | Some b => Some (Dq (set_head (used d) b) (spare d) (hp d) (hlp d) (tp d) (S (dlen d))
                         (spareLinks d) (inited d))
    | None => None
    end.
  (** d.tail.v[i] = v; tp = i + 1; len++ (every PushBack branch does this). *)
  Definition pb_write (d : deque) (i : nat) (v : T) : option deque :=
    match set_at (tail_v d) i v with
    | Some b => Some (Dq (set_tail (used d) b) (spare d) (hp d) (hlp d) (S i) (S (dlen d))
                         (spareLinks d) (inited d))
    | None => None
    end.

  (** utils/deque.go:130-182 *)
  Definition push_front (d : deque) (v : T) : option deque :=
    match used d with
    | [] => (* head == nil *)
        pf_write (Dq [make firstSliceSize] [] (firstSliceSize - 1) (firstSliceSize - 1)
                    firstSliceSize (dlen d) (spareLinks d) (inited d)) v
    | h :: rest =>
        if 0 <? hp d then
          pf_write (Dq (used d) (spare d) (hp d - 1) (hlp d) (tp d) (dlen d) (spareLinks d) (inited d)) v
        else if negb (length (spare d) =? 0) then
          let x := List.last (spare d) [] in
          let sp := removelast (spare d) in
          if dlen d =? 0 then
            pf_write (Dq [x] (used d ++ sp) (length x - 1) (length x - 1) (length x)
                        (dlen d) (spareLinks d - 1) (inited d)) v
          else
            pf_write (Dq (x :: used d) sp (length x - 1) (length x - 1) (tp d)
                        (dlen d) (spareLinks d - 1) (inited d)) v
        else if length h <? maxFirstSliceSize then
          let nl := length h * sliceGrowthFactor in
          let diff := nl - length h in
          let n := take (hp d + diff) (make nl) ++ take (nl - (hp d + diff)) h
                     ++ drop (hp d + diff + length h) (make nl) in
          pf_write (Dq (n :: rest) (spare d) (hp d + diff - 1) (nl - 1) (tp d + diff)
                      (dlen d) (spareLinks d) (inited d)) v
        else if dlen d =? 0 then
          pf_write (Dq [h] (rest ++ spare d) (length h - 1) (length h - 1) (length h)
                      (dlen d) (spareLinks d) (inited d)) v
        else
          pf_write (Dq (make maxInternalSliceSize :: used d) (spare d)
                      (maxInternalSliceSize - 1) (maxInternalSliceSize - 1) (tp d)
                      (dlen d) (spareLinks d) (inited d)) v
    end.

  (** The branches shared by PushBack / FastPushBack / SlowPushBack. *)
  Definition pb_first (d : deque) (v : T) : option deque :=   (* head == nil *)
    pb_write (Dq [make firstSliceSize] [] (hp d) (firstSliceSize - 1) (tp d)
                (dlen d) (spareLinks d) (inited d)) 0 v.
  Definition pb_grow (d : deque) (v : T) : option deque :=    (* quadruple the slice *)
    let l := length (tail_v d) in
    let nv := tail_v d ++ make (l * sliceGrowthFactor - l) in
    pb_write (Dq (set_tail (used d) nv) (spare d) (hp d) (length nv - 1) (tp d)
                (dlen d) (spareLinks d) (inited d)) (tp d) v.
  Definition pb_spare (d : deque) (v : T) : option deque :=   (* tail = tail.n *)
    match spare d with
    | x :: sp => pb_write (Dq (used d ++ [x]) sp (hp d) (hlp d) (tp d) (dlen d)
                             (spareLinks d - 1) (inited d)) 0 v
    | [] => None
    end.
  Definition pb_new (d : deque) (v : T) : option deque :=     (* a new node *)
    pb_write (Dq (used d ++ [make maxInternalSliceSize]) (spare d) (hp d) (hlp d) (tp d)
                (dlen d) (spareLinks d) (inited d)) 0 v.

  (** utils/deque.go:186-227 *)
  Definition push_back (d : deque) (v : T) : option deque :=
    if length (used d) =? 0 then pb_first d v
    else if tp d <? length (tail_v d) then pb_write d (tp d) v
    else if tp d <? maxFirstSliceSize then pb_grow d v
    else if negb (length (spare d) =? 0) then pb_spare d v
    else pb_new d v.
  (** utils/deque.go:229-252; [Some None]: returned false. *)
  Definition fast_push_back (d : deque) (v : T) : option (option deque) :=
    if length (used d) =? 0 then Some None
    else if tp d <? length (tail_v d) then option_map Some (pb_write d (tp d) v)
    else if negb (length (spare d) =? 0) then option_map Some (pb_spare d v)
    else Some None.
  (** utils/deque.go:254-287 *)
  Definition slow_push_back (d : deque) (v : T) : option deque :=
    if length (used d) =? 0 then pb_first d v
    else if tp d <? maxFirstSliceSize then pb_grow d v
    else pb_new d v.
  (** graph/run-async.go:141-143 *)
  Definition fast_slow_push_back (d : deque) (v : T) : option deque :=
    match fast_push_back d v with
    | None => None
    | Some (Some d') => Some d'
    | Some None => slow_push_back d v
    end.

  (** utils/deque.go:331-344 [TryPopFront]: the value ([None]: zero, false) and the deque. *)
  Definition try_pop_front (d : deque) : option (option T * deque) :=
    if dlen d =? 0 then if inited d then Some (None, d) else None
    else
      match head_v d !! hp d with
      | None => None
      | Some v =>
          if inited d then
            Some (Some v, Dq (set_head (used d) (<[hp d := zero]> (head_v d))) (spare d) (hp d) (hlp d)
                     (tp d) (dlen d - 1) (spareLinks d) (inited d))
          else None
      end.
  (** utils/deque.go:346-370 [UpdatePopFront]. *)
  Definition update_pop_front (d : deque) : option deque :=
    if hp d <? hlp d then
      Some (Dq (used d) (spare d) (hp d + 1) (hlp d) (tp d) (dlen d) (spareLinks d) (inited d))
    else
      match used d with
      | [] | [_] => (* head == tail *)
          Some (Dq (used d) (spare d) (hp d) (hlp d) (hp d) (dlen d) (spareLinks d) (inited d))
      | h :: rest =>
          if (maxSpareLinks <=? spareLinks d)%Z then
            Some (Dq rest (spare d) 0 (length (List.hd [] rest) - 1) (tp d) (dlen d) (spareLinks d) (inited d))
          else
            Some (Dq rest (spare d ++ [h]) 0 (length (List.hd [] rest) - 1) (tp d) (dlen d)
                    (spareLinks d + 1) (inited d))
      end.
  (** utils/deque.go:293-329 [PopFront]: the same reads, writes and branches as TryPopFront
      followed by UpdatePopFront. *)
  Definition pop_front (d : deque) : option (option T * deque) :=
    match try_pop_front d with
    | Some (Some v, d') => option_map (pair (Some v)) (update_pop_front d')
    | r => r
    end.

  (** utils/deque.go:376-405 [PopBack]. *)
  Definition pop_back (d : deque) : option (option T * deque) :=
    if dlen d =? 0 then if inited d then Some (None, d) else None
    else
      let tp1 := tp d - 1 in
      if tp d =? 0 then None else
      match tail_v d !! tp1 with
      | None => None
      | Some v =>
          if negb (inited d) then None else
          let b := <[tp1 := zero]> (tail_v d) in
          let u := set_tail (used d) b in
          if (0 <? tp1) || (length (used d) =? 1) then
            Some (Some v, Dq u (spare d) (hp d) (hlp d) tp1 (dlen d - 1) (spareLinks d) (inited d))
          else if (maxSpareLinks <=? spareLinks d)%Z then
            Some (Some v, Dq (removelast u) (spare d) (hp d) (hlp d)
                     (length (List.last (removelast u) [])) (dlen d - 1) (spareLinks d) (inited d))
          else
            Some (Some v, Dq (removelast u) (b :: spare d) (hp d) (hlp d)
                     (length (List.last (removelast u) [])) (dlen d - 1) (spareLinks d + 1) (inited d))
      end.

  (** utils/deque.go:110-126. *)
  Definition front (d : deque) : option (option T) :=
    if dlen d =? 0 then if inited d then Some None else None
    else option_map Some (head_v d !! hp d).
  Definition back (d : deque) : option (option T) :=
    if dlen d =? 0 then if inited d then Some None else None
    else if tp d =? 0 then None else option_map Some (tail_v d !! (tp d - 1)).

  Definition res_of (o : option T) : dq_res T := match o with Some v => Elem v | None => Empty end.
  Definition dq_exec (d : deque) (o : dq_op T) : option (deque * dq_res T) :=
    match o with
    | PushFront v => option_map (fun d => (d, Done)) (push_front d v)
    | PushBack v => option_map (fun d => (d, Done)) (push_back d v)
    | FastSlowPushBack v => option_map (fun d => (d, Done)) (fast_slow_push_back d v)
    | PopFront | TryUpdatePopFront => option_map (fun r => (snd r, res_of (fst r))) (pop_front d)
    | PopBack => option_map (fun r => (snd r, res_of (fst r))) (pop_back d)
    | Front => option_map (fun r => (d, res_of r)) (front d)
    | Back => option_map (fun r => (d, res_of r)) (back d)
    | Len => Some (d, Size (dlen d))
    end.
  Fixpoint dq_run (d : deque) (os : list (dq_op T)) : option (deque * list (dq_res T)) :=
    match os with
    | [] => Some (d, [])
    | o :: os =>
        match dq_exec d o with
        | None => None
        | Some (d', r) =>
            match dq_run d' os with Some (d2, rs) => Some (d2, r :: rs) | None => None end
        end
    end.
End model.
Arguments deque : clear implicits.
