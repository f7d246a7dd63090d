(** GrowableRingBuff (utils/ring-buffer.go:375-559), one producer and one consumer, each step one
    access to shared memory.  Buffers live on a heap [gbufs]; [eb] and [db] are the ones the
    producer and the consumer hold.  Positions are unbounded here (the code's wrap at 2^64).
    The new buffer is filled before the flag is stored (446) and read only after the flag is
    seen, so making it is one step with the store. *)
From Verif Require Import Base Grow_Spec.
Open Scope N_scope.

Section model.
  Context {T : Type}.

  Inductive gppc :=
  | PIdle
  | PFast (t : N) (v : T)      (* PutFast, before the load (472) *)
  | POffer (t : N) (v : T)     (* Offer, before the load (460) *)
  | POWrite (t : N) (v : T)    (* Offer, before the element is written (461) *)
  | POInc (t : N) (v : T)      (* before enqueue++ (462) *)
  | PWrite (t : N) (v : T)     (* before the element is written (473, 485) *)
  | PStore (t : N) (v : T)     (* before the position is stored (463, 474, 486) *)
  | PSlow (t : N) (v : T)      (* PutSlow, before the load (484) *)
  | PCan (t : N) (v : T)       (* before CanGrow's load (453) *)
  | PGrow (t : N) (v : T).     (* before growWithStart's store (446) *)

  (** [get]: inside GetFast/GetSlow rather than Accept. *)
  Inductive gcpc :=
  | CIdle
  | CRead (get : bool)         (* item there; before it is read (504, 523, 541) *)
  | CStore (get : bool) (v : T)(* before the position is stored (506, 524, 542) *)
  | CLook (get slow : bool)    (* before the load of isGrown (509, 527, 545); slow: in GetSlow *)
  | CSwitch (get : bool)       (* grown; before the buffer is switched (510-511, 528-529, 546-547) *)
  | CUngrow (get : bool)       (* before isGrown is stored (512, 530, 548) *)
  | CSlow                      (* GetSlow, before the load of the slot (540) *)
  | CStatus                    (* before the load of status (551) *)
  | CGrown2                    (* before the second load of isGrown (551) *)
  | CEnq                       (* before the load of enqueue (552) *)
  | CDone                      (* closed was reported *)
  | CIStatus                   (* IsClosed, before the load of status (420) *)
  | CIEnq.                     (* IsClosed, before the load of enqueue (421) *)

  Record grb := Grb {
    genq : N; enqMask : N; eb : nat; maxGrow : N;
    gdeq : N; deqMask : N; db : nat; gstatus : bool; isGrown : bool;
    gbufs : nat -> N * (N -> N * T);       (* length and entries *)
    gpp : gppc; gpprog : list (gop T); gcp : gcpc; gcprog : list gcop;
    glog : list (gev T) }.

  Definition gslot (s : grb) (b : nat) (mask pos : N) : N * T := snd (gbufs s b) (N.land pos mask).
  Definition gset (s : grb) (b : nat) (mask pos : N) (x : N * T) : nat -> N * (N -> N * T) :=
    fun b' => if Nat.eqb b' b
              then (fst (gbufs s b), fun i => if i =? N.land pos mask then x else snd (gbufs s b) i)
              else gbufs s b'.

  Definition pmove (s : grb) (pc : gppc) (prog : list (gop T)) (evs : list (gev T)) : grb :=
    Grb (genq s) (enqMask s) (eb s) (maxGrow s) (gdeq s) (deqMask s) (db s) (gstatus s) (isGrown s)
      (gbufs s) pc prog (gcp s) (gcprog s) (glog s ++ evs).
  Definition penq (s : grb) (pc : gppc) (prog : list (gop T)) : grb :=
    Grb (genq s + 1) (enqMask s) (eb s) (maxGrow s) (gdeq s) (deqMask s) (db s) (gstatus s) (isGrown s)
      (gbufs s) pc prog (gcp s) (gcprog s) (glog s).
  Definition pbuf (s : grb) bufs (pc : gppc) (evs : list (gev T)) : grb :=
    Grb (genq s) (enqMask s) (eb s) (maxGrow s) (gdeq s) (deqMask s) (db s) (gstatus s) (isGrown s)
      bufs pc (gpprog s) (gcp s) (gcprog s) (glog s ++ evs).

  (** growWithStart (430-447). *)
  Definition grow_entries (junk : T) (mask start : N) (item : T) : N -> N * T :=
    fun i => if i =? N.land start mask then (start + 1, item)
             else (start + N.land (i + (mask + 1) - N.land start mask) mask, junk).
  Definition grow (junk : T) (s : grb) (t : N) (v : T) : grb :=
    let newSize := fst (gbufs s (eb s)) * 2 in
    let mask := newSize - 1 in
    Grb (genq s) mask (S (eb s)) (maxGrow s - 1) (gdeq s) (deqMask s) (db s) (gstatus s) true
      (fun b => if Nat.eqb b (S (eb s)) then (newSize, grow_entries junk mask t v) else gbufs s b)
      PIdle (gpprog s) (gcp s) (gcprog s) (glog s ++ [GGrow; GPut v]).

  (** Producer. Offer 457-467, PutFast 469-479, PutSlow 481-496, CanGrow 451-453, Close 414-416. *)
  Definition gpstep (junk : T) (s : grb) : grb :=
    match gpp s with
    | PIdle =>
        match gpprog s with
        | [] => s
        | GOOffer v :: rest => pmove s (POffer (genq s) v) rest []
        | GOPut v :: rest => penq s (PFast (genq s) v) rest
        | GOClose :: rest =>
            Grb (genq s) (enqMask s) (eb s) (maxGrow s) (gdeq s) (deqMask s) (db s) true (isGrown s)
              (gbufs s) PIdle rest (gcp s) (gcprog s) (glog s ++ [GClose])
        end
    | POffer t v =>
        if fst (gslot s (eb s) (enqMask s) t) =? t then pmove s (POWrite t v) (gpprog s) []
        else pmove s PIdle (gpprog s) [GFull v]
    | POWrite t v =>
        pbuf s (gset s (eb s) (enqMask s) t (fst (gslot s (eb s) (enqMask s) t), v)) (POInc t v) []
    | POInc t v => penq s (PStore t v) (gpprog s)
    | PFast t v =>
        if fst (gslot s (eb s) (enqMask s) t) =? t then pmove s (PWrite t v) (gpprog s) []
        else pmove s (PSlow t v) (gpprog s) []
    | PSlow t v =>
        if fst (gslot s (eb s) (enqMask s) t) =? t then pmove s (PWrite t v) (gpprog s) []
        else pmove s (PCan t v) (gpprog s) []
    | PCan t v =>
        if negb (maxGrow s =? 0) && negb (isGrown s) then pmove s (PGrow t v) (gpprog s) []
        else pmove s (PSlow t v) (gpprog s) []
    | PGrow t v => grow junk s t v
    | PWrite t v =>
        pbuf s (gset s (eb s) (enqMask s) t (fst (gslot s (eb s) (enqMask s) t), v)) (PStore t v) []
    | PStore t v =>
        pbuf s (gset s (eb s) (enqMask s) t (t + 1, snd (gslot s (eb s) (enqMask s) t))) PIdle [GPut v]
    end.

  Definition cmove (s : grb) (d : N) (pc : gcpc) (prog : list gcop) (evs : list (gev T)) : grb :=
    Grb (genq s) (enqMask s) (eb s) (maxGrow s) d (deqMask s) (db s) (gstatus s) (isGrown s)
      (gbufs s) (gpp s) (gpprog s) pc prog (glog s ++ evs).

  (** Consumer. Accept 499-515, GetFast 518-533, GetSlow 536-559, IsClosed 418-423.
      In a Get, [gdeq] is already advanced, so its slot is that of gdeq - 1. *)
  Definition gcstep (s : grb) : grb :=
    match gcp s with
    | CIdle =>
        match gcprog s with
        | [] => s
        | GOAccept :: rest =>
            if fst (gslot s (db s) (deqMask s) (gdeq s)) =? gdeq s + 1
            then cmove s (gdeq s) (CRead false) rest []
            else cmove s (gdeq s) (CLook false false) rest [GChecked]
        | GOGet :: rest =>
            if fst (gslot s (db s) (deqMask s) (gdeq s)) =? gdeq s + 1
            then cmove s (gdeq s + 1) (CRead true) rest []
            else cmove s (gdeq s + 1) (CLook true false) rest [GChecked]
        | GOIsClosed :: rest =>
            if isGrown s then cmove s (gdeq s) CIdle rest [GIsClosed false]
            else cmove s (gdeq s) CIStatus rest []
        end
    | CSlow =>
        if fst (gslot s (db s) (deqMask s) (gdeq s - 1)) =? gdeq s
        then cmove s (gdeq s) (CRead true) (gcprog s) []
        else cmove s (gdeq s) (CLook true true) (gcprog s) [GChecked]
    | CRead get =>
        let pos := if get then gdeq s - 1 else gdeq s in
        cmove s (gdeq s) (CStore get (snd (gslot s (db s) (deqMask s) pos))) (gcprog s) []
    | CStore get v =>
        let pos := if get then gdeq s - 1 else gdeq s in
        Grb (genq s) (enqMask s) (eb s) (maxGrow s) (pos + 1) (deqMask s) (db s) (gstatus s) (isGrown s)
          (gset s (db s) (deqMask s) pos (pos + 1 + deqMask s, snd (gslot s (db s) (deqMask s) pos)))
          (gpp s) (gpprog s) CIdle (gcprog s) (glog s ++ [GGot v])
    | CLook get slow =>
        if isGrown s then cmove s (gdeq s) (CSwitch get) (gcprog s) [GLook]
        else if get then cmove s (gdeq s) (if slow then CStatus else CSlow) (gcprog s) [GLook]
        else cmove s (gdeq s) CIdle (gcprog s) [GLook; GEmpty]
    | CSwitch get =>
        Grb (genq s) (enqMask s) (eb s) (maxGrow s) (gdeq s) (enqMask s) (eb s) (gstatus s) (isGrown s)
          (gbufs s) (gpp s) (gpprog s) (CUngrow get) (gcprog s) (glog s)
    | CUngrow get =>
        Grb (genq s) (enqMask s) (eb s) (maxGrow s) (gdeq s) (deqMask s) (db s) (gstatus s) false
          (gbufs s) (gpp s) (gpprog s) (if get then CSlow else CIdle) (gcprog s)
          (glog s ++ (if get then [GSwitch] else [GSwitch; GEmpty]))
    | CStatus => if gstatus s then cmove s (gdeq s) CGrown2 (gcprog s) [] else cmove s (gdeq s) CSlow (gcprog s) []
    | CGrown2 => if isGrown s then cmove s (gdeq s) CSlow (gcprog s) [] else cmove s (gdeq s) CEnq (gcprog s) []
    | CEnq => if genq s =? gdeq s - 1 then cmove s (gdeq s) CDone (gcprog s) [GClosed]
              else cmove s (gdeq s) CSlow (gcprog s) []
    | CDone => s
    | CIStatus => if gstatus s then cmove s (gdeq s) CIEnq (gcprog s) []
                  else cmove s (gdeq s) CIdle (gcprog s) [GIsClosed false]
    | CIEnq => cmove s (gdeq s) CIdle (gcprog s) [GIsClosed (genq s =? gdeq s)]
    end.

  (** A schedule: true moves the producer. *)
  Fixpoint grun (junk : T) (s : grb) (sched : list bool) : grb :=
    match sched with
    | [] => s
    | b :: rest => grun junk (if b then gpstep junk s else gcstep s) rest
    end.

  (** Init (391-402). *)
  Definition grow_init (junk : T) (size mg : N) (pr : list (gop T)) (cr : list gcop) : grb :=
    Grb 0 (size - 1) 0 mg 0 (size - 1) 0 false false
      (fun _ => (size, fun i => (i, junk))) PIdle pr CIdle cr [].
End model.
Arguments grb : clear implicits.
Arguments gppc : clear implicits.
Arguments gcpc : clear implicits.
