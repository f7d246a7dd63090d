(** Model of utils/ring-buffer.go:185-365, RingBuffMPSC: any number of producers and one
    consumer, interleaved at every access to a shared word.  PutFastSP/PutSlowSP (262-285) are,
    with the single producer they require, the steps of PutFastMP/PutSlowMP; OfferSP is in OfferSP_Model (C97),
    Len is not modelled.  Positions do not wrap (2^64 items; see Wrap_Model, C96). *)
From Verif Require Import Base MPSC_Spec.
Open Scope N_scope.

Section model.
  Context {T : Type}.

  Inductive mppc :=
  | MIdle
  | MCheck (t : N) (v : T)     (* lines 349 / 361: load n.position, ticket t taken *)
  | MWrite (t : N) (v : T)     (* lines 335 / 350 / 362: write n.element *)
  | MStore (t : N) (v : T)     (* lines 336 / 351 / 363: publish n.position *)
  | MOfferCheck (t : N) (v : T)(* line 333: load n.position, t was the value of enqueue *)
  | MOfferCas (t : N) (v : T). (* line 334: compare-and-swap *)
  Inductive mcpc :=
  | KIdle
  | KSlow                      (* line 316: GetSlow's load of n.position *)
  | KStatus                    (* line 321 *)
  | KRead (get : bool)         (* lines 294 / 306 / 317: read n.element *)
  | KStore (get : bool) (v : T)(* lines 295-296 / 307 / 318 *)
  | KDone.                     (* told "closed": every caller stops here *)

  Record mrb := Mrb {
    menq : N; mdeq : N;
    slots : N -> N * T;        (* position, element *)
    mstatus : bool;
    prods : list (mppc * list (mop T));
    kp : mcpc; kprog : list mcop;
    mlog : list (mev T) }.

  Context (mask : N).

  Definition slot_of (t : N) : N := N.land t mask.
  Definition set_slot (f : N -> N * T) (i : N) (x : N * T) : N -> N * T :=
    fun j => if j =? i then x else f j.
  Definition upd_p (s : mrb) (p : nat) (enq : N) (sl : N -> N * T) (st : bool) (pc : mppc)
      (prog : list (mop T)) (evs : list (mev T)) : mrb :=
    Mrb enq (mdeq s) sl st (<[p := (pc, prog)]> (prods s)) (kp s) (kprog s) (mlog s ++ evs).
  Definition upd_k (s : mrb) (deq : N) (sl : N -> N * T) (k : mcpc) (prog : list mcop) (evs : list (mev T)) : mrb :=
    Mrb (menq s) deq sl (mstatus s) (prods s) k prog (mlog s ++ evs).

  (** One step of producer [p]. OfferMP: 330-341; PutFastMP: 344-355; PutSlowMP: 358-365;
      Close: 233-235. *)
  Definition mpstep (s : mrb) (p : nat) : mrb :=
    match prods s !! p with
    | None => s
    | Some (pc, prog) =>
        match pc with
        | MIdle =>
            match prog with
            | [] => s
            | MPut v :: rest => (* atomic add *)
                upd_p s p (menq s + 1) (slots s) (mstatus s) (MCheck (menq s) v) rest [EClaim p v]
            | MOffer v :: rest =>
                upd_p s p (menq s) (slots s) (mstatus s) (MOfferCheck (menq s) v) rest [EStart p]
            | MClose :: rest => upd_p s p (menq s) (slots s) true MIdle rest [EClose p]
            end
        | MCheck t v =>
            if fst (slots s (slot_of t)) =? t
            then upd_p s p (menq s) (slots s) (mstatus s) (MWrite t v) prog []
            else upd_p s p (menq s) (slots s) (mstatus s) (MCheck t v) prog []
        | MWrite t v =>
            upd_p s p (menq s) (set_slot (slots s) (slot_of t) (fst (slots s (slot_of t)), v))
              (mstatus s) (MStore t v) prog []
        | MStore t v =>
            upd_p s p (menq s) (set_slot (slots s) (slot_of t) (t + 1, snd (slots s (slot_of t))))
              (mstatus s) MIdle prog [EDone p t v]
        | MOfferCheck t v =>
            if fst (slots s (slot_of t)) =? t
            then upd_p s p (menq s) (slots s) (mstatus s) (MOfferCas t v) prog []
            else upd_p s p (menq s) (slots s) (mstatus s) MIdle prog [ERefuse p v]
        | MOfferCas t v =>
            if menq s =? t
            then upd_p s p (menq s + 1) (slots s) (mstatus s) (MWrite t v) prog [EClaim p v]
            else upd_p s p (menq s) (slots s) (mstatus s) MIdle prog [ERefuse p v]
        end
    end.

  (** One step of the consumer. Accept: 289-299; GetFast: 302-312; GetSlow: 315-326;
      DeqCheckRange: 243-245.  In a Get, [mdeq] has already been advanced. *)
  Definition kstep (s : mrb) : mrb :=
    match kp s with
    | KIdle =>
        match kprog s with
        | [] => s
        | MAccept :: rest =>
            if fst (slots s (slot_of (mdeq s))) =? mdeq s + 1
            then upd_k s (mdeq s) (slots s) (KRead false) rest []
            else upd_k s (mdeq s) (slots s) KIdle rest [EEmpty]
        | MGet :: rest =>
            if fst (slots s (slot_of (mdeq s))) =? mdeq s + 1
            then upd_k s (mdeq s + 1) (slots s) (KRead true) rest []
            else upd_k s (mdeq s + 1) (slots s) KSlow rest []
        | MAvail :: rest => upd_k s (mdeq s) (slots s) KIdle rest [EAvail ((menq s + w64 - mdeq s) mod w64)]
        end
    | KSlow =>
        if fst (slots s (slot_of (mdeq s - 1))) =? mdeq s
        then upd_k s (mdeq s) (slots s) (KRead true) (kprog s) []
        else upd_k s (mdeq s) (slots s) KStatus (kprog s) [EChecked]
    | KStatus =>
        if mstatus s then upd_k s (mdeq s) (slots s) KDone (kprog s) [EClosed]
        else upd_k s (mdeq s) (slots s) KSlow (kprog s) []
    | KRead get =>
        let pos := if get then mdeq s - 1 else mdeq s in
        upd_k s (mdeq s) (slots s) (KStore get (snd (slots s (slot_of pos)))) (kprog s) []
    | KStore get v =>
        let pos := if get then mdeq s - 1 else mdeq s in
        upd_k s (pos + 1) (set_slot (slots s) (slot_of pos) (pos + 1 + mask, snd (slots s (slot_of pos))))
          KIdle (kprog s) [EGot v]
    | KDone => s
    end.

  (** A schedule: [None] moves the consumer, [Some p] producer p. *)
  Fixpoint mrun (s : mrb) (sched : list (option nat)) : mrb :=
    match sched with
    | [] => s
    | x :: rest => mrun (match x with None => kstep s | Some p => mpstep s p end) rest
    end.
End model.
Arguments mrb : clear implicits.
Arguments mppc : clear implicits.
Arguments mcpc : clear implicits.

(** Init (208-217): slot i has position i. *)
Definition mpsc_init {T} (junk : T) (progs : list (list (mop T))) (kprog : list mcop) : mrb T :=
  Mrb 0 0 (fun i => (i, junk)) false (map (fun pr => (MIdle, pr)) progs) KIdle kprog [].
