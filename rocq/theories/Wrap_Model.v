(** C96: the queues with their counters and positions as 64-bit words, which start again at 0 after 2^64 items.
    RingBuffMPSC: utils/ring-buffer.go:185-365, the steps of MPSC_Model with every sum and difference reduced mod 2^64. *)
From Verif Require Import Base MPSC_Spec MPSC_Model.
Open Scope N_scope.

Definition word (x : N) : N := x mod 2 ^ 64.

Section mpsc.
  Context {T : Type} (mask : N).
  (** One step of a producer: OfferMP 329-340, PutFastMP 343-352, PutSlowMP 355-364, Close 232-234. *)
  Definition wpstep (s : mrb T) (p : nat) : mrb T :=
    match prods s !! p with
    | None => s
    | Some (pc, prog) =>
        match pc with
        | MIdle =>
            match prog with
            | [] => s
            | MPut v :: rest => upd_p s p (word (menq s + 1)) (slots s) (mstatus s) (MCheck (menq s) v) rest [EClaim p v]
            | MOffer v :: rest => upd_p s p (menq s) (slots s) (mstatus s) (MOfferCheck (menq s) v) rest [EStart p]
            | MClose :: rest => upd_p s p (menq s) (slots s) true MIdle rest [EClose p]
            end
        | MCheck t v =>
            if fst (slots s (slot_of mask t)) =? t
            then upd_p s p (menq s) (slots s) (mstatus s) (MWrite t v) prog []
            else upd_p s p (menq s) (slots s) (mstatus s) (MCheck t v) prog []
        | MWrite t v =>
            upd_p s p (menq s) (set_slot (slots s) (slot_of mask t) (fst (slots s (slot_of mask t)), v)) (mstatus s) (MStore t v) prog []
        | MStore t v =>
            upd_p s p (menq s) (set_slot (slots s) (slot_of mask t) (word (t + 1), snd (slots s (slot_of mask t)))) (mstatus s) MIdle prog [EDone p t v]
        | MOfferCheck t v =>
            if fst (slots s (slot_of mask t)) =? t
            then upd_p s p (menq s) (slots s) (mstatus s) (MOfferCas t v) prog []
            else upd_p s p (menq s) (slots s) (mstatus s) MIdle prog [ERefuse p v]
        | MOfferCas t v =>
            if menq s =? t
            then upd_p s p (word (menq s + 1)) (slots s) (mstatus s) (MWrite t v) prog [EClaim p v]
            else upd_p s p (menq s) (slots s) (mstatus s) MIdle prog [ERefuse p v]
        end
    end.
  (** One step of the consumer: Accept 287-297, GetFast 300-310, GetSlow 313-325, DeqCheckRange 243-245. *)
  Definition before (x : N) : N := word (x + 2 ^ 64 - 1).
  Definition wkstep (s : mrb T) : mrb T :=
    match kp s with
    | KIdle =>
        match kprog s with
        | [] => s
        | MAccept :: rest =>
            if fst (slots s (slot_of mask (mdeq s))) =? word (mdeq s + 1)
            then upd_k s (mdeq s) (slots s) (KRead false) rest []
            else upd_k s (mdeq s) (slots s) KIdle rest [EEmpty]
        | MGet :: rest =>
            if fst (slots s (slot_of mask (mdeq s))) =? word (mdeq s + 1)
            then upd_k s (word (mdeq s + 1)) (slots s) (KRead true) rest []
            else upd_k s (word (mdeq s + 1)) (slots s) KSlow rest []
        | MAvail :: rest => upd_k s (mdeq s) (slots s) KIdle rest [EAvail (word (menq s + 2 ^ 64 - mdeq s))]
        end
    | KSlow =>
        if fst (slots s (slot_of mask (before (mdeq s)))) =? mdeq s
        then upd_k s (mdeq s) (slots s) (KRead true) (kprog s) []
        else upd_k s (mdeq s) (slots s) KStatus (kprog s) [EChecked]
    | KStatus =>
        if mstatus s then upd_k s (mdeq s) (slots s) KDone (kprog s) [EClosed]
        else upd_k s (mdeq s) (slots s) KSlow (kprog s) []
    | KRead get =>
        let pos := if get then before (mdeq s) else mdeq s in
        upd_k s (mdeq s) (slots s) (KStore get (snd (slots s (slot_of mask pos)))) (kprog s) []
    | KStore get v =>
        let pos := if get then before (mdeq s) else mdeq s in
        upd_k s (word (pos + 1)) (set_slot (slots s) (slot_of mask pos) (word (pos + 1 + mask), snd (slots s (slot_of mask pos)))) KIdle (kprog s) [EGot v]
    | KDone => s
    end.
  Definition wmrun (s : mrb T) (sched : list (option nat)) : mrb T :=
    fold_left (fun s x => match x with None => wkstep s | Some p => wpstep s p end) sched s.
End mpsc.
(** Init (204-213); sizes are at most 2^63, so the positions 0 .. size-1 are words. *)
Definition wmpsc_init {T} (junk : T) (progs : list (list (mop T))) (kprog : list mcop) : mrb T :=
  Mrb 0 0 (fun i => (word i, junk)) false (map (fun pr => (MIdle, pr)) progs) KIdle kprog [].
