(** C97: RingBuffMPSC with its single-producer calls: OfferSP (utils/ring-buffer.go:248-258), PutFastSP and PutSlowSP (261-285), Close (232-234).
    State and consumer as in MPSC_Model.  The flag says that an offer has written its element (252) but not yet advanced enqueue (253). *)
From Verif Require Import Base MPSC_Spec MPSC_Model.
Open Scope N_scope.

Section model.
  Context {T : Type} (mask : N).
  Definition sp_step (x : mrb T * bool) : mrb T * bool :=
    let (s, fl) := x in
    match prods s !! 0%nat with
    | None => x
    | Some (pc, prog) =>
        match pc with
        | MIdle =>
            match prog with
            | [] => x
            | MPut v :: rest => (upd_p s 0 (menq s + 1) (slots s) (mstatus s) (MCheck (menq s) v) rest [EClaim 0%nat v], fl)
            | MOffer v :: rest => (upd_p s 0 (menq s) (slots s) (mstatus s) (MOfferCheck (menq s) v) rest [EStart 0%nat], fl)
            | MClose :: rest => (upd_p s 0 (menq s) (slots s) true MIdle rest [EClose 0%nat], fl)
            end
        | MCheck t v => (upd_p s 0 (menq s) (slots s) (mstatus s) (if fst (slots s (slot_of mask t)) =? t then MWrite t v else MCheck t v) prog [], fl)
        | MWrite t v => (upd_p s 0 (menq s) (set_slot (slots s) (slot_of mask t) (fst (slots s (slot_of mask t)), v)) (mstatus s) (MStore t v) prog [], fl)
        | MStore t v => (upd_p s 0 (menq s) (set_slot (slots s) (slot_of mask t) (t + 1, snd (slots s (slot_of mask t)))) (mstatus s) MIdle prog [EDone 0%nat t v], fl)
        | MOfferCheck t v => (* 251 *)
            if fst (slots s (slot_of mask t)) =? t
            then (upd_p s 0 (menq s) (slots s) (mstatus s) (MOfferCas t v) prog [], false)
            else (upd_p s 0 (menq s) (slots s) (mstatus s) MIdle prog [ERefuse 0%nat v], fl)
        | MOfferCas t v =>
            if fl then (* 253 *) (upd_p s 0 (menq s + 1) (slots s) (mstatus s) (MStore t v) prog [EClaim 0%nat v], false)
            else (* 252 *) (upd_p s 0 (menq s) (set_slot (slots s) (slot_of mask t) (fst (slots s (slot_of mask t)), v)) (mstatus s) (MOfferCas t v) prog [], true)
        end
    end.
  (** [true] moves the producer, [false] the consumer. *)
  Definition sp_run (x : mrb T * bool) (sched : list bool) : mrb T * bool :=
    fold_left (fun x b => if b : bool then sp_step x else (kstep mask (fst x), snd x)) sched x.
End model.
