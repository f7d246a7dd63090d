(** Model of utils/ring-buffer.go:16-179, RingBuffSPSC: one producer and one consumer
    goroutine, interleaved at every access to a shared word.  Positions are natural numbers
    (the uint64 counters wrap only after 2^64 items); [N.land] indexing is the code's. *)
From Verif Require Import Base Ring_Spec.
Open Scope N_scope.

Section model.
  Context {T : Type}.

  (** Where each goroutine is, inside a call. *)
  Inductive ppc :=
  | PIdle
  | PLoad (slow : bool) (v : T)   (* lines 136 / 153: load dequeue after the cached value failed *)
  | PSlow (v : T)                 (* lines 168, 177: PutSlow's loads of dequeue *)
  | PWrite (v : T)                (* lines 140 / 157 / 172: write the entry *)
  | PStore (v : T).               (* lines 141 / 158 / 173: publish *)
  Inductive cpc :=
  | CIdle
  | CLoad (slow : bool)           (* lines 85 / 101 *)
  | CSlow                         (* lines 116, 128 *)
  | CStatus                       (* line 124 *)
  | CRead                         (* lines 89 / 105 / 120 *)
  | CStore (v : T).               (* lines 90 / 106 / 121 *)

  Record rb := Rb {
    enqueue : N; enqDeqCache : N;
    dequeue : N; deqEnqCache : N;
    entries : N -> T;
    status : bool;
    pp : ppc; pprog : list (pop T);
    cp : cpc; cprog : list cop;
    log : list (qev T) }.           (* oldest first *)

  Context (mask : N).

  (** Pure record updates. *)
  Definition with_p (s : rb) (enq cache : N) (ent : N -> T) (st : bool) (p : ppc) (prog : list (pop T)) (evs : list (qev T)) : rb :=
    Rb enq cache (dequeue s) (deqEnqCache s) ent st p prog (cp s) (cprog s) (log s ++ evs).
  Definition with_c (s : rb) (deq cache : N) (c : cpc) (prog : list cop) (evs : list (qev T)) : rb :=
    Rb (enqueue s) (enqDeqCache s) deq cache (entries s) (status s) (pp s) (pprog s) c prog (log s ++ evs).

  (** One step of the producer. Offer: 133-145; PutFast: 148-162; PutSlow: 166-179;
      Close: 46-48; EnqCheckRange: 68-71. *)
  Definition pstep (s : rb) : rb :=
    let goto p := with_p s (enqueue s) (enqDeqCache s) (entries s) (status s) p (pprog s) [] in
    match pp s with
    | PIdle =>
        let start slow v rest :=
          let p := if enqDeqCache s + mask <? enqueue s then PLoad slow v else PWrite v in
          with_p s (enqueue s) (enqDeqCache s) (entries s) (status s) p rest [] in
        match pprog s with
        | [] => s
        | Offer v :: rest => start false v rest
        | Put v :: rest => start true v rest
        | Close :: rest => with_p s (enqueue s) (enqDeqCache s) (entries s) true PIdle rest [EClose]
        | Space :: rest =>
            with_p s (enqueue s) (dequeue s) (entries s) (status s) PIdle rest
              [ESpace ((dequeue s + mask + w64 - enqueue s) mod w64)]
        end
    | PLoad slow v =>
        let d := dequeue s in
        if enqueue s <=? d + mask
        then with_p s (enqueue s) d (entries s) (status s) (PWrite v) (pprog s) []
        else if slow then with_p s (enqueue s) d (entries s) (status s) (PSlow v) (pprog s) []
        else with_p s (enqueue s) d (entries s) (status s) PIdle (pprog s) [EFull v]
    | PSlow v =>
        let d := dequeue s in
        if enqueue s <=? d + mask
        then with_p s (enqueue s) d (entries s) (status s) (PWrite v) (pprog s) []
        else goto (PSlow v)
    | PWrite v =>
        let i := N.land (enqueue s) mask in
        with_p s (enqueue s) (enqDeqCache s) (fun j => if j =? i then v else entries s j) (status s) (PStore v) (pprog s) []
    | PStore v =>
        with_p s (enqueue s + 1) (enqDeqCache s) (entries s) (status s) PIdle (pprog s) [EPut v]
    end.

  (** One step of the consumer. Accept: 80-93; GetFast: 96-110; GetSlow: 114-130;
      DeqCheckRange: 75-78. *)
  Definition cstep (s : rb) : rb :=
    match cp s with
    | CIdle =>
        let start slow rest :=
          let c := if deqEnqCache s <=? dequeue s then CLoad slow else CRead in
          with_c s (dequeue s) (deqEnqCache s) c rest [] in
        match cprog s with
        | [] => s
        | Accept :: rest => start false rest
        | Get :: rest => start true rest
        | Avail :: rest =>
            with_c s (dequeue s) (enqueue s) CIdle rest [EAvail ((enqueue s + w64 - dequeue s) mod w64)]
        end
    | CLoad slow =>
        let e := enqueue s in
        if dequeue s <? e then with_c s (dequeue s) e CRead (cprog s) []
        else if slow then with_c s (dequeue s) e CSlow (cprog s) []
        else with_c s (dequeue s) e CIdle (cprog s) [EEmpty]
    | CSlow =>
        let e := enqueue s in
        if dequeue s <? e then with_c s (dequeue s) e CRead (cprog s) []
        else with_c s (dequeue s) (deqEnqCache s) CStatus (cprog s) [EChecked]
    | CStatus =>
        if status s then with_c s (dequeue s) (deqEnqCache s) CIdle (cprog s) [EClosed]
        else with_c s (dequeue s) (deqEnqCache s) CSlow (cprog s) []
    | CRead =>
        with_c s (dequeue s) (deqEnqCache s) (CStore (entries s (N.land (dequeue s) mask))) (cprog s) []
    | CStore v =>
        with_c s (dequeue s + 1) (deqEnqCache s) CIdle (cprog s) [EGot v]
    end.

  (** A schedule says who moves: [true] the producer. *)
  Fixpoint run (s : rb) (sched : list bool) : rb :=
    match sched with
    | [] => s
    | b :: rest => run (if b then pstep s else cstep s) rest
    end.
End model.
Arguments rb : clear implicits.
Arguments ppc : clear implicits.
Arguments cpc : clear implicits.

(** Init (37-43) with the programs of the two goroutines; [junk] is what make() leaves in
    the entries. *)
Definition spsc_init {T} (junk : T) (pprog : list (pop T)) (cprog : list cop) : rb T :=
  Rb 0 0 0 0 (fun _ => junk) false PIdle pprog CIdle cprog [].
