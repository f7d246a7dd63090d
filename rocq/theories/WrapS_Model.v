(** C96: RingBuffSPSC (utils/ring-buffer.go:16-179) with its counters as 64-bit words: the steps of SPSC_Model, every sum and
    difference reduced mod 2^64. *)
From Verif Require Import Base Ring_Spec SPSC_Model.
Open Scope N_scope.

Definition word (x : N) : N := x mod 2 ^ 64.

Section spsc.
  Context {T : Type} (mask : N).
  Definition wpstep (s : rb T) : rb T :=
    let goto p := with_p s (enqueue s) (enqDeqCache s) (entries s) (status s) p (pprog s) [] in
    match pp s with
    | PIdle =>
        let start slow v rest :=
          let p := if word (enqDeqCache s + mask) <? enqueue s then PLoad slow v else PWrite v in
          with_p s (enqueue s) (enqDeqCache s) (entries s) (status s) p rest [] in
        match pprog s with
        | [] => s
        | Offer v :: rest => start false v rest
        | Put v :: rest => start true v rest
        | Close :: rest => with_p s (enqueue s) (enqDeqCache s) (entries s) true PIdle rest [EClose]
        | Space :: rest =>
            with_p s (enqueue s) (dequeue s) (entries s) (status s) PIdle rest [ESpace (word (word (dequeue s + mask) + 2 ^ 64 - enqueue s))]
        end
    | PLoad slow v =>
        let d := dequeue s in
        if enqueue s <=? word (d + mask)
        then with_p s (enqueue s) d (entries s) (status s) (PWrite v) (pprog s) []
        else if slow then with_p s (enqueue s) d (entries s) (status s) (PSlow v) (pprog s) []
        else with_p s (enqueue s) d (entries s) (status s) PIdle (pprog s) [EFull v]
    | PSlow v =>
        let d := dequeue s in
        if enqueue s <=? word (d + mask)
        then with_p s (enqueue s) d (entries s) (status s) (PWrite v) (pprog s) []
        else goto (PSlow v)
    | PWrite v =>
        let i := N.land (enqueue s) mask in
        with_p s (enqueue s) (enqDeqCache s) (fun j => if j =? i then v else entries s j) (status s) (PStore v) (pprog s) []
    | PStore v => with_p s (word (enqueue s + 1)) (enqDeqCache s) (entries s) (status s) PIdle (pprog s) [EPut v]
    end.
  Definition wcstep (s : rb T) : rb T :=
    match cp s with
    | CIdle =>
        let start slow rest :=
          let c := if deqEnqCache s <=? dequeue s then CLoad slow else CRead in
          with_c s (dequeue s) (deqEnqCache s) c rest [] in
        match cprog s with
        | [] => s
        | Accept :: rest => start false rest
        | Get :: rest => start true rest
        | Avail :: rest => with_c s (dequeue s) (enqueue s) CIdle rest [EAvail (word (enqueue s + 2 ^ 64 - dequeue s))]
        end
    | CLoad slow =>
        let e := enqueue s in
        if dequeue s <? e then with_c s (dequeue s) e CRead (cprog s) []
        else if slow then with_c s (dequeue s) e CSlow (cprog s) []
        else with_c s (dequeue s) e CIdle (cprog s) [EEmpty]
    | CSlow =>
        let e := enqueue s in
        if dequeue s <? e then with_c s (dequeue s) e CRead (cprog s) []
        else with_c s (dequeue s) (deqEnqCache s) CStatus (cprog s) [EChecked]
    | CStatus =>
        if status s then with_c s (dequeue s) (deqEnqCache s) CIdle (cprog s) [EClosed]
        else with_c s (dequeue s) (deqEnqCache s) CSlow (cprog s) []
    | CRead => with_c s (dequeue s) (deqEnqCache s) (CStore (entries s (N.land (dequeue s) mask))) (cprog s) []
    | CStore v => with_c s (word (dequeue s + 1)) (deqEnqCache s) CIdle (cprog s) [EGot v]
    end.
  Definition wrun (s : rb T) (sched : list bool) : rb T := fold_left (fun s b => if b : bool then wpstep s else wcstep s) sched s.
End spsc.
