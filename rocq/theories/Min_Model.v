(** The algorithms that pass the smallest value on: connected components
    (cmd/lp-cc/cc.go:12-88) and shortest paths (cmd/lp-sssp/sssp.go:11-85).  Atomic minimum and
    atomic load are single steps on a mailbox with one cell.  OnEdgeDel panics in both; it is not
    modelled, and schedules with deletions are excluded from the claims. *)
From Verif Require Import Base Engine_Spec Engine_Model.
From Coq Require Import QArith Qcanon.
Open Scope nat_scope.
Delimit Scope Qc_scope with Qc.

Definition qle (x y : Qc) : bool := Qle_bool (this x) (this y).

(** The common form: values with an order test [leb], the initial value [top], the value [ext e x]
    sent along an edge; [below]: new edges are targeted only when the value is below [top]. *)
Definition min_alg (V E : Type) (leb : V -> V -> bool) (top : V) (ext : E -> V -> V) (below : bool) : alg := {|
  prop_t := V; cell_t := V; msg_t := V; edge_t := E;
  merge m _ _ b := match b with c :: _ => if leb c m then ([c], false) else ([m], true) | [] => ([], false) end;
  take c := (c, c);
  react _ k p es cs :=
    let m := hd p cs in
    let p' := if leb p m then p else m in
    (p', if leb p m then [] else map (fun '(d, e) => (d, ext e p')) es,
     match k with
     | KAdd start => if below && leb top p' then [] else map (fun '(d, e) => (d, ext e p')) (drop start es)
     | _ => []
     end) |}.

(** cmd/lp-cc/cc.go: values are uint32; EMPTY_VAL is the largest. *)
Definition cc_empty : N := 2 ^ 32 - 1.
Definition cc : alg := {|
  prop_t := N; cell_t := N; msg_t := N; edge_t := unit;
  (* cc.go:42-44 MailMerge: incoming < AtomicMin(existing, incoming) *)
  merge m _ _ b := match b with c :: _ => if (c <=? m)%N then ([c], false) else ([m], true) | [] => ([], false) end;
  (* cc.go:46-48 MailRetrieve *)
  take c := (c, c);
  (* cc.go:51-69 OnUpdateVertex; 72-88 OnEdgeAdd *)
  react _ k p es cs :=
    let m := hd p cs in
    let p' := if (p <=? m)%N then p else m in
    (p', if (p <=? m)%N then [] else map (fun '(d, _) => (d, p')) es,
     match k with KAdd start => map (fun '(d, _) => (d, p')) (drop start es) | _ => [] end) |}.

(** cmd/lp-sssp/sssp.go: values are float64, here rationals with a rounding function [rnd] for the
    addition; [top] is EMPTY_VAL; what the code turns into +Inf is any number not below [top]. *)
Definition sssp (rnd : Qc -> Qc) (top : Qc) : alg := {|
  prop_t := Qc; cell_t := Qc; msg_t := Qc; edge_t := Qc;
  (* sssp.go:35-37 MailMerge *)
  merge m _ _ b := match b with c :: _ => if qle c m then ([c], false) else ([m], true) | [] => ([], false) end;
  (* sssp.go:39-41 MailRetrieve *)
  take c := (c, c);
  (* sssp.go:44-62 OnUpdateVertex; 67-85 OnEdgeAdd *)
  react _ k p es cs :=
    let m := hd p cs in
    let p' := if qle p m then p else m in
    (p', if qle p m then [] else map (fun '(d, w) => (d, rnd (p' + w)%Qc)) es,
     match k with
     | KAdd start => if qle top p' then [] else map (fun '(d, w) => (d, rnd (p' + w)%Qc)) (drop start es)
     | _ => []
     end) |}.

(** The initial mails that were delivered in a run (run-async.go:86-100; in a growing graph
    stream-enact-events.go:43-66). *)
Definition given_at {a} (owner : nat -> nat) (s : est a) (t : nat) (c : choice a) : list (nat * msg_t a) :=
  match todo a s t, c with [], SendInit _ v m => if (owner v =? t)%nat then [(v, m)] else [] | _, _ => [] end.
Fixpoint given {a} (owner : nat -> nat) (s : est a) (sched : list (nat * choice a)) : list (nat * msg_t a) :=
  match sched with
  | [] => []
  | (t, c) :: l => given_at owner s t c ++ given owner (estep a owner s t c) l
  end.
