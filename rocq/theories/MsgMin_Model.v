(** Message-passing shortest paths (cmd/lp-sssp/sssp-msg.go:13-87) on the engine with active
    notifications.  Values are rationals with a rounding function for the addition; [top] is
    EMPTY_VAL.  OnEdgeDel panics and is not modelled. *)
From Verif Require Import Base Active_Spec Active_Model.
From Coq Require Import QArith Qcanon.
Open Scope nat_scope.
Delimit Scope Qc_scope with Qc.
From Verif Require Import Min_Model.

(** The common form; [empty]: the test for EMPTY_VAL. *)
Definition msg_alg (V E : Type) (leb : V -> V -> bool) (empty : V -> bool) (ext : E -> V -> V) : aalg := {|
  p_t := V * bool; n_t := V; e_t := E; u_t := unit; touch _ p := p;
  areact _ k act '(val, will) es :=
    match k with
    | KNote x =>
        let '(val, will) := if leb val x then (val, will) else (x, true) in
        if (0 <? act) || negb will then ((val, will), [])
        else ((val, false), map (fun '(d, e) => (d, ext e val)) es)
    | KAdded start =>
        if empty val then ((val, will), [])
        else ((val, false), map (fun '(d, e) => (d, ext e val)) (if will then es else drop start es))
    end |}.

(** sssp-msg.go; a vertex property is Value and WillUpdate. *)
Definition ssspm (rnd : Qc -> Qc) (top : Qc) : aalg := {|
  p_t := Qc * bool; n_t := Qc; e_t := Qc; u_t := unit; touch _ p := p;
  areact _ k act '(val, will) es :=
    match k with
    | KNote x =>                                                        (* 47-69 OnUpdateVertex *)
        let '(val, will) := if qle val x then (val, will) else (x, true) in   (* 48-51 *)
        if (0 <? act) || negb will then ((val, will), [])               (* 53-58 *)
        else ((val, false), map (fun '(d, w) => (d, rnd (val + w)%Qc)) es)   (* 59-68 *)
    | KAdded start =>                                                   (* 71-87 OnEdgeAdd *)
        if Qc_eq_bool val top then ((val, will), [])
        else ((val, false), map (fun '(d, w) => (d, rnd (val + w)%Qc)) (if will then es else drop start es))
    end |}.

(** The initial notifications that were sent in a run. *)
Definition noted_at {a} (s : ast a) (t : nat) (c : achoice a) : list (nat * n_t a) :=
  match atodo s t, c with [], ANote v x => [(v, x)] | _, _ => [] end.
Fixpoint noted {a} (owner : nat -> nat) (s : ast a) (sched : list (nat * achoice a)) : list (nat * n_t a) :=
  match sched with
  | [] => []
  | (t, c) :: l => noted_at s t c ++ noted owner (astep a owner s t c) l
  end.
