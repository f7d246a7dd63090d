(** OnFinish of cmd/lp-pagerank/pagerank.go (lines 185-271), which gives what gathered in sinks
    (vertices without edges) back to the others, and normalises.

    Exact rationals for float64; a division by zero, which gives an infinity or NaN there, makes
    the result [None].  The two parallel passes work on separate vertices and add up totals
    atomically; here they are lists and sums.  NORMALIZE is true, NORM_IGNORE_SINGLETONS and PPR
    are false, as in the constants of lines 17-19. *)
From Verif Require Import Base RBO_Spec QcUtil Finish_Spec Rank_Model.
From Coq Require Import QArith Qcanon.
Open Scope nat_scope.

(** A vertex when OnFinish begins: its property, len(OutEdges), and whether it was created after
    the query, CreateEvent > AtEvent. *)
Record fin := Fin { f_in : Qc; f_mass : Qc; f_deg : nat; f_late : bool }.
Definition sink (x : fin) : bool := f_deg x =? 0.
(** Lines 216-218: a sink that does not exist yet is discarded. *)
Definition gone (x : fin) : bool := sink x && f_late x.
Definition lasting (x : fin) : bool := sink x && negb (f_late x).

(** Lines 207-211: the leftover flow is absorbed; the rest of it is kept for the checker. *)
Definition flow1 (x : fin) : Qc := (DAMP * f_in x)%Qc.
Definition mass1 (x : fin) : Qc := if gone x then 0%Qc else (f_mass x + (1 - DAMP) * f_in x)%Qc.

(** Lines 219-225, 234-235: the totals. *)
Definition sinkSum (l : list fin) : Qc := lsum (map mass1 (List.filter lasting l)).
Definition nonSinkSum (l : list fin) : Qc := lsum (map mass1 (List.filter (fun x => negb (sink x)) l)).
Definition numSinks (l : list fin) : Qc := inject_nat (length (List.filter lasting l)).
Definition globalLatent (l : list fin) : Qc := (sinkSum l * (DAMP / (1 - DAMP)))%Qc.
Definition nV (l : list fin) : Qc := inject_nat (length l - length (List.filter gone l)).

Definition dv (a b : Qc) : option Qc := if Qc_eq_dec b 0 then None else Some (a / b)%Qc.

(** Lines 241-246. *)
Definition ratios (l : list fin) : option (Qc * Qc * Qc * Qc) :=
  match dv (globalLatent l / DAMP - numSinks l) (nV l - numSinks l), dv 1 (nV l - 1), dv (nV l - numSinks l) (nV l - 1) with
  | Some retain, Some sinkQ, Some normQ =>
    match dv (globalLatent l) (1 - DAMP * (sinkQ * (numSinks l - 1) + normQ * retain)) with
    | Some geo => Some (retain, sinkQ, normQ, geo)
    | None => None
    end
  | _, _, _ => None
  end.

(** Lines 254-267. *)
Definition adjust (l : list fin) (q : Qc * Qc * Qc * Qc) (x : fin) : option (Qc * Qc) :=
  let '(retain, sinkQ, normQ, geo) := q in
  let m := mass1 x in
  if sink x then
    if Qc_eq_dec m 0 then Some (flow1 x, m)
    else
      let latent := (m * (DAMP / (1 - DAMP)))%Qc in
      match dv (latent / DAMP - 1) (globalLatent l / DAMP - numSinks l), dv latent (globalLatent l) with
      | Some power, Some share =>
        match dv (m + (1 - DAMP) * geo * (sinkQ * (1 - share) + normQ * retain * power)) (nV l) with Some m' => Some (flow1 x, m') | None => None end
      | _, _ => None
      end
  else
    match dv m (nonSinkSum l) with
    | Some share => match dv (m + normQ * (geo * (1 - retain)) * share) (nV l) with Some m' => Some (flow1 x, m') | None => None end
    | None => None
    end.

Fixpoint all_some {A : Type} (l : list (option A)) : option (list A) :=
  match l with
  | [] => Some []
  | Some x :: r => match all_some r with Some y => Some (x :: y) | None => None end
  | None :: _ => None
  end.

(** The whole of OnFinish. *)
Definition finish (l : list fin) : option (list (Qc * Qc)) :=
  match ratios l with Some q => all_some (map (adjust l q) l) | None => None end.
