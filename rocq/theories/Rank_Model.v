(** Model of cmd/lp-pagerank/pagerank.go on the engine of Engine_Model.v, in exact arithmetic
    instead of floating point.  A mailbox has one cell (Mail.Value); edges have no data. *)
From Verif Require Import Base RBO_Spec Engine_Model Rank_Spec.
From Coq Require Import QArith Qcanon.
Open Scope nat_scope.

(** Lines 13, 21, 36. *)
Definition DAMP : Qc := Q2Qc (17 # 20).
Definition COMPARATIVE_E : Qc := Q2Qc (1 # 1000).
Definition EPS : Qc := (COMPARATIVE_E / (1 - DAMP))%Qc.
Definition qabs (x : Qc) : Qc := if Qclt_le_dec x 0%Qc then (- x)%Qc else x.
Definition qltb (a b : Qc) : bool := if Qclt_le_dec a b then true else false.

(** Lines 66-72. *)
Definition rank_merge (m : Qc) (b : list Qc) : list Qc * bool :=
  match b with
  | x :: r => ((x + m)%Qc :: r, qltb (qabs x) EPS && qltb EPS (qabs (x + m)%Qc))
  | [] => ([], false)
  end.
(** (InFlow, Mass). *)
Definition rprop : Type := Qc * Qc.
Definition total (l : list Qc) : Qc := foldr Qcplus 0%Qc l.
Definition to_all (x : Qc) (l : list (nat * unit)) : list (nat * Qc) := map (fun e => (fst e, x)) l.
Definition qlen {A} (l : list A) : Qc := inject_nat (length l).

(** Lines 79-101; [got] holds the value of the only cell. *)
Definition rank_update (p : rprop) (es : list (nat * unit)) (got : list Qc) : rprop * list (nat * Qc) :=
  let f := (fst p + total got)%Qc in
  if qltb EPS (qabs f) then ((0, snd p + (1 - DAMP) * f)%Qc, to_all (DAMP * f / qlen es)%Qc es)
  else ((f, snd p), []).
(** Lines 106-141. *)
Definition rank_add (p : rprop) (es : list (nat * unit)) (start : nat) (got : list Qc) : rprop * list (nat * Qc) :=
  let prev := (snd p * (DAMP / (1 - DAMP)))%Qc in
  let f := (fst p + total got)%Qc in
  let distribute := (DAMP * f / qlen es)%Qc in
  let new := (prev / qlen es)%Qc in
  ((0, snd p + (1 - DAMP) * f)%Qc,
   (if (start =? 0)%nat then [] else to_all (new - prev / inject_nat start + distribute)%Qc (firstn start es)) ++
   to_all (new + distribute)%Qc (skipn start es)).
(** Lines 144-176. *)
Definition rank_del (p : rprop) (es gone : list (nat * unit)) (got : list Qc) : rprop * list (nat * Qc) :=
  let prev := (snd p * (DAMP / (1 - DAMP)))%Qc in
  let f := (fst p + total got)%Qc in
  ((0, snd p + (1 - DAMP) * f)%Qc,
   to_all (prev / qlen es - prev / inject_nat (length es + length gone) + DAMP * f / qlen es)%Qc es ++
   to_all (- (1) * prev / inject_nat (length es + length gone))%Qc gone).

Definition ranking : alg := {|
  prop_t := rprop; cell_t := Qc; msg_t := Qc; edge_t := unit;
  merge m _ _ b := rank_merge m b;
  take c := (0%Qc, c);                                                  (* lines 74-77 *)
  react _ k p es got :=
    (match k with KUpd => rank_update p es got | KAdd start => rank_add p es start got | KDel gone => rank_del p es gone got end, []) |}.

(** Lines 54-60. *)
Definition rank_start (es : nat -> list (nat * unit)) : est ranking := estart ranking (fun _ => [0%Qc]) (fun _ => (0, 0)%Qc) es.

(** How much initial mail (lines 62-64) the schedule gives to [v]. *)
Fixpoint given owner (s : est ranking) (sched : list (nat * choice ranking)) (v : nat) : Qc :=
  match sched with
  | [] => 0%Qc
  | (t, c) :: rest =>
      (match c, todo ranking s t with
       | SendInit _ w m, [] => if ((w =? v) && (owner w =? t))%nat then m else 0
       | _, _ => 0
       end + given owner (estep ranking owner s t c) rest v)%Qc
  end.
