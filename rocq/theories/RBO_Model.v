(** Model of utils/rbo.go.  float64 arithmetic is exact rational arithmetic; a
    division by zero (0/0 is NaN) makes the accumulated value [None]. *)
From Verif Require Import Base RBO_Spec.
From Coq Require Import QArith Qcanon.
Open Scope Qc_scope.

(** rbo.go:22-31.  [seen] is the map's key set as a duplicate-free list. *)
Record rbo_state := Rbo {
  depth : nat; overlap : nat; wgt : Qc; rbo : option Qc; seen : list Z;
  short : option (nat * nat) (* (shortDepth, shortOverlap); None is -1 *) }.

Definition is_seen (x : Z) (l : list Z) : bool := existsb (Z.eqb x) l.
Definition unsee (x : Z) (l : list Z) : list Z := List.filter (fun y => negb (Z.eqb x y)) l.

(** A float division whose zero divisor gives NaN (numerators are 0 then). *)
Definition fdiv (a b : nat) : option Qc :=
  match b with O => None | _ => Some (inject_nat a / inject_nat b) end.
Definition add_term (acc : option Qc) (x : option Qc) (w : Qc) : option Qc :=
  match acc, x with Some a, Some b => Some (a + b * w) | _, _ => None end.

(** rbo.go:34-42 [New]. *)
Definition rbo_new (p : Qc) : rbo_state := Rbo 0 0 ((1 - p) / p) (Some 0) [] None.

(** rbo.go:51-58 / 60-65: toggle one element in [seen]. *)
Definition toggle (e : Z) (so : list Z * nat) : list Z * nat :=
  if is_seen e (fst so) then (unsee e (fst so), S (snd so)) else (e :: fst so, snd so).

(** rbo.go:45-70 [Update] (only called before EndShort). *)
Definition update (p : Qc) (st : rbo_state) (e1 e2 : Z) : rbo_state :=
  let '(sn, ov) :=
    if Z.eqb e1 e2 then (seen st, S (overlap st))
    else toggle e2 (toggle e1 (seen st, overlap st)) in
  let d := S (depth st) in
  let w := wgt st * p in
  Rbo d ov w (add_term (rbo st) (fdiv ov d) w) sn (short st).

(** rbo.go:73-76 [EndShort]. *)
Definition end_short (st : rbo_state) : rbo_state :=
  Rbo (depth st) (overlap st) (wgt st) (rbo st) (seen st) (Some (depth st, overlap st)).

(** rbo.go:79-96 [UpdateUneven] (only called after EndShort). *)
Definition update_uneven (p : Qc) (st : rbo_state) (e : Z) : rbo_state :=
  match short st with
  | None => st
  | Some (sd, so) =>
      let '(sn, ov) := if is_seen e (seen st) then (unsee e (seen st), S (overlap st))
                       else (seen st, overlap st) in
      let d := S (depth st) in
      let w := wgt st * p in
      let r := add_term (rbo st) (fdiv ov d) w in
      let r := add_term r (fdiv (so * (d - sd)) (d * sd)) w in
      Rbo d ov w r sn (short st)
  end.

(** rbo.go:99-108 [CalcExtrapolated]. *)
Definition calc_extrapolated (p : Qc) (st : rbo_state) : option Qc :=
  let pl := p ^ depth st in
  match short st with
  | None => None
  | Some (sd, so) =>
      match depth st, fdiv so sd, rbo st with
      | S _, Some b, Some r =>
          Some (r + ((inject_nat (overlap st) - inject_nat so) / inject_nat (depth st) + b) * pl)
      | _, _, _ => None
      end
  end.

(** rbo.go:111-138 [CalculateRBO]. *)
Definition calculate_rbo (s t : list Z) (p : Qc) : option Qc :=
  let '(s, t) := if (length t <? length s)%nat then (t, s) else (s, t) in
  let st := fold_left (fun st v => update p st (fst v) (snd v)) (combine s t) (rbo_new p) in
  let st := end_short st in
  let st := if (length s <? length t)%nat
            then fold_left (update_uneven p) (skipn (length s) t) st else st in
  calc_extrapolated p st.
