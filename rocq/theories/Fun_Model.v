(** Model of cmd/lp-temporal-paths/timeseries.go: FunStatistics, with MaxSlice and MinSlice of
    utils/helpers.go.  Percentages are pairs (numerator, denominator). *)
From Verif Require Import Base Fun_Spec.
Open Scope N_scope.

(** utils/helpers.go:52-64 [Max], [Min], 66-80 [MaxSlice], [MinSlice] ([None]: index out of range). *)
Definition gmax (x y : N) : N := if x <? y then y else x.
Definition gmin (x y : N) : N := if y <? x then y else x.
Definition max_slice (l : list N) : option N := match l with [] => None | x :: _ => Some (fold_left gmax l x) end.
Definition min_slice (l : list N) : option N := match l with [] => None | x :: _ => Some (fold_left gmin l x) end.

Definition max64 : N := 2 ^ 64 - 1.

(** timeseries.go:114-160, the body of the first parallel loop: per thread the counts visitCount,
    tNumVisitableNow, tVertexCount, tActiveVertices, tNumActiveAndVisitable, and maxWindows. *)
Record acc1 := Acc1 { c_visit : N; c_now : N; c_vc : N; c_act : N; c_actvis : N; c_maxw : N }.
Definition step1 (at_event : N) (a : acc1) (v : tv) : acc1 :=
  if at_event <? tcreate v then a
  else
    let act := existsb (fun e => e =? 0) (tends v) in
    let b := fun (c : bool) => if c then 1 else 0 in
    let has := match twins v with [] => false | _ => true end in
    let now := existsb (fun w => snd (fst w) =? max64) (twins v) in
    Acc1 (c_visit a + b has) (c_now a + b (has && now)%bool) (c_vc a + 1) (c_act a + b act) (c_actvis a + b (act && has)%bool)
      (if has then gmax (c_maxw a) (N.of_nat (length (twins v))) else c_maxw a).
Definition pass1 (at_event : N) (vs : list tv) : acc1 := fold_left (step1 at_event) vs (Acc1 0 0 0 0 0 0).

(** 192-218, the body of the second one, for window [w]: maxStart, minStart, allStart of a thread
    (maxEnd, minEnd, maxHops are handled alike). *)
Record acc2 := Acc2 { x_max : N; x_min : N; x_all : list N }.
Definition step2 (at_event : N) (w : nat) (a : acc2) (v : tv) : acc2 :=
  if at_event <? tcreate v then a
  else match nth_error (twins v) w with
       | None => a
       | Some (s, _, _) => Acc2 (gmax (x_max a) s) (if s =? 0 then x_min a else gmin (x_min a) s) (x_all a ++ [s])
       end.
(** 190-250: for w = 0 .. max-1.  After a round maxStart and allStart are reset (243-250), minStart is not.
    Result per round: MaxSlice(maxStart), MinSlice(minStart), the compressed allStart[0]. *)
Definition report (l : list acc2) : option N * option N * list N :=
  (max_slice (map x_max l), min_slice (map x_min l), concat (map x_all l)).
Definition reset (a : acc2) : acc2 := Acc2 0 (x_min a) [].
Fixpoint rounds (at_event : N) (threads : list (list tv)) (accs : list acc2) (w n : nat) : list (option N * option N * list N) :=
  match n with
  | O => []
  | S n =>
      let accs := map (fun av => fold_left (step2 at_event w) (snd av) (fst av)) (combine accs threads) in
      report accs :: rounds at_event threads (map reset accs) (S w) n
  end.

Record stats := Stats { st_visited : N; st_now : N; st_vc : N; st_act : N; st_max : N; st_rounds : list (option N * option N * list N) }.
(** 107-253; [None]: MaxSlice of no threads. *)
Definition fun_stats (at_event : N) (threads : list (list tv)) : option stats :=
  let p := map (pass1 at_event) threads in
  let sum := fun f => fold_left (fun s a => s + f a) p 0 in
  match max_slice (map c_maxw p) with
  | None => None
  | Some m =>
      Some (Stats (sum c_visit) (sum c_now) (sum c_vc) (sum c_act) m
        (rounds at_event threads (map (fun _ => Acc2 0 max64 []) threads) 0 (N.to_nat m)))
  end.
(** 164-166. *)
Definition pct_visited_now (s : stats) : N * N := (st_now s * 100, st_visited s).
Definition pct_could (s : stats) : N * N := (st_visited s * 100, st_vc s).
Definition pct_of_active (s : stats) : N * N := (st_now s * 100, st_act s).
