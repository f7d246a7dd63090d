(** Model of cmd/lp-colouring/colouring.go (without UseWaitCount, see Wait_Model.v) for the engine of
    Engine_Model.v.  A mailbox is the slice NbrScratch, one cell per position; the property of a
    vertex is its colour and its bitmap (Bitmap_Model.v).  A vertex's internal id is a nat, taken as
    uint32.  MailMerge is one step: a slot is written by a single vertex, the slice grows under the
    lock, and the unlocked reads of the slice are taken to be consistent. *)
From Verif Require Import Base Bitmap_Model Vertex_Model Engine_Model.
Open Scope N_scope.

(** Lines 14-16. *)
Definition EMPTY_VAL : N := (w32 - 1) / 2.
Definition MSB : N := 2 ^ 31.
Definition MSB_MASK : N := 2 ^ 31 - 1.
(** Lines 51-59. *)
Definition hash (id : nat) : N := N.land (N.of_nat id) THREAD_MASK.
Definition compare_priority (p1 p2 : N) (id1 id2 : nat) : bool := (p1 <? p2) || ((p1 =? p2) && (id1 <? id2)%nat).
(** [s] goes first. *)
Definition prio (s d : nat) : bool := compare_priority (hash s) (hash d) s d.

(** Lines 90-139: message (Colour, Pos) from [s] to [d]. *)
Definition grow_slots (l : list N) (pos : nat) : list N := l ++ replicate (S pos - length l) EMPTY_VAL.
Definition mail_merge (m : N * nat) (s d : nat) (slots : list N) : list N * bool :=
  if (s =? d)%nat then (slots, true)
  else
    let target_priority := prio d s in
    let colour := if target_priority then fst m else N.lor (fst m) MSB in
    if (length slots <=? snd m)%nat then (<[snd m := colour]> (grow_slots slots (snd m)), negb target_priority)
    else match slots !! snd m with
         | Some c => if c =? colour then (slots, false) else (<[snd m := colour]> slots, negb target_priority)
         | None => (slots, false)
         end.

(** Lines 141-163. *)
Definition vprop : Type := N * bitmap.
Definition colour_of (c : N) : N := N.land c MSB_MASK.
Definition mark (n : N) (b : bitmap) (c : N) : bitmap :=
  if colour_of c <=? n then
    let '(b', ok) := quick_set b (colour_of c) in if ok then b' else set b' (colour_of c)
  else b.
Definition mail_retrieve (ns : list N) (p : vprop) : vprop :=
  let n := N.of_nat (length ns) in
  (if existsb (fun c => (colour_of c <=? n) && negb (N.land c MSB =? 0) && (colour_of c =? fst p)) ns
   then EMPTY_VAL else fst p,
   fold_left (mark n) ns (zeroes (snd p))).

(** Lines 166-182. *)
Definition on_update (p : vprop) (es : list (nat * nat)) : vprop * list (nat * (N * nat)) :=
  let best := first_unused (snd p) in
  if fst p =? best then (p, []) else ((best, snd p), map (fun '(d, pos) => (d, (best, pos))) es).
(** Lines 187-222. *)
Definition col_react (v : nat) (k : kind nat) (p : vprop) (es : list (nat * nat)) (ns : list N) :
    vprop * list (nat * (N * nat)) * list (nat * (N * nat)) :=
  let '(p, ms) := on_update (mail_retrieve ns p) es in
  match k with
  | KUpd => (p, ms, [])
  | KAdd start => (p, ms, map (fun '(d, pos) => (d, (fst p, pos))) (List.filter (fun '(d, _) => prio v d) (skipn start es)))
  | KDel gone => (p, ms ++ map (fun '(d, pos) => (d, (EMPTY_VAL, pos))) gone, [])
  end.

Definition colouring : alg := {|
  prop_t := vprop; cell_t := N; msg_t := N * nat; edge_t := nat;
  merge m s d slots := mail_merge m s d slots; take c := (c, c);
  react v k p es ns := col_react v k p es ns |}.

(** Lines 38-42: a new vertex. *)
Definition new_prop : vprop := (EMPTY_VAL, grow bm_empty 127).

(** The edges added at [u] in a schedule. *)
Definition added (sched : list (nat * choice colouring)) (u : nat) : list (nat * nat) :=
  concat (map (fun '(_, c) => match c with AddEdges _ v es => if (v =? u)%nat then es else [] | _ => [] end) sched).
Definition ever (es : nat -> list (nat * nat)) (sched : list (nat * choice colouring)) (u : nat) : list (nat * nat) :=
  es u ++ added sched u.
