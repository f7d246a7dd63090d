(** Model of cmd/lp-edgelist-tools/main.go.  Lines are byte strings ([IO_Model]); bufio.Scanner is taken by its
    documentation and gives the lines (it would stop at a line of 64 KiB or more, and nobody would notice). *)
From Verif Require Import Base IO_Model.
Open Scope nat_scope.

Notation line := (list N).
(** strings.HasPrefix(lineText, "#") *)
Definition has_hash (l : line) : bool := match l with c :: _ => (c =? 35)%N | [] => false end.

Definition upd {A} (f : nat -> A) (i : nat) (x : A) : nat -> A := fun j => if j =? i then x else f j.

(** LoadLineList (47-85), with [q] enqueuers, [q] channels of capacity [cap] and [q] dequeuers.  An enqueuer has
    read [epos] lines; the main goroutine waits for all enqueuers, closes the channels, waits for all dequeuers. *)
Record lst := Lst {
  epos : nat -> nat; mine : nat -> nat; edone : nat -> bool;  (* lines, mLines; enqWg.Done *)
  chan : nat -> list line; closed : nat;                       (* channels below [closed] are closed *)
  got : nat -> list line; ddone : nat -> bool;                 (* lineLists; deqWg.Done *)
  result : option (list line * nat) }.                         (* finalList, lines *)
Inductive actor := Enq (i : nat) | Deq (i : nat) | Main.

Definition all_below (q : nat) (f : nat -> bool) : bool := forallb f (seq 0 q).
Definition lstep (cap q : nat) (ls : list line) (s : lst) (a : actor) : lst :=
  match a with
  | Enq i =>
      if negb (i <? q) || edone s i then s else
      match ls !! epos s i with
      | None => Lst (epos s) (mine s) (upd (edone s) i true) (chan s) (closed s) (got s) (ddone s) (result s)
      | Some l =>
          let num := S (epos s i) in (* 33: lines++ *)
          if negb (num mod q =? i) then Lst (upd (epos s) i num) (mine s) (edone s) (chan s) (closed s) (got s) (ddone s) (result s)
          else if has_hash l then Lst (upd (epos s) i num) (upd (mine s) i (S (mine s i))) (edone s) (chan s) (closed s) (got s) (ddone s) (result s)
          else if length (chan s (num mod q)) <? cap then
            Lst (upd (epos s) i num) (upd (mine s) i (S (mine s i))) (edone s) (upd (chan s) (num mod q) (chan s (num mod q) ++ [l]))
              (closed s) (got s) (ddone s) (result s)
          else s
      end
  | Deq i =>
      if negb (i <? q) || ddone s i then s else
      match chan s i with
      | l :: r => Lst (epos s) (mine s) (edone s) (upd (chan s) i r) (closed s) (upd (got s) i (got s i ++ [l])) (ddone s) (result s)
      | [] => if i <? closed s then Lst (epos s) (mine s) (edone s) (chan s) (closed s) (got s) (upd (ddone s) i true) (result s) else s
      end
  | Main =>
      if negb (all_below q (edone s)) then s
      else if closed s <? q then Lst (epos s) (mine s) (edone s) (chan s) (S (closed s)) (got s) (ddone s) (result s)
      else if negb (all_below q (ddone s)) then s
      else match result s with
           | Some _ => s
           | None => Lst (epos s) (mine s) (edone s) (chan s) (closed s) (got s) (ddone s)
                       (Some (concat (map (got s) (seq 0 q)), list_sum (map (mine s) (seq 0 q))))
           end
  end.
Definition lrun (cap q : nat) (ls : list line) (s : lst) (sched : list actor) : lst := fold_left (lstep cap q ls) sched s.
Definition lstart : lst := Lst (fun _ => 0) (fun _ => 0) (fun _ => false) (fun _ => []) 0 (fun _ => []) (fun _ => false) None.
(** 47-58: [None] is the index panic of lineLists for zero threads ([qCount] is then 1, the list empty). *)
Definition load_start (threads : nat) : option (nat * lst) :=
  let q := Nat.max threads 1 in if threads <? q then None else Some (q, lstart).

(** Go's < on strings. *)
Fixpoint str_lt (a b : line) : bool :=
  match a, b with
  | _, [] => false
  | [], _ :: _ => true
  | x :: a, y :: b => if (x =? y)%N then str_lt a b else (x <? y)%N
  end.
(** 102-109 [Less]: [fields] is used for both lines.  [None]: a panic. *)
Definition less (pos : nat) (a b : line) : option bool :=
  match fast_fields (replicate 5 []) a with
  | None => None
  | Some f =>
      match f !! pos with
      | None => None
      | Some t1 =>
          match fast_fields f b with
          | None => None
          | Some f => match f !! pos with None => None | Some t2 => Some (str_lt t1 t2) end
          end
      end
  end.
(** 132: sort.Stable, as the insertion sort it uses on blocks: a line moves left while it is less than its left
    neighbour.  (The merging of blocks is taken by its documentation.)  The sorted prefix is kept reversed. *)
Fixpoint insert (pos : nat) (x : line) (r : list line) : option (list line) :=
  match r with
  | [] => Some [x]
  | y :: r =>
      match less pos x y with
      | None => None
      | Some true => match insert pos x r with None => None | Some r => Some (y :: r) end
      | Some false => Some (x :: y :: r)
      end
  end.
Fixpoint stable (pos : nat) (r ls : list line) : option (list line) :=
  match ls with
  | [] => Some (rev r)
  | x :: ls => match insert pos x r with None => None | Some r => stable pos r ls end
  end.
Definition tool_sort (pos : nat) (ls : list line) : option (list line) := stable pos [] ls.

(** 147-154: the output is opened with utils.OpenFile (utils/io.go:25-31), that is os.Open: it must exist, and it is
    open for reading only, so that the first WriteString fails. *)
Inductive outcome := Ended (written : list line) | Fatal (written : list line) | Panicked.
Definition write_lines (exists_ : bool) (ls : list line) : outcome :=
  if exists_ then match ls with [] => Ended [] | _ => Fatal [] end else Panicked.
