(** Model of MailRetrieve and pushWindows of cmd/lp-temporal-paths/temporal-paths.go.  uint64 values
    are N below 2^64 (no arithmetic except Hops + 1, which wraps). *)
From Verif Require Import Base Heap_Model Window_Spec.
Open Scope N_scope.

(** Lines 26-32, 67-69. *)
Definition w64 : N := 2 ^ 64.
Definition INFINITY : N := w64 - 1.
Record path := Path { p_start : N; p_end : N; p_hops : N }.
Definition less (p q : path) : bool := p_start p <? p_start q.
(** Path{INFINITY, 0, INFINITY}: no path. *)
Definition no_path : path := Path INFINITY 0 INFINITY.
(** Path{0, INFINITY, 0}: the source (line 92). *)
Definition whole : path := Path 0 INFINITY 0.

(** Lines 151-181: try to merge the inbound path into one of the windows. *)
Fixpoint fit (i : path) (pq : list path) : option (list path) :=
  match pq with
  | [] => None
  | w :: pq' =>
      if (p_start i =? p_start w) && (p_end i =? p_end w)
      then Some (Path (p_start w) (p_end w) (N.min (p_hops w) (p_hops i)) :: pq')
      else if (p_start i <=? p_start w) && (p_end w <=? p_end i)
      then Some (i :: pq')
      else if (p_start w <? p_start i) && (p_start i <=? p_end w) && (p_end i <=? p_end w)
      then Some (w :: pq')
      else if (p_start w <? p_start i) && (p_start i <? p_end w) && (p_end w <? p_end i)
      then Some (Path (p_start w) (p_end i) (N.max (p_hops w) (p_hops i)) :: pq')
      else match fit i pq' with Some l => Some (w :: l) | None => None end
  end.
(** Lines 137-185: the loop over the slots. *)
Definition gather1 (pq : list path) (i : path) : list path :=
  if p_start i =? INFINITY then pq
  else match pq with
       | [] => push less pq i
       | _ => match fit i pq with Some pq' => pq' | None => push less pq i end
       end.
Definition gather (slots : list path) : list path := fold_left gather1 slots [].

(** Start or End differ. *)
Definition differ (a b : path) : bool := negb ((p_start a =? p_start b) && (p_end a =? p_end b)).
(** Windows[i] is missing or differs from [w] (lines 249, 257-260). *)
Definition differs_at (wins : list path) (i : nat) (w : path) : bool :=
  match wins !! i with None => true | Some w' => differ w' w end.
(** Lines 198-252; nextWindows is [done ++ [prev]].  [None] is the panic of line 205. *)
Fixpoint combine (wins : list path) (done : list path) (prev : path) (changed : bool) (pq : list path) : option (list path * bool) :=
  match pq with
  | [] => Some (done ++ [prev], changed)
  | n :: pq' =>
      if p_start n <? p_start prev then None
      else if (p_start n =? p_start prev) && (p_end n =? p_end prev)
      then combine wins done (Path (p_start prev) (p_end prev) (N.min (p_hops prev) (p_hops n))) changed pq'
      else if (p_start n =? p_start prev) && (p_end prev <? p_end n)
      then combine wins done (Path (p_start prev) (p_end n) (p_hops n)) changed pq'
      else if (p_start n <? p_end prev) && (p_end n <=? p_end prev)
      then combine wins done prev changed pq'
      else if (p_start prev <=? p_start n) && (p_start n <? p_end prev) && (p_end prev <? p_end n)
      then combine wins done (Path (p_start prev) (p_end n) (N.max (p_hops prev) (p_hops n))) changed pq'
      else combine wins (done ++ [prev]) n (changed || differs_at wins (length done) prev) pq'
  end.

(** Windows, nextWindows and changed (lines 38-43; the priority queue is only a cache). *)
Record tprop := TProp { wins : list path; nexts : list path; changed : bool }.
(** Lines 255-262. *)
Definition final_check (ws next : list path) (ch : bool) : bool :=
  ch || negb (length ws =? length next)%nat ||
  match list.last next with Some l => differs_at ws (length next - 1) l | None => false end.
(** Lines 120-267 for the mailbox (NewPath, NbrScratch). *)
Definition mail_retrieve (new : path) (slots : list path) (p : tprop) : option tprop :=
  if (p_start new =? 0) && (p_end new =? INFINITY)
  then Some (TProp (wins p) (match nexts p with [] => [new] | l => l end) true)
  else match gather slots with
       | [] => Some (TProp (wins p) [] (final_check (wins p) [] false))
       | w :: pq =>
           match combine (wins p) [] w false pq with
           | Some (next, ch) => Some (TProp (wins p) next (final_check (wins p) next ch))
           | None => None
           end
       end.

(** Lines 270-350: the offer for an edge that appeared at [ts] and ended at [en] (0: it did not), and the
    index where the search starts for the next edge.  EXTEND_TO_EDGE_END is the constant true, so that
    all candidates have the same start and end, and the panic of line 346 cannot be reached. *)
Definition extent (en : N) : N := if en =? 0 then INFINITY else en.
Fixpoint search (ts en : N) (ws : list path) (i : nat) (offer : path) (first : nat) : path * nat :=
  match ws with
  | [] => (offer, first)
  | w :: ws' =>
      let e := Path ts (extent en) ((p_hops w + 1) mod w64) in
      if p_end w <=? ts then search ts en ws' (S i) offer first
      else if ts <=? p_start w then (offer, first)
      else if p_start offer =? INFINITY then search ts en ws' (S i) e i
      else search ts en ws' (S i) (Path (p_start offer) (p_end offer) (N.min (p_hops offer) (p_hops e))) first
  end.
Definition find_offer (ts en : N) (ws : list path) (from : nat) : path * nat := search ts en (skipn from ws) from no_path from.
