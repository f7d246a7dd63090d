(** Sliding windows (the option InsertDeleteOnExpire, -w) in a run with several threads and queries: the program of QDel_Model on a
    stream that only adds; whenever a thread enacts what it has pulled, it also deletes those of its edges that are
    too old at the time of the last event pulled (graph/stream-enact-events.go:120-185, 223-231).

    Simplifications: those of QDel_Model; times do not overflow; the panic on times that go back (144-147) is [disorder] below and not
    a part of the step, so the theorems about runs ask for rising times; the stream only adds (with deletions
    the queue of future deletions goes wrong: C29). *)
From Verif Require Import Base Engine_Spec Engine_Model Whole_Model QDel_Spec QDel_Model QWin_Spec.
Open Scope nat_scope.

Section win.
Context (a : alg) (owner : nat -> nat) (swap : bool) (n : nat).
Notation event := (nat * (nat * edge_t a))%type.
Context (evs : list event) (ask : nat -> bool) (ts : edge_t a -> N) (W : N).

Definition plus (l : list event) : list (nat * change (edge_t a)) := map (fun x => (fst x, Plus (snd x))) l.
Definition added_by (l : list (nat * change (edge_t a))) : list event :=
  flat_map (fun x => match snd x with Plus e => [(fst x, e)] | Minus _ => [] end) l.

(** 122, 161-183: [ripe] are the first edges of the queue ExpiredEdges that are too old; the others stay. *)
Fixpoint ripe (now : N) (l : list event) : list event :=
  match l with x :: l => if (now <? at_time ts x + W)%N then [] else x :: ripe now l | [] => [] end.
Definition latest (got : list event) : N := match list.last got with Some x => at_time ts x | None => 0%N end.
Definition expiries (l : list event) : list (nat * change (edge_t a)) := map (fun x => (fst x, Minus (fst (snd x)))) l.

Record xst := Xst { base : qst a; due : nat -> list event (* ExpiredEdges *) }.
(** 210-231: a batch of [k] events. *)
Definition inject (s : xst) (b : qst a) (t : nat) (k : nat) : xst :=
  let got := added_by (firstn k (tq (base s) t)) in
  let q := due s t ++ got in
  let old := ripe (latest got) q in
  Xst (set_top a b (who b) (tq b) (upd (batch b) t (batch b t ++ expiries old))) (upd (due s) t (skipn (length old) q)).
Definition xstep (s : xst) (x : actor a) : xst :=
  let b := qstep a owner swap n (plus evs) ask (base s) x in
  match x with
  | Thread t (Pull k r) =>
      if negb (n <=? t) && negb (acked (base s) t) && may_pull a (base s) t k r && (0 <? k) then inject s b t k else Xst b (due s)
  | _ => Xst b (due s)
  end.
Definition xrun (s : xst) (sched : list (actor a)) : xst := fold_left xstep sched s.
Definition xstart (e : est a) (sent0 : nat -> N) : xst := Xst (qstart a e sent0) (fun _ => []).
Fixpoint xworks (s : xst) (sched : list (actor a)) : list (nat * choice a) :=
  match sched with [] => [] | x :: l => qwork a owner n (base s) x ++ xworks (xstep s x) l end.

(** 131-147: a batch panics if the time of an event is later than the one of the last. *)
Definition disorder (got : list event) : bool := existsb (fun x => (latest got <? at_time ts x)%N) got.
End win.
Arguments base {a} _. Arguments due {a} _ _.
