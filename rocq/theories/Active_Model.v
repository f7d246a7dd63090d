(** Model of the asynchronous engine with active notifications, generic in the algorithm:
    graph/algorithm.go:85-91 (ActiveNotification), 59-73 (EnsureSend), graph/run-async.go:71-83,
    152-172 (initial notifications, ProcessMessages), graph/stream-enact-events.go:66-90, 250-262
    (a new vertex, OnEdgeAdd).  Every access to memory that other threads use is one step; memory
    is sequentially consistent.  Mailboxes are not used by these algorithms.
    Simplifications as in Engine_Model.v: queues hold notifications until they are handled, and
    putting into a queue is one step that never fails. *)
From Verif Require Import Base Active_Spec.

(** What an algorithm supplies.  [areact v k act p es]: OnUpdateVertex for a notification, told the
    activity [act] that remains, or OnEdgeAdd, with the activity at that moment (tc.go:112 reads
    it); the new property and the notifications to send.  [touch]: a change of the property by its
    own thread that sends nothing (OnInEdgeAdd). *)
Inductive akind (N : Type) := KNote (x : N) | KAdded (start : nat).
Arguments KNote {N} _. Arguments KAdded {N} _.
Record aalg := Aalg {
  p_t : Type; n_t : Type; e_t : Type; u_t : Type;
  touch : u_t -> p_t -> p_t;
  areact : nat -> akind n_t -> nat -> p_t -> list (nat * e_t) -> p_t * list (nat * n_t) }.

Section active.
Context (a : aalg) (owner : nat -> nat).

Inductive aop :=
| Inc (d : nat) (x : n_t a)           (* algorithm.go:88 *)
| APut (d : nat) (x : n_t a)          (* algorithm.go:89, 69 *)
| ADec (v : nat) (x : n_t a)          (* run-async.go:157 *)
| Handle (v : nat) (x : n_t a) (act : nat)
| Added (v start : nat).              (* OnEdgeAdd *)

Record ast := Ast {
  aact : nat -> nat; aqueue : nat -> list (nat * n_t a);
  aprop : nat -> p_t a; aedges : nat -> list (nat * e_t a);
  atodo : nat -> list aop; alog : list aevent }.

Definition upd {A} (f : nat -> A) (i : nat) (x : A) : nat -> A := fun j => if (j =? i)%nat then x else f j.

(** Thread [t] executes its next operation, or, when it has none, takes a notification, adds edges
    at a vertex, sends an initial notification, or touches a vertex. *)
Inductive achoice :=
| ARun | APop
| AAdd (v : nat) (es : list (nat * e_t a))
| ANote (v : nat) (x : n_t a)
| ATouch (v : nat) (u : u_t a).

Definition sends (l : list (nat * n_t a)) : list aop := map (fun '(d, x) => Inc d x) l.

Definition aexec (s : ast) (t : nat) (o : aop) (rest : list aop) : ast :=
  match o with
  | Inc d x =>
      Ast (upd (aact s) d (S (aact s d))) (aqueue s) (aprop s) (aedges s) (upd (atodo s) t (APut d x :: rest)) (alog s ++ [Began_send d])
  | APut d x =>
      Ast (aact s) (upd (aqueue s) (owner d) (aqueue s (owner d) ++ [(d, x)])) (aprop s) (aedges s) (upd (atodo s) t rest)
          (alog s ++ [Ended_send d])
  | ADec v x =>
      let k := (aact s v - 1)%nat in
      Ast (upd (aact s) v k) (aqueue s) (aprop s) (aedges s) (upd (atodo s) t (Handle v x k :: rest)) (alog s ++ [Handled v k])
  | Handle v x k =>
      let '(p, ms) := areact a v (KNote x) k (aprop s v) (aedges s v) in
      Ast (aact s) (aqueue s) (upd (aprop s) v p) (aedges s) (upd (atodo s) t (sends ms ++ rest)) (alog s)
  | Added v start =>
      let '(p, ms) := areact a v (KAdded start) (aact s v) (aprop s v) (aedges s v) in
      Ast (aact s) (aqueue s) (upd (aprop s) v p) (aedges s) (upd (atodo s) t (sends ms ++ rest)) (alog s)
  end.

Definition astep (s : ast) (t : nat) (c : achoice) : ast :=
  match atodo s t, c with
  | o :: rest, ARun => aexec s t o rest
  | [], APop =>
      match aqueue s t with
      | (v, x) :: q => Ast (aact s) (upd (aqueue s) t q) (aprop s) (aedges s) (upd (atodo s) t [ADec v x]) (alog s)
      | [] => s
      end
  | [], AAdd v es =>
      if (owner v =? t)%nat
      then Ast (aact s) (aqueue s) (aprop s) (upd (aedges s) v (aedges s v ++ es)) (upd (atodo s) t [Added v (length (aedges s v))]) (alog s)
      else s
  | [], ANote v x => Ast (aact s) (aqueue s) (aprop s) (aedges s) (upd (atodo s) t [Inc v x]) (alog s)
  | [], ATouch v u =>
      if (owner v =? t)%nat then Ast (aact s) (aqueue s) (upd (aprop s) v (touch a u (aprop s v))) (aedges s) (atodo s) (alog s) else s
  | _, _ => s
  end.
Definition arun (s : ast) (sched : list (nat * achoice)) : ast := fold_left (fun s '(t, c) => astep s t c) sched s.
Definition astart (p : nat -> p_t a) (es : nat -> list (nat * e_t a)) : ast :=
  Ast (fun _ => 0%nat) (fun _ => []) p es (fun _ => []) [].
End active.
Arguments Inc {a} _ _. Arguments APut {a} _ _. Arguments ADec {a} _ _. Arguments Handle {a} _ _ _. Arguments Added {a} _ _.
Arguments aact {a} _. Arguments aqueue {a} _. Arguments aprop {a} _. Arguments aedges {a} _.
Arguments atodo {a} _. Arguments alog {a} _. Arguments Ast {a} _ _ _ _ _ _.
Arguments ARun {a}. Arguments APop {a}. Arguments AAdd {a} _ _. Arguments ANote {a} _ _. Arguments ATouch {a} _ _.
