(** What a synchronous round is: every vertex is visited once, and a vertex that was active when
    the round began is found active. *)
From Verif Require Import Base Engine_Spec.

(** [Round snap]: a round begins, with activities [snap]; [Visit v b]: vertex [v] is looked at, and
    updated when [b]. *)
Inductive sevent := Round (snap : nat -> nat) | Visit (v : nat) (b : bool).
Definition visits (v : nat) (l : list sevent) : list bool :=
  omap (fun e => match e with Visit w b => if (w =? v)%nat then Some b else None | Round _ => None end) l.
Definition no_round (l : list sevent) : Prop := forall snap, Round snap ∉ l.

(** A complete round of the vertices [vs] with the events [l]. *)
Definition round_ok (vs : list nat) (snap : nat -> nat) (l : list sevent) : Prop :=
  forall v, v ∈ vs -> exists b, visits v l = [b] /\ ((0 < snap v)%nat -> b = true).

(** Every piece of news about one of the vertices [vs] was followed by an update. *)
Definition answered_for (vs : list nat) (l : list event) : Prop := forall l1 v l2, v ∈ vs -> l = l1 ++ Told v :: l2 -> Began v ∈ l2.

(** The strict variant: [PRound acts boxes] marks the beginning of a round, [Update v got] an update
    of [v] with the mail [got].  In a round, exactly the vertices that were active at its beginning
    are updated, once, with the mail that was there at its beginning. *)
Inductive pevent (C : Type) := PRound (acts : nat -> nat) (boxes : nat -> list C) | Update (v : nat) (got : list C).
Arguments PRound {C} _ _. Arguments Update {C} _ _.
Definition updates {C} (v : nat) (l : list (pevent C)) : list (list C) :=
  omap (fun e => match e with Update w got => if (w =? v)%nat then Some got else None | PRound _ _ => None end) l.
Definition no_pround {C} (l : list (pevent C)) : Prop := forall acts boxes, PRound acts boxes ∉ l.
Definition pround_ok {C} (read : list C -> list C) (vs : list nat) (acts : nat -> nat) (boxes : nat -> list C) (l : list (pevent C)) : Prop :=
  forall v, v ∈ vs -> updates v l = if (acts v =? 0)%nat then [] else [read (boxes v)].
