(** What a graph made for a comparison should be: the same graph, with nothing computed yet. *)
From Coq Require Import List.
Import ListNotations.

Section spec.
  Context {Ed Q M X Mp : Type}.
  (** What one can see of a graph: for every thread the number of its vertices and its map of raw ids; for every thread and
      offset the edges, the supplemental structure, the property and the mailbox (inbox and activity). *)
  Record seen := Seen {
    s_count : nat -> option nat;
    s_map : nat -> option Mp;
    s_edges : nat -> nat -> option (list Ed);
    s_str : nat -> nat -> option X;
    s_prop : nat -> nat -> option Q;
    s_box : nat -> nat -> option (M * nat) }.

  (** The same vertices with the same edges. *)
  Definition same_graph (a b : seen) : Prop :=
    (forall t, s_count a t = s_count b t) /\ (forall t, s_map a t = s_map b t) /\
    (forall t n i, s_count a t = Some n -> i < n -> s_edges a t i = s_edges b t i /\ s_str a t i = s_str b t i).
  (** Nothing computed yet: properties as new, up to what the algorithm asks to be taken over; mailboxes as new, inactive. *)
  Definition fresh_start (new : Q) (mnew : M) (take_over : Q -> Q -> Q) (g o : seen) : Prop :=
    forall t n i, s_count g t = Some n -> i < n ->
      (exists q, s_prop g t i = Some q /\ s_prop o t i = Some (take_over new q)) /\ s_box o t i = Some (mnew, 0).
  (** Nobody can tell the difference. *)
  Definition same_seen (a b : seen) : Prop :=
    (forall t, s_count a t = s_count b t) /\ (forall t, s_map a t = s_map b t) /\
    (forall t i, s_edges a t i = s_edges b t i /\ s_str a t i = s_str b t i /\ s_prop a t i = s_prop b t i /\ s_box a t i = s_box b t i).
End spec.
Arguments seen : clear implicits.
