(** A shared cell with indivisible read-modify-write operations. *)
From Coq Require Import List.
Import ListNotations.

(** One completed call: thread, operation, returned value. *)
Section spec.
  Context {V Op : Type} (apply : Op -> V -> V).
  Definition call : Type := nat * Op * V.

  (** The calls, executed one after the other from value [v0], each return the
      value just before its effect, and leave [v]. *)
  Inductive sequential : V -> list call -> V -> Prop :=
  | seq_nil v : sequential v [] v
  | seq_snoc v0 cs v t o : sequential v0 cs v -> sequential v0 (cs ++ [(t, o, v)]) (apply o v).

  (** The calls of one thread, in order. *)
  Definition ops_of (t : nat) (cs : list call) : list Op :=
    map (fun c => snd (fst c)) (filter (fun c => Nat.eqb (fst (fst c)) t) cs).
End spec.
