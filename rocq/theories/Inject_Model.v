(** Model of graph/stream-enact-events.go: InjectDeletesRetainFinalStructure. *)
From Verif Require Import Base Helpers_Model Load_Spec Load_Model.
Open Scope N_scope.

Section model.
  Context {P : Type}.
  Notation tev := (tev P).
  Definition with_word (e : tev) (w : N) : tev := Tev w (tsrc e) (tdst e) (tprop e).
  (** 413-423, one round: what rand.Float64() < chance says (if asked) and what rand.Intn
      returns in RemoveRandomElement.  [None]: an index outside the range of rand.Intn. *)
  Definition inject_step (coin : bool) (k : nat) (idx : N) (avail prev : list tev) : option (tev * list tev * list tev) :=
    let renumber cur := with_word cur (N.lor (N.shiftl idx EVENT_TYPE_BITS mod w64) (N.land (word cur) EVENT_TYPE_MASK)) in
    if (0 <? length prev)%nat && coin then
      match remove_random prev k with
      | Some (cur, prev) => Some (renumber (with_word cur DEL), avail ++ [cur], prev)
      | None => None
      end
    else
      match remove_random avail k with
      | Some (cur, avail) => Some (renumber cur, avail, prev ++ [cur])
      | None => None
      end.
  (** 412-426, the loop; [cs] are the choices.  [None] also if the choices run out before the
      loop ends. *)
  Fixpoint inject_loop (cs : list (bool * nat)) (idx : N) (avail prev acc : list tev) : option (list tev) :=
    match avail with
    | [] => Some acc
    | _ :: _ =>
        match cs with
        | [] => None
        | (coin, k) :: cs =>
            match inject_step coin k idx avail prev with
            | None => None
            | Some (cur, avail, prev) => inject_loop cs (idx + 1) avail prev (acc ++ [cur])
            end
        end
    end.
  (** 405-428; [js] are the choices of Shuffle. *)
  Definition inject_deletes (sc : list tev) (js : nat -> nat) (cs : list (bool * nat)) : option (list tev) :=
    inject_loop cs 0 (shuffle js sc) [] [].
End model.
