(** Model of cmd/lp-colouring/colouring.go with UseWaitCount, for graphs that do not change
    (line 66), on the engine of Engine_Model.v.
    A mailbox is a list of cells: the first holds the wait count (Mail.Colour), cell [S p] the slot
    NbrScratch[p].  MailMerge accesses shared memory up to four times, in this order: it stores
    the slot, loads the count, subtracts one, and stores the largest value.  Each is its own
    message; what MailMerge remembers between them (its local view of the count) is kept in a
    register beside the slot, which no one else uses, as a slot has one sender. *)
From Verif Require Import Base Bitmap_Model Vertex_Model Engine_Model Colour_Model.
Open Scope N_scope.

Definition W32_MAX : N := w32 - 1.
(** The last load was positive; the last subtraction gave zero. *)
Inductive reg := RNone | RPos | RZero.
Definition cell : Type := N * reg.
Inductive wmsg := St (c : N) (p : nat) | Ld (p : nat) | De (p : nat) | Fi (p : nat).
Definition m_pos (m : wmsg) : nat := match m with St _ p | Ld p | De p | Fi p => p end.

(** Lines 90-139, from [s] to [d].  Self mail: lines 92-97.  Slots exist, as the graph is static
    (lines 78-79), so lines 105-115 do not apply. *)
Definition wait_merge (m : wmsg) (s d : nat) (b : list cell) : list cell * bool :=
  if (s =? d)%nat then (b, match b !! 0%nat with Some (w, _) => w =? 0 | None => false end)
  else match b !! 0%nat, b !! S (m_pos m) with
  | Some (w, r0), Some (c, r) =>
      match m with
      | St c' p => (<[S p := (if prio d s then c' else N.lor c' MSB, r)]> b, false)          (* lines 99-103, 116-121 *)
      | Ld p => (<[S p := (c, if 0 <? w then RPos else RNone)]> b, false)                     (* line 131 *)
      | De p =>                                                                                (* lines 132-133 *)
          match r with
          | RPos => let w' := (w + W32_MAX) mod w32 in
                    (<[0%nat := (w', r0)]> (<[S p := (c, if w' =? 0 then RZero else RNone)]> b), false)
          | _ => (b, false)
          end
      | Fi p => match r with RZero => (<[0%nat := (W32_MAX, r0)]> (<[S p := (c, RNone)]> b), true) | _ => (b, false) end  (* lines 134-135 *)
      end
  | _, _ => (b, false)
  end.
(** The accesses for one message.  Lines 124-126: nothing more when the target goes first. *)
Definition script (s d : nat) (c : N) (p : nat) : list wmsg :=
  if (s =? d)%nat || prio d s then [St c p] else [St c p; Ld p; De p; Fi p].

(** Lines 166-182. *)
Definition wait_react (v : nat) (p : vprop) (es : list (nat * nat)) (got : list cell) : vprop * list (nat * wmsg) :=
  let '(p', ms) := on_update (mail_retrieve (map fst (tail got)) p) es in
  (p', flat_map (fun '(d, (c, pos)) => map (pair d) (script v d c pos)) ms).

Definition waiting : alg := {|
  prop_t := vprop; cell_t := cell; msg_t := wmsg; edge_t := nat;
  merge m s d b := wait_merge m s d b; take c := (c, c);
  react v k p es got := (wait_react v p es got, []) |}.

(** Lines 61-83: the mailbox of [v] when it has [n] in-edges. *)
Definition wait_count (es : nat -> list (nat * nat)) (v : nat) : nat := length (List.filter (fun x => prio (fst x) v) (es v)).
Definition wait_box (es : nat -> list (nat * nat)) (n : nat) (v : nat) : list cell :=
  (N.of_nat (wait_count es v), RNone) :: replicate n (EMPTY_VAL, RNone).

(** Nothing but updates and initial mail. *)
Definition static_choice (c : choice waiting) : Prop := match c with AddEdges _ _ _ | DelEdges _ _ _ => False | _ => True end.
