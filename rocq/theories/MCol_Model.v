(** Model of cmd/lp-colouring/colouring-msg.go (option -msg) on static graphs, for the engine of
    Active_Model.v.  Colours, MAGIC_VAL_MSG and EMPTY_VAL_MSG are uint32 in N; a Pos of
    EMPTY_VAL_MSG (the initial note) is [None], every other Pos is a nat; [panic(1)] (line 103) sets
    a flag.  OnEdgeAdd and OnEdgeDel panic (lines 143-149): the algorithm is for static graphs only. *)
From Verif Require Import Base Bitmap_Model Vertex_Model Active_Spec Active_Model.
From Verif Require Colour_Model.
Open Scope nat_scope.

(** Lines 17-18. *)
Definition MAGIC : N := (2 ^ 32 - 2)%N.
Definition EMPTY : N := (2 ^ 32 - 1)%N.
(** Lines 20-25. *)
Record mprop := MP { mcol : N; mscr : list N; mbm : bitmap; mwait : Z; mpanic : bool }.
(** Lines 34-38. *)
Record mnote := MN { npos : option nat; ncol : N; nprio : bool }.
(** An edge: destination, (Pos, Property.Priority). *)
Notation medge := (nat * (nat * bool))%type.

(** graph/stream.go:188-226 (each line of an undirected input is two events, one in each
    direction), graph/stream-enact-events.go:101-113 (Pos counts the events into the destination)
    and the order of the edges of a vertex (Remit_Props.v, C22, C23). *)
Definition events (lines : list (nat * nat)) : list (nat * nat) := flat_map (fun '(x, y) => [(x, y); (y, x)]) lines.
Record topo := Topo { t_in : nat -> nat; t_out : nat -> list (nat * nat) }.
Definition enact (g : topo) (e : nat * nat) : topo :=
  let '(s, d) := e in
  Topo (upd (t_in g) d (S (t_in g d))) (upd (t_out g) s (t_out g s ++ [(d, t_in g d)])).
Definition load (lines : list (nat * nat)) : topo := fold_left enact (events lines) (Topo (fun _ => 0) (fun _ => [])).

(** Lines 50-73 (BaseVertexMailbox), for the first [inEdgeAmount] out-edges; [vp0]: line 40-44. *)
Definition vp0 : mprop := MP 0%N [] (grow bm_empty 127) 0 false.
Definition base_edge (v : nat) (k i : nat) (e : nat * nat) : medge :=
  (fst e, (snd e, if (i <? k)%nat then Colour_Model.prio (fst e) v else false)).
Definition base_edges (v : nat) (g : topo) : list medge := imap (base_edge v (t_in g v)) (t_out g v).
Definition base (wt : bool) (v : nat) (g : topo) : mprop :=
  let first := take (t_in g v) (t_out g v) in
  let higher := map (fun e : nat * nat => Colour_Model.prio (fst e) v) first in
  MP EMPTY (map (fun b : bool => if b then MAGIC else EMPTY) higher) (mbm vp0)
     (if wt then Z.of_nat (length (List.filter (fun b => b) higher)) else 0) false.

(** Lines 124-131. *)
Definition mmark (n : N) (b : bitmap) (c : N) : bitmap :=
  if (c <=? n)%N then let '(b', ok) := quick_set b c in if ok then b' else set b' c else b.
Definition mmarks (p : mprop) : bitmap := fold_left (mmark (N.of_nat (length (mscr p)))) (mscr p) (zeroes (mbm p)).

(** Lines 89-114: the note is stored. *)
Definition mstore (wt : bool) (x : mnote) (p : mprop) : mprop :=
  match npos x with
  | None => p
  | Some i =>
      match mscr p !! i with
      | None => MP (mcol p) (mscr p) (mbm p) (mwait p) true
      | Some prev =>
          let col := if nprio x && (ncol x =? mcol p)%N then EMPTY else mcol p in
          let w := if nprio x && wt && (prev =? MAGIC)%N then (mwait p - 1)%Z else mwait p in
          MP col (<[i := ncol x]> (mscr p)) (mbm p) w (mpanic p)
      end
  end.
(** Lines 116-141. *)
Definition mupdate (wt : bool) (act : nat) (p : mprop) (es : list medge) : mprop * list (nat * mnote) :=
  if (0 <? act)%nat || (wt && (0 <? mwait p)%Z) then (p, [])
  else if (mcol p =? EMPTY)%N then
    let b := mmarks p in
    let c := first_unused b in
    (MP c (mscr p) b (mwait p) (mpanic p), map (fun '(d, (pos, pr)) => (d, MN (Some pos) c (negb pr))) es)
  else (p, []).
Definition mreact (wt : bool) (v : nat) (k : akind mnote) (act : nat) (p : mprop) (es : list medge) : mprop * list (nat * mnote) :=
  match k with
  | KNote x =>
      let q := mstore wt x p in
      if mpanic q then (q, []) else mupdate wt act q es
  | KAdded _ => (MP (mcol p) (mscr p) (mbm p) (mwait p) true, [])   (* line 144 *)
  end.
Definition mcolouring (wt : bool) : aalg :=
  {| p_t := mprop; n_t := mnote; e_t := (nat * bool)%type; u_t := unit; touch := fun _ p => p; areact := mreact wt |}.

(** Lines 76-79. *)
Definition init_note : mnote := MN None 0%N false.
Definition mstart (wt : bool) (lines : list (nat * nat)) : ast (mcolouring wt) :=
  astart (mcolouring wt) (fun v => base wt v (load lines)) (fun v => base_edges v (load lines)).
