(** What the event stream of a file of edges is, said without threads or queues. *)
From Coq Require Import NArith List.
From Verif Require Import IO_Spec.
Import ListNotations.
Open Scope N_scope.

Record opts := Opts { undirected : bool; logical : bool; transpose : bool }.

Section spec.
  (** Edge property: [prop_of] parses the words after the two ids. *)
  Context {P : Type} (prop_of : list (list N) -> P) (set_ts set_raw : N -> P -> P).

  Record sev := Sev { kind : N; idx : N; src : N; dst : N; prop : P }.

  Definition ADD : N := 0.
  Definition DEL : N := 1.

  (** A line starting with '#' is a comment. *)
  Definition comment (line : list N) : Prop := exists r, line = 35 :: r.

  (** [events_of o nf k ws]: the events the [k]-th edge line, made of the words [ws] of which
      the first [nf] matter, stands for: itself, numbered [k] or [2k], and in an undirected graph the reverse edge,
      numbered [2k+1].  A logical timestamp is the number of the event. *)
  Definition ids (o : opts) (ws : list (list N)) : N * N :=
    let a := decimal (nth 0 ws []) mod 2 ^ 32 in
    let b := decimal (nth 1 ws []) mod 2 ^ 32 in
    if transpose o then (b, a) else (a, b).
  Definition stamp (o : opts) (n : N) (p : P) : P := if logical o then set_ts n p else p.
  Definition events_of (o : opts) (nf : nat) (k : N) (ws : list (list N)) : list sev :=
    let '(a, b) := ids o ws in
    let n := if undirected o then 2 * k else k in
    let p := set_raw b (stamp o n (prop_of (skipn 2 (firstn nf ws)))) in
    Sev ADD n a b p ::
      if undirected o then [Sev ADD (n + 1) b a (stamp o (n + 1) (set_raw a p))] else [].

  Fixpoint stream_from (o : opts) (nf : nat) (k : N) (wss : list (list (list N))) : list sev :=
    match wss with
    | [] => []
    | ws :: wss => events_of o nf k ws ++ stream_from o nf (k + 1) wss
    end.
  Definition stream (o : opts) (nf : nat) (wss : list (list (list N))) : list sev := stream_from o nf 0 wss.

  (** [reads nf lines wss]: the edge lines of [lines], in order, split into words; every line
      is non-empty, and every edge line begins with two numbers and has at least the [nf] words
      that matter and at most five. *)
  Inductive reads (nf : nat) : list (list N) -> list (list (list N)) -> Prop :=
  | rd_nil : reads nf [] []
  | rd_comment l ls wss : comment l -> reads nf ls wss -> reads nf (l :: ls) wss
  | rd_edge l ls ws wss : l <> [] -> ~ comment l -> Forall (fun b => b < 256) l -> splits l ws ->
      (2 <= nf)%nat -> (nf <= length ws)%nat -> (length ws <= 5)%nat ->
      Forall digit (nth 0 ws []) -> Forall digit (nth 1 ws []) ->
      reads nf ls wss -> reads nf (l :: ls) (ws :: wss).
End spec.
Arguments sev : clear implicits.
