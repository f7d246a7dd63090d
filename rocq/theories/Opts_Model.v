(** Model of graph/graph-options.go:47-176 (FlagsToOptions), of the sizes set by
    graph/graph.go:111-153 (Init) and of graph/graph.go:383-394 (PathlessName). *)
From Coq Require Import QArith Ascii String.
From Verif Require Import Base Helpers_RoundUp Opts_Spec.
Open Scope Z_scope.

(** Go's conversions of an int (64 bits). *)
Definition u64 (z : Z) : Z := z mod 2 ^ 64.
Definition u32 (z : Z) : Z := z mod 2 ^ 32.
Definition u8 (z : Z) : Z := z mod 2 ^ 8.
Definition i8 (z : Z) : Z := (z + 2 ^ 7) mod 2 ^ 8 - 2 ^ 7.
Definition i32 (z : Z) : Z := (z + 2 ^ 31) mod 2 ^ 32 - 2 ^ 31.
Definition i64 (z : Z) : Z := (z + 2 ^ 63) mod 2 ^ 64 - 2 ^ 63.

(** The fields of graph/graph-options.go:14-44 that depend on the flags of Opts_Spec. *)
Record options := Options {
  NumThreads : Z; LoadThreads : Z; QueueMultiplier : Z; TimestampPos : Z; WeightPos : Z;
  Dynamic : bool; Sync : bool; LogTimeseries : bool; TimeseriesEdgeCount : bool; TimeSeriesInterval : Z;
  InsertDeleteOnExpire : Z; AsyncContinuationTime : Z }.

(** graph/graph-options.go:99-175; [None] is a panic.  The constant (24 * 60 * 60) takes the
    type uint64 of the other factor. *)
Definition flags_to_options (f : flags) : option options :=
  let dynamic := f_d f || (if Qlt_le_dec 0 (f_dr f) then true else false) || (0 <? f_de f) || (0 <? f_dt f) in
  let useSync := f_s f || f_sprev f in
  if useSync && dynamic then None
  else
    let tsInterval := if 0 <? f_de f then u64 (f_de f) else u64 (24 * 60 * 60 * u64 (f_dt f)) in
    let deleteOnExpire := u64 (24 * 60 * 60 * u64 (f_w f)) in
    if f_t f <=? 0 then None
    else if f_tg f <=? 0 then None
    else Some (Options (u32 (f_t f)) (u8 (f_tg f)) (u8 (f_m f)) (i8 (f_pt f)) (i8 (f_pw f)) dynamic useSync
                 (0 <? tsInterval) (0 <? f_de f) tsInterval deleteOnExpire (i32 (f_refine f))).

(** graph/graph.go:23-33. *)
Definition THREAD_MAX : Z := 2 ^ 5.
Definition BASE_SIZE : Z := 4096 * 4.

(** utils/ring-buffer.go:204-205: the queue rounds its size up. *)
Definition round_up (i : Z) : Z := Z.of_N (round_up_pow (Z.to_N i)).

(** graph/graph.go:112-153: the number of threads, of loaders, and the capacity of a thread's
    notification queue.  notifQueueSize is an int, shifted by a uint8: a shift by 64 or more
    yields 0, and the product wraps. *)
Definition init_threads (o : options) : Z :=
  if NumThreads o =? 0 then 1 else if THREAD_MAX <? NumThreads o then THREAD_MAX else NumThreads o.
Definition init_loaders (o : options) : Z := if LoadThreads o =? 0 then 1 else LoadThreads o.
Definition queue_size (o : options) : Z :=
  let notifQueueSize := if 0 <? QueueMultiplier o then i64 (BASE_SIZE * i64 (2 ^ QueueMultiplier o)) else BASE_SIZE in
  round_up (u64 (u64 notifQueueSize * (THREAD_MAX / init_threads o))).

(** strings.Split with a separator of one character. *)
Fixpoint split (c : ascii) (s : list ascii) : list (list ascii) :=
  match s with
  | [] => [[]]
  | x :: s =>
      if Ascii.eqb x c then [] :: split c s
      else match split c s with
           | [] => [[x]]
           | w :: ws => (x :: w) :: ws
           end
  end.
(** graph/graph.go:383-394 [PathlessName]. *)
Definition pathless_name (name : list ascii) : list ascii :=
  let gNameMainT := split "/"%char name in
  let gNameMain := nth (length gNameMainT - 1) gNameMainT [] in
  let gNameMainTD := split "."%char gNameMain in
  if (1 <? length gNameMainTD)%nat then nth (length gNameMainTD - 2) gNameMainTD []
  else nth 0 gNameMainTD [].
(** graph/graph.go:360-366: the file of the vertex properties. *)
Definition props_file (dynamic : bool) (name : list ascii) : list ascii :=
  list_ascii_of_string "results/" ++ pathless_name name ++ list_ascii_of_string "-props-" ++
  list_ascii_of_string (if dynamic then "dynamic" else "static") ++ list_ascii_of_string ".txt".
