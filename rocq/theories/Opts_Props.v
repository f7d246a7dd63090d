(** C84: what the command line flags do. *)
From Coq Require Import QArith Ascii String.
From Verif Require Import Base Opts_Spec Opts_Model Opts_Proofs.
Open Scope Z_scope.

(** Flags within their ranges give what was asked for: threads (at most 32), loaders, queues
    of at least the wished size and less than twice it, positions, modes, interval, window. *)
Theorem C84_asked : forall f, sensible f -> ~ (w_sync (asked f) = true /\ w_dynamic (asked f) = true) ->
  exists o, flags_to_options f = Some o /\ honours o (asked f).
Proof. exact honoured. Qed.
Print Assumptions C84_asked.

(** Exactly these flags are turned away, whatever their values. *)
Theorem C84_turned_away : forall f, flags_to_options f = None <->
  (w_sync (asked f) = true /\ w_dynamic (asked f) = true) \/ f_t f <= 0 \/ f_tg f <= 0.
Proof. exact panics. Qed.
Print Assumptions C84_turned_away.

(** Whatever the flags are: never both modes, 1 to 32 threads, 1 to 255 loaders. *)
Theorem C84_always : forall f o, flags_to_options f = Some o ->
  (Sync o && Dynamic o = false) /\ 1 <= init_threads o <= 32 /\ 1 <= init_loaders o <= 255 /\
  0 <= TimeSeriesInterval o < 2 ^ 64 /\ (LogTimeseries o = true <-> TimeSeriesInterval o <> 0) /\
  (TimeseriesEdgeCount o = true -> LogTimeseries o = true \/ 2 ^ 63 <= f_de f).
Proof. exact always. Qed.
Print Assumptions C84_always.

(** A negative -dt turns the time series on, without the dynamic mode it "sets", with an
    interval next to 2^64. *)
Theorem C84_series_refuted : forall f,
  f_d f = false -> (f_dr f <= 0)%Q -> f_de f <= 0 -> - 2 ^ 47 <= f_dt f < 0 -> 1 <= f_t f -> 1 <= f_tg f ->
  exists o, flags_to_options f = Some o /\ Dynamic o = false /\ LogTimeseries o = true /\
    TimeSeriesInterval o = 2 ^ 64 - 86400 * (- f_dt f).
Proof. exact series_static. Qed.
Print Assumptions C84_series_refuted.

(** A negative -w lets an edge expire before the time it was added. *)
Theorem C84_window_refuted : forall f o t, flags_to_options f = Some o -> - 2 ^ 47 <= f_w f < 0 ->
  86400 * (- f_w f) <= t < 2 ^ 64 -> u64 (t + InsertDeleteOnExpire o) = t - 86400 * (- f_w f).
Proof. exact window_back. Qed.
Print Assumptions C84_window_refuted.

(** 256, 512, … loaders are 1; 2^32 threads are 1; position 256 is "no timestamp"; position
    128 is a negative one. *)
Theorem C84_narrow_refuted : forall f o n, flags_to_options f = Some o ->
  (f_tg f = 256 * n -> init_loaders o = 1) /\ (f_t f = 2 ^ 32 * n -> init_threads o = 1) /\
  (f_pt f = 256 * n -> TimestampPos o = 0) /\ (f_pt f = 128 -> TimestampPos o = -128).
Proof. exact too_many. Qed.
Print Assumptions C84_narrow_refuted.

(** A negative -m, or one of 50 and more, gives queues without any place. *)
Theorem C84_queue_refuted : forall f o, flags_to_options f = Some o ->
  50 <= f_m f <= 255 \/ -206 <= f_m f < 0 -> queue_size o = 0.
Proof. exact queue_none. Qed.
Print Assumptions C84_queue_refuted.

(** The name of the graph in the names of the files written: the base name, if it has no dot. *)
Theorem C84_name : forall dir base, plain base ->
  pathless_name (in_dir dir base) = base /\
  forall ext, plain ext -> pathless_name (in_dir dir (base ++ "."%char :: ext)) = base.
Proof. intros dir base H. split; [by apply name_one|]. intros ext He. by apply name_two. Qed.
Print Assumptions C84_name.

(** With further dots, all that precedes the last but one is lost: the graphs a.b.e and c.b.e
    write their vertex properties into one file. *)
Theorem C84_name_refuted : forall dir pre base ext, ~ In "/"%char pre -> plain base -> plain ext ->
  pathless_name (in_dir dir (pre ++ "."%char :: base ++ "."%char :: ext)) = base /\
  forall dynamic dir' pre', ~ In "/"%char pre' ->
    props_file dynamic (in_dir dir (pre ++ "."%char :: base ++ "."%char :: ext)) =
    props_file dynamic (in_dir dir' (pre' ++ "."%char :: base ++ "."%char :: ext)).
Proof.
  intros dir pre base ext Hp Hb He. split; [by apply name_many|].
  intros dynamic dir' pre' Hp'. unfold props_file. by rewrite !name_many.
Qed.
Print Assumptions C84_name_refuted.

Definition usual : flags := Flags 8 20 2 1 0 0 30 365 100 0 false false false.
Example C84_usual : sensible usual /\
  option_map (fun o => (init_threads o, queue_size o, (Dynamic o, Sync o), TimeSeriesInterval o, InsertDeleteOnExpire o))
    (flags_to_options usual) = Some (20, 2 ^ 22, (true, false), 2592000, 31536000).
Proof. split; [unfold sensible; cbn; lia|vm_compute; reflexivity]. Qed.
Example C84_negative :
  option_map (fun o => ((Dynamic o, LogTimeseries o), TimeSeriesInterval o, InsertDeleteOnExpire o, queue_size o))
    (flags_to_options (Flags (-1) 3 257 0 0 0 (-1) (-1) 0 0 false true false)) =
  Some ((false, true), 2 ^ 64 - 86400, 2 ^ 64 - 86400, 0).
Proof. vm_compute. reflexivity. Qed.
Example C84_names :
  map (fun s => string_of_list_ascii (pathless_name (list_ascii_of_string s)))
    ["data/wiki.txt"; "wiki"; "../x.y/wiki.el"; "wiki.tar.gz"; "a.b.txt"; "c.b.txt"; ".hidden"]%string =
    ["wiki"; "wiki"; "wiki"; "tar"; "b"; "b"; ""]%string.
Proof. vm_compute. reflexivity. Qed.
