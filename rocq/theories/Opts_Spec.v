(** What the command line flags mean, said with numbers of unlimited size. *)
From Coq Require Import ZArith QArith List Bool Ascii.
Import ListNotations.
Open Scope Z_scope.

(** The flags with a number or a choice the rest depends on (the others are passed on as
    they are): -m -t -tg -pt -pw -de -dt -w -refine -dr -d -s -sprev. *)
Record flags := Flags {
  f_m : Z; f_t : Z; f_tg : Z; f_pt : Z; f_pw : Z; f_de : Z; f_dt : Z; f_w : Z; f_refine : Z; f_dr : Q;
  f_d : bool; f_s : bool; f_sprev : bool }.

(** What a user asks for with them. *)
Record wish := Wish {
  w_threads : Z; w_loaders : Z; w_factor : Z; w_ts_pos : Z; w_weight_pos : Z;
  w_dynamic : bool; w_sync : bool; w_series : option Z; w_window : Z; w_refine : Z }.
Definition day : Z := 24 * 60 * 60.
Definition asked (f : flags) : wish :=
  Wish (f_t f) (f_tg f) (2 ^ f_m f) (f_pt f) (f_pw f)
    (f_d f || (if Qlt_le_dec 0 (f_dr f) then true else false) || (0 <? f_de f) || (0 <? f_dt f)) (f_s f || f_sprev f)
    (if 0 <? f_de f then Some (f_de f) else if 0 <? f_dt f then Some (day * f_dt f) else None)
    (day * f_w f) (f_refine f).

(** A file name: a path, a base name and an extension. *)
Definition plain (s : list ascii) : Prop := ~ In "/"%char s /\ ~ In "."%char s.
