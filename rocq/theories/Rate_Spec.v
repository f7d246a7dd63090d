(** What a target rate means. *)
From Coq Require Import NArith.
Open Scope N_scope.

(** Nanoseconds in a second. *)
Definition second : N := 10 ^ 9.
(** At most [n] = (rn/rd events per second) * (now ns) + slack. *)
Definition within (rn rd slack n now : N) : Prop := rd * second * n <= rn * now + slack * (rd * second).
