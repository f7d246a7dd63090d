(** C03: RoundUpPow. *)
From Verif Require Import Base Helpers_RoundUp Helpers_RoundUp_Proofs.
Open Scope N_scope.

Theorem C03_round_up_pow_least_power : forall i, 1 <= i -> i <= 2 ^ 63 ->
  exists k, round_up_pow i = 2 ^ k /\ k <= 63 /\ i <= 2 ^ k /\
            forall j, i <= 2 ^ j -> 2 ^ k <= 2 ^ j.
Proof. exact round_up_pow_in_range. Qed.
Print Assumptions C03_round_up_pow_least_power.

Theorem C03_round_up_pow_otherwise_zero : forall i, i < 2 ^ 64 ->
  i = 0 \/ 2 ^ 63 < i -> round_up_pow i = 0.
Proof. exact round_up_pow_out_of_range. Qed.
Print Assumptions C03_round_up_pow_otherwise_zero.

Example C03_cases : map round_up_pow [1; 2; 3; 5; 1000; 2 ^ 63; 2 ^ 63 + 1; 0]
  = [1; 2; 4; 8; 1024; 2 ^ 63; 0; 0].
Proof. vm_compute. reflexivity. Qed.
