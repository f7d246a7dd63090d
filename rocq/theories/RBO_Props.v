(** C15: rank-biased overlap. *)
From Verif Require Import Base RBO_Spec RBO_Model QcUtil RBO_Proofs.
From Coq Require Import QArith Qcanon.
Open Scope Qc_scope.

(** C15.  On duplicate-free non-empty rankings CalculateRBO returns the extrapolated
    RBO formula, whose only data are the sizes of prefix intersections. *)
Theorem C15_rbo_is_the_formula : forall (s t : list Z) (p : Qc),
  NoDup s -> NoDup t -> p <> 0 -> s <> [] -> t <> [] ->
  calculate_rbo s t p = Some (rbo_ext s t p).
Proof. exact calculate_ok. Qed.
Print Assumptions C15_rbo_is_the_formula.

(** C15.  Symmetric in the two rankings, in [0,1], and 1 on identical rankings. *)
Theorem C15_rbo_laws : forall (s t : list Z) (p : Qc),
  NoDup s -> NoDup t -> s <> [] -> t <> [] -> 0 < p -> p < 1 ->
  calculate_rbo s t p = calculate_rbo t s p /\
  (exists r, calculate_rbo s t p = Some r /\ 0 <= r /\ r <= 1) /\
  calculate_rbo s s p = Some 1.
Proof.
  intros s t p Hs Ht Es Et Hp0 Hp1.
  assert (p <> 0) as Hp by (intros ->; by apply Qclt_not_eq in Hp0).
  rewrite !calculate_ok by done. rewrite rbo_ext_self by done.
  split; [|split; [|done]].
  - by rewrite rbo_ext_sym.
  - eexists; split; [done|]. apply rbo_ext_bounds; try done; by apply Qclt_le_weak.
Qed.
Print Assumptions C15_rbo_laws.

(** C15 (finding).  If either ranking is empty the result is 0/0, NaN. *)
Theorem C15_empty_ranking_nan : forall (s t : list Z) (p : Qc),
  s = [] \/ t = [] -> calculate_rbo s t p = None.
Proof. exact calculate_empty. Qed.
Print Assumptions C15_empty_ranking_nan.

Definition half : Qc := Q2Qc (1 # 2).
(** Two rankings of lengths 2 and 3; prefix intersections 0, 1, 2 at depths 1, 2, 3. *)
Example C15_case : map (common [1; 2]%Z [2; 3; 1]%Z) [1; 2; 3]%nat = [0; 1; 2]%nat /\
  calculate_rbo [1; 2]%Z [2; 3; 1]%Z half = Some (Q2Qc (1 # 3)).
Proof. split; vm_compute; [reflexivity|]. f_equal. apply Qc_is_canon. reflexivity. Qed.
(** With a repeated entry the counted overlap is not an intersection size any more:
    the formula's hypothesis is needed. *)
Example C15_duplicates :
  calculate_rbo [1; 1]%Z [1; 2]%Z half <> Some (rbo_ext [1; 1]%Z [1; 2]%Z half).
Proof. vm_compute. intros H. discriminate H. Qed.
