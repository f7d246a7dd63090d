(** C01 and C02: the bitmap. *)
From Verif Require Import Base Bitmap_Spec Bitmap_Model Bitmap_Proofs.
Open Scope N_scope.

(** C01.  Every history of API calls on a fresh bitmap is a history of the
    abstract set: in particular every [FirstUnused] returns the least number
    absent from the set at that point, and a refused [QuickSet] changed nothing. *)
Theorem C01_bitmap_is_a_set : forall (os : list bm_op) (b : bitmap) (rs : list bm_res),
  Forall op_ok os -> bm_run bm_empty os = (b, rs) ->
  exists S, bm_steps empty_set os rs S.
Proof. intros os b rs H1 H2. exact (bm_run_from_empty os b rs H1 H2). Qed.
Print Assumptions C01_bitmap_is_a_set.

(** A refused [QuickSet] leaves the very same bitmap. *)
Theorem C01_refused_quick_set_is_noop : forall b x b',
  quick_set b x = (b', false) -> b' = b.
Proof.
  intros b x b'. unfold quick_set. destruct (len b <=? word_idx x)%nat; congruence.
Qed.
Print Assumptions C01_refused_quick_set_is_noop.

Example C01_case :
  snd (bm_run bm_empty [OpFirstUnused; OpQuickSet 0; OpSet 0; OpQuickSet 1; OpSet 3;
                        OpFirstUnused; OpSet 64; OpSet 2; OpFirstUnused; OpGrow 4095;
                        OpFirstUnused; OpZeroes; OpFirstUnused])
  = [RNum 0; RBool false; RUnit; RBool true; RUnit; RNum 2; RUnit; RUnit; RNum 4; RUnit;
     RNum 4; RUnit; RNum 0].
Proof. vm_compute. reflexivity. Qed.

(** The abstract specification is not trivially satisfiable: it pins the answer. *)
Theorem C01_answer_unique : forall S m m', least_unused S m -> least_unused S m' -> m = m'.
Proof.
  intros S m m' [H1 H2] [H3 H4].
  destruct (N.lt_trichotomy m m') as [H|[H|H]]; [|done|].
  - exfalso. apply H1. by apply H4.
  - exfalso. apply H3. by apply H2.
Qed.
Print Assumptions C01_answer_unique.

(** C02, the full statement: after [Grow x] a [QuickSet x] succeeds.  It is false. *)
Theorem C02_grow_reserves_refuted : exists os x,
  Forall op_ok os /\ x < 2 ^ 32 /\
  snd (quick_set (grow (fst (bm_run bm_empty os)) x) x) = false.
Proof.
  exists [OpSet 0], 64. split; [|split; [done|vm_compute; reflexivity]].
  apply Forall_singleton. done.
Qed.
Print Assumptions C02_grow_reserves_refuted.

(** C02, exact characterisation: it fails exactly when the bitmap is non-nil and
    its length in words equals x / 64 (the comparison in [Grow] is strict). *)
Theorem C02_grow_reserves_exactly : forall b x,
  snd (quick_set (grow b x) x) = true <->
  ~ (isnil b = false /\ len b = N.to_nat (x / 64)).
Proof. exact grow_then_quick. Qed.
Print Assumptions C02_grow_reserves_exactly.

(** C02, the half that holds: [Grow] never changes the set (histories with [Grow]
    calls are covered by [C01_bitmap_is_a_set], whose [OpGrow] step keeps [S]), and
    [Set x] does reserve room for every y <= x. *)
Theorem C02_set_reserves : forall b x y, y <= x -> snd (quick_set (set b x) y) = true.
Proof. exact set_then_quick. Qed.
Print Assumptions C02_set_reserves.

Example C02_case_ok : snd (quick_set (grow bm_empty 64) 64) = true.
Proof. vm_compute. reflexivity. Qed.
Example C02_case_ok2 : snd (quick_set (grow (set bm_empty 0) 128) 128) = true.
Proof. vm_compute. reflexivity. Qed.
