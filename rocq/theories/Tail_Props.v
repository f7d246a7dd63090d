(** C80: the printed time series. *)
From Verif Require Import Base Tail_Spec Tail_Model Tail_Proofs.

(** Two views are enough: whatever is in tsDB was made from the view of its own query, although the
    next query may already be copying, and the entries are those of the first queries, in order. *)
Theorem C80_views must n l : own_views (tsdb (trun must true n l)) /\
  exists rest, queries (tsdb (trun must true n l)) ++ rest = seq 0 (issued (trun must true n l)).
Proof. destruct (trun_inv must n l) as [H1 _ _ _ _ H6 _ _ _]. split; [done|]. eexists. exact H1. Qed.

(** With one view it would not be. *)
Theorem C80_one_view_refuted : ~ forall n l, own_views (tsdb (trun true false n l)).
Proof.
  intros H. specialize (H 2 [AIssue; ARecv; ACopy; ASend; ADone; AIssue; ARecv; ACopy; AFinish] 0 (Some 1) ltac:(by left)). done.
Qed.

(** The printed table has all entries, or all but the last; without OnFinish all of them. *)
Theorem C80_table must n l table : main (trun must true n l) = MPrinted table ->
  own_views table /\ exists rest, queries table ++ rest = seq 0 n /\ length rest <= (if must then 1 else 0).
Proof. intros E. exact (t_print _ _ _ (trun_inv must n l) table E). Qed.
Theorem C80_unfinished n l table : main (trun false true n l) = MPrinted table -> queries table = seq 0 n.
Proof.
  intros E. destruct (C80_table false n l table E) as (_ & rest & E1 & Hr). destruct rest; [by rewrite app_nil_r in E1|cbn in Hr; lia].
Qed.

(** With OnFinish the last entry may be missing: nothing waits for the finishing goroutine. *)
Theorem C80_last_refuted : ~ forall n l table, main (trun true true n l) = MPrinted table -> queries table = seq 0 n.
Proof.
  intros H. specialize (H 1 [AIssue; ARecv; ACopy; ASend; ADone; AClose; APrint; AFinish] [] eq_refl). done.
Qed.

(** It is there if the finishing goroutine has come back before: then the table is complete. *)
Theorem C80_waited must n l : main (trun must true n l) <> MRun -> fin (trun must true n l) = FIdle -> queries (tsdb (trun must true n l)) = seq 0 n.
Proof.
  intros Hm Hf. destruct (trun_inv must n l) as [H1 H2 _ _ _ _ H7 _ _]. destruct (H7 Hm) as [E1 E2]. unfold worked, held, busy in *. rewrite Hf in H1. rewrite E2 in H2.
  destruct (entries (trun must true n l)); [|cbn in H2; lia]. rewrite E1 in H1. destruct (log (trun must true n l)); cbn in H1, H2; try lia; by rewrite app_nil_r in H1.
Qed.

(** Two queries; the second is copied while the first is being finished. *)
Example C80_case : let s := trun true true 2 [AIssue; ARecv; ACopy; ASend; ADone; AIssue; ARecv; ACopy; AFinish; ASend; ADone; AClose; AExit; AFinish; APrint] in
  main s = MPrinted [(0, Some 0); (1, Some 1)] /\ log s = LExit.
Proof. done. Qed.

Print Assumptions C80_views.
Print Assumptions C80_one_view_refuted.
Print Assumptions C80_table.
Print Assumptions C80_unfinished.
Print Assumptions C80_last_refuted.
Print Assumptions C80_waited.
