(** C69: triangle counting comes to rest, also while the stream is still running, with the exact count. *)
From Verif Require Import Base TC_Spec Active_Spec Active_Model Active_Proofs TC_Model TC_Count TC_Static TC_Proofs TC_Props Rest_Spec Rest_Gen Rest_TC.
Open Scope nat_scope.

Section rest.
Context (raw : nat -> N) (owner : nat -> nat) (E : list (nat * nat)) (M nt : nat).
Hypothesis Hown : forall v, owner v < nt.
Hypothesis Hraw : forall u v, u < M -> v < M -> raw u = raw v -> u = v.
Hypothesis Hsmall : forall v, v < M -> (raw v < 2147483647)%N.
Hypothesis Hends : forall a b, (a, b) ∈ E -> a < M /\ b < M.

Lemma rinv_run st s sched : (forall t c, (t, c) ∈ sched -> t < nt) -> rinv raw owner E M nt st s -> rinv raw owner E M nt st (trun raw owner E s sched).
Proof.
  revert s. induction sched as [|[t c] l IH]; intros s Ht [H1 H2]; [done|]. cbn. apply IH; [intros t' c' Hin; by apply (Ht t' c'), elem_of_list_further|].
  pose proof (Ht t c ltac:(apply elem_of_list_here)). split; [by apply tinv_step|by eapply seen_step].
Qed.
Lemma rinv_new : rinv raw owner E M nt false tnew.
Proof. split; [by apply tinv_new|]. intros i _ H. cbn in H. lia. Qed.
Lemma rinv_loaded : rinv raw owner E M nt true (tloaded raw owner E).
Proof.
  split; [by apply tinv_loaded|]. intros i Hi _. unfold tloaded. cbn [mark]. change (map _ (seq 0 _)) with (map (arrive owner E) (seq 0 (length (events E)))).
  by apply (f_mark _ _ _ _ _ _ _ (fresh_run raw owner E M nt Hown Hraw Hsmall Hends (length (events E)) (le_n _))).
Qed.

(** Whatever has happened before, without new edges a bounded number of rounds is enough. *)
Theorem C69_rest sched : (forall t c, (t, c) ∈ sched -> t < nt) ->
  settles (trun raw owner E) [TRun; TPop] nt (at_rest nt) (trun raw owner E tnew sched).
Proof.
  intros Ht. destruct (tc_settles raw owner E M nt false Hown Hraw Hsmall Hends [TRun; TPop] (trun raw owner E tnew sched)) as (bound & Hb).
  - intros c Hc v. rewrite !elem_of_cons, elem_of_nil in Hc. by destruct Hc as [->|[->|[]]].
  - by apply rinv_run, rinv_new.
  - exists bound. intros rounds H1 H2. destruct (Hb rounds H1 H2) as [_ Hq]. eapply stuck_rest; [| |exact Hq]; rewrite !elem_of_cons; auto.
Qed.
(** And with the rest of the stream arriving meanwhile (edges being received, and added in batches of sizes [ks], in any order and
    interleaving): it all arrives, and the count is exact.  [sched]: what has happened before. *)
Theorem C69_stream sched ks : (forall t c, (t, c) ∈ sched -> t < nt) -> (exists k, k ∈ ks /\ 0 < k) ->
  settles (trun raw owner E) (acts M ks) nt
    (fun s => at_rest nt s /\ (forall u, u < M -> added s u = length (outs E u)) /\ counted M s = triangles E M) (trun raw owner E tnew sched).
Proof.
  intros Ht Hk. destruct (tc_settles raw owner E M nt false Hown Hraw Hsmall Hends (acts M ks) (trun raw owner E tnew sched)) as (bound & Hb).
  - apply acts_note.
  - by apply rinv_run, rinv_new.
  - exists bound. intros rounds H1 H2. destruct (Hb rounds H1 H2) as [HI Hq].
    assert (Hr : at_rest nt (trun raw owner E (trun raw owner E tnew sched) (concat rounds))) by (eapply stuck_rest; [| |exact Hq]; [apply acts_run|apply acts_pop]).
    pose proof (stuck_added raw owner E M nt false Hown Hraw Hsmall Hends ks _ HI Hq Hk) as Ha. split; [done|]. split; [done|]. by apply (tinv_rest raw owner E M nt false Hown Hraw Hsmall Hends _ (proj1 HI)).
Qed.
(** A static graph. *)
Theorem C69_static sched : (forall t c, (t, c) ∈ sched -> t < nt) ->
  let s := trun raw owner E (tloaded raw owner E) sched in
  (forall u, u < M -> outs E u <> [] -> Began_send u ∈ alog (base s)) ->
  settles (trun raw owner E) [TRun; TPop] nt (fun s' => at_rest nt s' /\ counted M s' = triangles E M) s.
Proof.
  intros Ht s Hn. assert (Hs : rinv raw owner E M nt true s) by (apply rinv_run, rinv_loaded; done).
  destruct (tc_settles raw owner E M nt true Hown Hraw Hsmall Hends [TRun; TPop] s) as (bound & Hb); [|done|].
  - intros c Hc v. rewrite !elem_of_cons, elem_of_nil in Hc. by destruct Hc as [->|[->|[]]].
  - exists bound. intros rounds H1 H2. destruct (Hb rounds H1 H2) as [HI Hq]. set (s' := trun raw owner E s (concat rounds)) in *.
    assert (Hr : at_rest nt s') by (eapply stuck_rest; [| |exact Hq]; rewrite !elem_of_cons; auto).
    split; [done|]. apply (tinv_rest raw owner E M nt true Hown Hraw Hsmall Hends _ (proj1 HI)); [done| |].
    + intros u Hu. destruct (t_edges _ _ _ _ _ _ _ (proj1 HI) u) as [G1 _]. pose proof (added_run raw owner E (sched ++ concat rounds) (tloaded raw owner E) u) as G2.
      destruct (tinv_loaded raw owner E M nt Hown Hraw Hsmall Hends) as [_ Hadd]. rewrite Hadd in G2. unfold trun in G2. rewrite fold_left_app in G2. change (length (outs E u) <= added s' u) in G2. lia.
    + intros _ u Hu Ho. assert (G : forall l s0, Began_send u ∈ alog (base s0) -> Began_send u ∈ alog (base (trun raw owner E s0 l))); [|apply G; by apply Hn].
      clear. induction l as [|[t c] l IH]; intros s0 H; [done|]. cbn. apply IH.
      assert (Ha : forall c', Began_send u ∈ alog (astep tcount owner (base s0) t c')).
      { intros c'. unfold astep. destruct (atodo (base s0) t) as [|o r].
        - destruct c'; try done; repeat case_match; done.
        - destruct c'; try done. unfold aexec. destruct o; try (destruct (areact _ _ _ _ _ _)); cbn [alog]; try done; apply elem_of_app; by left. }
      destruct c as [| |v|v|v k]; cbn [tstep base]; try apply Ha; repeat case_match; try done; cbn [base]; apply Ha.
Qed.
End rest.

(** The square with both diagonals of C43: with two edges received and everything else to come. *)
Example C69_case :
  let raw v := N.of_nat (v + 7) in let owner v := v mod 2 in
  let r := [(0, TRun); (0, TPop); (1, TRun); (1, TPop); (0, TIn 0); (1, TIn 0); (0, TIn 1); (1, TIn 1); (0, TIn 2); (1, TIn 2); (0, TIn 3); (1, TIn 3);
            (0, TOut 0 2); (1, TOut 0 2); (0, TOut 1 2); (1, TOut 1 2); (0, TOut 2 2); (1, TOut 2 2); (0, TOut 3 2); (1, TOut 3 2)] in
  let s k := trun raw owner square (trun raw owner square tnew [(0, TIn 0); (1, TIn 1)]) (concat (repeat r k)) in
  round (acts 4 [2]) 2 r /\ counted 4 (s 10) = 0 /\ counted 4 (s 40) = 4 /\ triangles square 4 = 4.
Proof.
  split; [|vm_compute; done]. split.
  - intros t c H. apply (elem_of_list_fmap_1 snd) in H. cbn in H. rewrite elem_of_list_In in *. cbn in *. tauto.
  - intros t c Ht Hc. unfold acts in Hc. cbn in Hc. assert (t = 0 \/ t = 1) as [->| ->] by lia; apply elem_of_list_In in Hc; apply elem_of_list_In; cbn in *;
    repeat (destruct Hc as [<-|Hc]; [tauto|]); destruct Hc.
Qed.
Print Assumptions C69_rest.
Print Assumptions C69_stream.
Print Assumptions C69_static.
