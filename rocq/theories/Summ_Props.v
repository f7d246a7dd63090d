(** C95: the summaries printed during and after a run. *)
From Verif Require Import Base Summ_Spec Summ_Model Summ_Proofs.
Open Scope nat_scope.

(** SortGiveIndexes: each index once, in the order of the keys, equal keys in the order of the indexes; there is only one such list, so
    any sort that keeps sort.Stable's contract gives this one. *)
Theorem C95_order {T} (lt : T -> T -> bool) (key : nat -> T) n : weak lt -> ordered lt key n (give_indexes lt key n).
Proof. apply give_ordered. Qed.
Theorem C95_order_unique {T} (lt : T -> T -> bool) (key : nat -> T) n l : weak lt -> ordered lt key n l -> l = give_indexes lt key n.
Proof.
  intros W [P S]. destruct (give_ordered lt key n W) as [P' S']. eapply ordered_unique; eauto. by rewrite P, P'.
Qed.

(** The line with the threads' states: no index is out of range as long as every status is one of the nine (and the run stops otherwise);
    it names exactly the statuses some thread is in, each once, with the number of threads in it, the most frequent first. *)
Theorem C95_status statuses : (forall x, In x statuses -> x <= DONE) -> exists line, status_line statuses = Some line /\
  (forall st c, In (st, c) line <-> In st statuses /\ c = occurs st statuses) /\ List.NoDup (map fst line) /\
  StronglySorted (fun p q => snd q < snd p \/ (snd q = snd p /\ fst p < fst q)) line /\ list_sum (map snd line) = length statuses.
Proof.
  intros H. unfold status_line. destruct (bump_all_some (repeat 0 (DONE + 1)) statuses) as (counts & -> & Hl & Hn). { intros x Hx. apply H in Hx. rewrite repeat_length. lia. }
  rewrite repeat_length in Hl. assert (Hc : forall j, nth j counts 0 = occurs j statuses). { intros j. rewrite Hn, nth_repeat. lia. }
  eexists. split; [reflexivity|]. unfold largest_first. rewrite Hl. destruct (give_ordered (fun x y => y <? x) (fun i => nth i counts 0) (DONE + 1) weak_gt) as [P S].
  set (idx := give_indexes _ _ _) in *. clearbody idx.
  assert (HI : forall i, In i idx <-> i < DONE + 1). { intros i. split; intros Hi. { eapply Permutation_in in Hi; [|exact P]. apply in_seq in Hi. lia. } eapply Permutation_in; [symmetry; exact P|]. apply in_seq. lia. }
  split_and!.
  - intros st c. rewrite filter_In, in_map_iff. cbn [snd]. split.
    + intros [(i & [= <- <-] & Hi) Hpos]. apply Nat.ltb_lt in Hpos. rewrite Hc in *. split; [|done]. destruct (in_dec Nat.eq_dec i statuses) as [|Hno]; [done|]. apply occurs_zero in Hno. lia.
    + intros [Hin ->]. split. { exists st. rewrite Hc. split; [done|]. apply HI. apply H in Hin. lia. } apply Nat.ltb_lt. destruct (occurs st statuses) eqn:E; [|lia]. by apply occurs_zero in E.
  - assert (ND : List.NoDup idx). { eapply Permutation_NoDup; [symmetry; exact P|apply seq_NoDup]. } clear S P HI. induction ND as [|i idx Hi ND IH]; cbn [map List.filter]; [constructor|].
    destruct (0 <? snd (i, nth i counts 0)); [|done]. cbn [map fst]. constructor; [|done]. intros Hin. apply in_map_iff in Hin as ((i' & c) & Heq & Hin). cbn in Heq. subst i'. apply filter_In in Hin as [Hin _]. apply in_map_iff in Hin as (i'' & [= -> _] & Hin). done.
  - clear P HI. induction S as [|i idx S IH F]; cbn [map List.filter]; [constructor|]. destruct (0 <? snd (i, nth i counts 0)); [|done]. constructor; [done|].
    apply List.Forall_forall. intros [j c] Hin. apply filter_In in Hin as [Hin _]. apply in_map_iff in Hin as (j' & [= -> <-] & Hin). cbn [fst snd].
    eapply List.Forall_forall in F; [|exact Hin]. destruct F as [F|[F F']]; [left; by apply Nat.ltb_lt|]. apply Nat.ltb_ge in F. lia.
  - rewrite <- (sum_occurs statuses (DONE + 1)) by (intros x Hx; apply H in Hx; lia).
    transitivity (list_sum (map (fun i => occurs i statuses) idx)).
    + clear S P HI. induction idx as [|i idx IH]; cbn [map List.filter]; [done|]. rewrite <- (Hc i). unfold list_sum in *. cbn [snd]. destruct (Nat.ltb_spec 0 (nth i counts 0)); cbn [map fold_right snd]; rewrite IH; lia.
    + clear -P. induction P; unfold list_sum in *; cbn [map fold_right]; lia.
Qed.
Theorem C95_status_range statuses x : In x statuses -> DONE < x -> status_line statuses = None.
Proof. intros Hx Hd. unfold status_line. rewrite (bump_all_out _ _ x Hx); [done|]. rewrite repeat_length. lia. Qed.

(** The colour distribution: never out of range; entry [c] says how many vertices have colour [c], together all vertices; the maximum is right
    (0 without vertices). *)
Theorem C95_colours colours : exists all mx, colour_stat colours = Some (all, mx) /\ length all = mx + 1 /\
  (forall c, nth c all 0 = occurs c colours) /\ list_sum all = length colours /\ (forall c, In c colours -> c <= mx) /\ (mx = 0 \/ In mx colours).
Proof.
  destruct (colour_ok colours) as ([all mx] & E & H1 & H2 & H3 & H4). cbn [fst snd] in *. exists all, mx. split_and!; try done.
  rewrite <- (sum_occurs colours (mx + 1)) by (intros x Hx; apply H2 in Hx; lia). f_equal. rewrite <- H1. clear -H4.
  apply nth_ext with (d := 0) (d' := 0). { by rewrite map_length, seq_length. } intros n Hn. rewrite H4. rewrite nth_indep with (d' := occurs 0 colours) by (by rewrite map_length, seq_length).
  rewrite (map_nth (fun i => occurs i colours)), seq_nth by done. done.
Qed.
(** The printed Ratio is always 1 (unless a vertex has colour 2^32-1, the "no colour" of colouring-msg.go:17: then it is 0): "Number of colours"
    is the largest colour plus one, which is the number of colours in use just if no smaller colour is missing. *)
Theorem C95_ratio colours r : colour_stat colours = Some r -> (forall c, In c colours -> (N.of_nat c < 2 ^ 32 - 1)%N) -> fst (ratio r) = snd (ratio r).
Proof.
  intros Hr Hs. destruct (colour_ok colours) as ([all mx] & E & H1 & H2 & H3 & H4). rewrite E in Hr. injection Hr as <-. cbn [fst snd ratio] in *.
  rewrite N.mod_small; [lia|]. destruct H3 as [-> |H3]; [done|]. apply Hs in H3. lia.
Qed.
Theorem C95_number_iff colours r : colour_stat colours = Some r -> (length (fst r) = length (nodup Nat.eq_dec colours) <-> (forall c, c < length (fst r) -> In c colours)).
Proof.
  intros Hr. destruct (colour_ok colours) as ([all mx] & E & H1 & H2 & H3 & H4). rewrite E in Hr. injection Hr as <-. cbn [fst snd] in *.
  assert (ND : List.NoDup (nodup Nat.eq_dec colours)) by apply NoDup_nodup. split.
  - intros Hlen c Hc. assert (I : incl (seq 0 (length all)) (nodup Nat.eq_dec colours)).
    { apply NoDup_length_incl; [done|rewrite seq_length; lia|]. intros x Hx. apply nodup_In in Hx. apply in_seq. apply H2 in Hx. lia. }
    eapply nodup_In, I, in_seq. lia.
  - intros Hall. apply Nat.le_antisymm.
    + rewrite <- (seq_length (length all) 0). apply NoDup_incl_length; [apply seq_NoDup|]. intros x Hx. apply in_seq in Hx. apply nodup_In, Hall. lia.
    + rewrite <- (seq_length (length all) 0). apply NoDup_incl_length; [done|]. intros x Hx. apply nodup_In in Hx. apply in_seq. apply H2 in Hx. lia.
Qed.
Theorem C95_number_refuted : ~ forall colours r, colour_stat colours = Some r -> length (fst r) = length (nodup Nat.eq_dec colours).
Proof. intros H. specialize (H [2; 0; 2] ([1; 0; 2], 2) eq_refl). discriminate. Qed.

Example C95_case : largest_first [1; 4; 0; 4; 2] = [1; 3; 4; 0; 2] /\ smallest_first [1; 4; 0; 4; 2] = [2; 0; 4; 1; 3] /\
  status_line [4; 7; 4; 8; 6; 4; 8] = Some [(4, 3); (8, 2); (6, 1); (7, 1)] /\ status_line [4; 9] = None /\
  colour_stat [0; 3; 1; 0] = Some ([2; 1; 0; 1], 3) /\ colour_stat [] = Some ([0], 0).
Proof. vm_compute. split_and!; reflexivity. Qed.

Print Assumptions C95_order.
Print Assumptions C95_order_unique.
Print Assumptions C95_status.
Print Assumptions C95_status_range.
Print Assumptions C95_colours.
Print Assumptions C95_ratio.
Print Assumptions C95_number_iff.
Print Assumptions C95_number_refuted.
