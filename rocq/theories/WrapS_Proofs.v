From Verif Require Import Base Ring_Spec SPSC_Model SPSC_Proofs WrapS_Model.
Open Scope N_scope.

Lemma word_small x : x < 2 ^ 64 -> word x = x.
Proof. apply N.mod_small. Qed.

Section same.
  Context {T : Type} (k : N) (Hk2 : k < 64).
  Notation mask := (N.ones k).
  Notation size := (2 ^ k).
  Implicit Types s : rb T.
  Lemma ones_lt : mask + 1 = size.
  Proof. rewrite N.ones_equiv. assert (0 < size) by (apply N.neq_0_lt_0, N.pow_nonzero; done). lia. Qed.

  Lemma same_p s q : inv k s q -> enqueue s + size <= 2 ^ 64 -> (match pp s with PStore _ => enqueue s + 1 < 2 ^ 64 | _ => True end) -> wpstep mask s = pstep mask s.
  Proof.
    intros H He Hst. pose proof ones_lt. pose proof (i_len _ _ _ H). pose proof (i_pc _ _ _ H). unfold wpstep, pstep. destruct (pp s) as [|slow v|v|v|v].
    - destruct (pprog s) as [|[v|v| |] r]; try done; rewrite ?(word_small (enqDeqCache s + mask)), ?(word_small (dequeue s + mask)) by lia; done.
    - rewrite word_small by lia. done.
    - rewrite word_small by lia. done.
    - done.
    - rewrite word_small by lia. done.
  Qed.
  Lemma same_c s q : inv k s q -> enqueue s < 2 ^ 64 -> wcstep mask s = cstep mask s.
  Proof.
    intros H He. pose proof (i_len _ _ _ H). unfold wcstep, cstep. destruct (cp s) as [|slow| | | |v] eqn:Ec; try done. rewrite word_small; [done|].
    pose proof (i_cp _ _ _ H) as Hq. rewrite Ec in Hq. destruct q; [done|]. cbn [length] in *. lia.
  Qed.
  Lemma enq_le s b : enqueue s <= enqueue (if b : bool then pstep mask s else cstep mask s).
  Proof.
    destruct b.
    - unfold pstep. destruct (pp s) as [|slow v|v|v|v]; [destruct (pprog s) as [|[] ?]| | | |]; cbn; try lia; destruct (_ <=? _); try destruct slow; cbn; lia.
    - unfold cstep. destruct (cp s) as [|slow| | | |v]; [destruct (cprog s) as [|[] ?]| | | | |]; cbn; try lia; try destruct (_ <? _); try destruct slow; try destruct (status s); cbn; lia.
  Qed.
  Lemma enq_run sched : forall s, enqueue s <= enqueue (run mask s sched).
  Proof. induction sched as [|b sched IH]; intros s; cbn [run]; [lia|]. pose proof (enq_le s b). pose proof (IH (if b then pstep mask s else cstep mask s)). lia. Qed.
  Lemma same_run sched : forall s q, 1 <= k -> inv k s q -> enqueue (run mask s sched) + size <= 2 ^ 64 -> wrun mask s sched = run mask s sched.
  Proof.
    induction sched as [|b sched IH]; intros s q Hk H He; [done|]. unfold wrun. cbn [fold_left]. cbn [run] in *.
    assert (Hs2 : 2 <= size) by (change 2 with (2 ^ 1) at 1; apply N.pow_le_mono_r; lia).
    pose proof (enq_le s b) as E1. pose proof (enq_run sched (if b then pstep mask s else cstep mask s)) as E2.
    assert (E : (if b then wpstep mask s else wcstep mask s) = (if b then pstep mask s else cstep mask s)).
    { destruct b; [eapply same_p; [done|lia|]|eapply same_c; [done|lia]]. destruct (pp s); try done. lia. }
    rewrite E. destruct b.
    - destruct (inv_pstep k Hk2 s q H) as [q' H']. eapply IH; done.
    - destruct (inv_cstep k Hk2 s q H) as [q' H']. eapply IH; done.
  Qed.
  Definition counted s : Prop := enqueue s = N.of_nat (length (puts (log s))).
  Lemma counted_step s b : counted s -> counted (if b : bool then pstep mask s else cstep mask s).
  Proof.
    unfold counted. intros H.
    assert (G : forall e l, (enqueue s = e /\ puts l = []) \/ (exists v, e = enqueue s + 1 /\ l = [EPut v]) -> e = N.of_nat (length (puts (log s ++ l)))).
    { intros e l [[<- E]|(v & -> & ->)]; rewrite puts_app, app_length; [rewrite E|]; cbn; lia. }
    destruct b.
    - unfold pstep. destruct (pp s) as [|slow v|v|v|v]; [destruct (pprog s) as [|[] ?]| | | |]; cbn -[puts]; try (apply G; by left); try done; try (apply G; right; by eexists); destruct (_ <=? _); try destruct slow; cbn -[puts]; apply G; by left.
    - unfold cstep. destruct (cp s) as [|slow| | | |v]; [destruct (cprog s) as [|[] ?]| | | | |]; cbn -[puts]; try (apply G; by left); try done; try destruct (_ <? _); try destruct slow; try destruct (status s); cbn -[puts]; apply G; by left.
  Qed.
  Lemma counted_run sched : forall s, counted s -> counted (run mask s sched).
  Proof. induction sched as [|b sched IH]; intros s H; cbn [run]; [done|]. apply IH. by apply counted_step. Qed.
End same.
