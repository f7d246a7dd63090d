(** Proofs about the way of results into the table. *)
From Verif Require Import Base Tail_Spec Tail_Model.

Definition held (s : tail) : list nat := match log s with LGot k | LCopied k => [k] | _ => [] end.
Definition worked (s : tail) : list nat := match fin s with FWork k _ => [k] | FIdle => [] end.
Definition busy (s : tail) : nat := match log s with LIdle | LExit => 0 | _ => 1 end.

Record tinv (must : bool) (n : nat) (s : tail) : Prop := {
  t_all : queries (tsdb s) ++ worked s ++ held s ++ entries s = seq 0 (issued s);
  t_wait : waiting s = length (entries s) + busy s;
  t_le : issued s <= n;
  t_view : forall k b, fin s = FWork k b -> look s b = Some k /\ cur s = negb b;
  t_copy : forall k, log s = LCopied k -> look s (cur s) = Some k;
  t_own : own_views (tsdb s);
  t_main : main s <> MRun -> issued s = n /\ waiting s = 0;
  t_print : forall db, main s = MPrinted db -> own_views db /\
    exists rest, queries db ++ rest = seq 0 n /\ length rest <= (if must then 1 else 0);
  t_must : must = false -> fin s = FIdle /\ forall k, log s <> LCopied k
}.

Lemma tstep_inv must n s a : tinv must n s -> tinv must n (tstep must true n s a).
Proof.
  intros [H1 H2 H3 H4 H5 H6 H7 H8 H9]. destruct s as [is en wa lo cu v0 v1 fi db ma]; unfold look, held, worked, busy in *; cbn [issued entries waiting log cur view0 view1 fin tsdb main] in *.
  destruct a; cbn [tstep issued entries waiting log cur view0 view1 fin tsdb main].
  - destruct (Nat.ltb_spec is n); cbn [andb]; [|constructor; done]. destruct (Nat.eqb_spec wa 0); [|constructor; done]. subst wa.
    constructor; unfold look, held, worked, busy; cbn [issued entries waiting log cur view0 view1 fin tsdb main]; try done.
    + rewrite seq_S, <- H1, !app_assoc. done.
    + rewrite app_length. cbn. lia.
    + intros Hm. destruct (H7 Hm). lia.
  - destruct ma; try (constructor; done). destruct (Nat.eqb_spec is n); cbn [andb]; [|constructor; done]. destruct (Nat.eqb_spec wa 0); [|constructor; done].
    constructor; unfold look, held, worked, busy; cbn [issued entries waiting log cur view0 view1 fin tsdb main]; try done.
  - destruct lo; try (constructor; done). destruct en as [|k r]; [constructor; done|].
    constructor; unfold look, held, worked, busy; cbn [issued entries waiting log cur view0 view1 fin tsdb main]; try done.
    + cbn in H2. lia.
    + intros E. destruct (H9 E) as [? _]. done.
  - destruct lo as [|k|k|k|]; try (constructor; done). destruct must eqn:Em.
    + destruct cu; constructor; unfold look, held, worked, busy; cbn [issued entries waiting log cur view0 view1 fin tsdb main]; try done.
      * intros k' b E. destruct (H4 k' b E) as [E1 E2]. by destruct b.
      * by intros k' [= ->].
      * intros k' b E. destruct (H4 k' b E) as [E1 E2]. by destruct b.
      * by intros k' [= ->].
    + destruct (H9 eq_refl) as [-> _].
      constructor; unfold look, held, worked, busy; cbn [issued entries waiting log cur view0 view1 fin tsdb main]; try done.
      * rewrite <- H1. unfold queries. rewrite map_app. cbn. by rewrite <- app_assoc.
      * intros q v Hin. apply in_app_or in Hin as [Hin|[Hin|[]]]; [by apply H6|]. by injection Hin as -> <-.
  - destruct lo as [|k|k|k|]; try (constructor; done). destruct fi as [|]; [|constructor; done].
    assert (Hmust : must = true) by (destruct must; [done|]; destruct (H9 eq_refl) as [_ Hx]; by destruct (Hx k)).
    constructor; unfold look, held, worked, busy; cbn [issued entries waiting log cur view0 view1 fin tsdb main]; try done.
    + intros k' b [= <- <-]. split; [by apply H5|done].
    + congruence.
  - destruct lo as [|k|k|k|]; try (constructor; done).
    constructor; unfold look, held, worked, busy; cbn [issued entries waiting log cur view0 view1 fin tsdb main]; try done.
    + lia.
    + intros Hm. destruct (H7 Hm). split; [done|lia].
    + intros E. destruct (H9 E) as [? _]. done.
  - destruct lo as [|k|k|k|]; try (constructor; done). destruct en; [|constructor; done]. destruct ma; try (constructor; done).
    + constructor; unfold look, held, worked, busy; cbn [issued entries waiting log cur view0 view1 fin tsdb main]; try done. intros E. destruct (H9 E). done.
    + constructor; unfold look, held, worked, busy; cbn [issued entries waiting log cur view0 view1 fin tsdb main]; try done. intros E. destruct (H9 E). done.
  - destruct fi as [|k b]; [constructor; done|].
    constructor; unfold look, held, worked, busy; cbn [issued entries waiting log cur view0 view1 fin tsdb main]; try done.
    + rewrite <- H1. unfold queries. rewrite map_app. cbn. by rewrite <- app_assoc.
    + intros q v Hin. apply in_app_or in Hin as [Hin|[Hin|[]]]; [by apply H6|]. injection Hin as -> <-. by apply (H4 q b).
    + intros E. destruct (H9 E). done.
  - destruct ma; try (constructor; done).
    constructor; unfold look, held, worked, busy; cbn [issued entries waiting log cur view0 view1 fin tsdb main]; try done.
    + intros _. by apply H7.
    + intros db' [= <-]. split; [done|]. destruct (H7 ltac:(done)) as [-> Hw]. rewrite H2 in Hw.
      assert (Hen : en = []) by (destruct en; [done|cbn in Hw; lia]). subst en.
      exists (match fi with FWork k _ => [k] | FIdle => [] end). split.
      * rewrite <- H1. f_equal. destruct lo; cbn in Hw |- *; try lia; by rewrite app_nil_r.
      * destruct fi; [cbn; lia|]. destruct must; [cbn; lia|]. by destruct (H9 eq_refl).
Qed.
Lemma trun_inv must n l : tinv must n (trun must true n l).
Proof.
  unfold trun. assert (G : forall s, tinv must n s -> tinv must n (fold_left (tstep must true n) l s)).
  { induction l as [|a l IH]; intros s H; cbn [fold_left]; [done|]. apply IH, tstep_inv, H. }
  apply G. constructor; unfold start_tail, look, held, worked, busy; cbn [issued entries waiting log cur view0 view1 fin tsdb main]; try done; [lia|]. intros q v [].  
Qed.
