From Verif Require Import Base Ring_Spec SPSC_Model.
Open Scope N_scope.

(** Calls completed so far, by side. *)
Definition calls_done {T} (side : qev T -> bool) (s : rb T) : nat := length (List.filter side (log s)).

Section fifo.
  Context {T : Type}.
  Implicit Types (q : list T) (log : list (qev T)).
  Lemma fifo_app cap q l1 q1 l2 q2 : fifo cap q l1 q1 -> fifo cap q1 l2 q2 -> fifo cap q (l1 ++ l2) q2.
  Proof. induction 1; simpl; [done|]. intros. econstructor; eauto. Qed.
  Lemma fifo_snoc cap q l q1 e q2 : fifo cap q l q1 -> fifo_step cap q1 e q2 -> fifo cap q (l ++ [e]) q2.
  Proof. intros H1 H2. eapply fifo_app; [done|]. econstructor; [done|constructor]. Qed.
  Lemma fifo_split cap q l1 l2 q2 : fifo cap q (l1 ++ l2) q2 ->
    exists q1, fifo cap q l1 q1 /\ fifo cap q1 l2 q2.
  Proof.
    revert q. induction l1 as [|e l1 IH]; intros q H; simpl in H; [exists q; split; [constructor|done]|].
    inversion H as [|? ? q1 ? ? He Hr]; subst. destruct (IH _ Hr) as (q' & H1 & H2).
    exists q'. split; [|done]. by econstructor.
  Qed.
  Lemma fifo_len cap q l q' : fifo cap q l q' -> N.of_nat (length q) <= cap -> N.of_nat (length q') <= cap.
  Proof.
    induction 1 as [|q e q1 es q2 He Hf IH]; intros H; [done|]. apply IH.
    inversion He; subst; try done; rewrite ?app_length in *; simpl in *; lia.
  Qed.
  Lemma fifo_puts_gots cap q l q' : fifo cap q l q' -> q ++ puts l = gots l ++ q'.
  Proof.
    induction 1 as [|q e q1 es q2 He Hf IH]; simpl; [by rewrite app_nil_r|].
    inversion He; subst; simpl in *; try exact IH.
    - by rewrite <- app_assoc in IH.
    - by rewrite IH.
  Qed.
End fifo.

Section proofs.
  Context {T : Type} (k : N) (Hk : k < 64).
  Notation mask := (N.ones k).
  Notation size := (2 ^ k).
  Implicit Types s : rb T.

  Lemma size_pos : 0 < size.
  Proof. apply N.neq_0_lt_0, N.pow_nonzero. lia. Qed.
  Lemma size_lt : size < w64.
  Proof. unfold w64. apply N.pow_lt_mono_r; lia. Qed.
  Lemma mask_succ : mask + 1 = size.
  Proof. rewrite N.ones_equiv. pose proof size_pos. lia. Qed.
  Lemma land_mod p : N.land p mask = p mod size.
  Proof. apply N.land_ones. Qed.
  (** Two positions less than [size] apart are in different slots. *)
  Lemma mod_ne a b : a < b -> b < a + size -> a mod size <> b mod size.
  Proof.
    intros H1 H2 E. pose proof size_pos.
    pose proof (N.div_mod a size ltac:(lia)). pose proof (N.div_mod b size ltac:(lia)).
    rewrite E in H0. assert (a / size < b / size \/ b / size <= a / size) as [Hd|Hd] by lia.
    - assert (size * (a / size) + size <= size * (b / size)) by (rewrite <- N.mul_succ_r; apply N.mul_le_mono_l; lia). lia.
    - assert (size * (b / size) <= size * (a / size)) by (apply N.mul_le_mono_l; lia). lia.
  Qed.

  Record inv s (q : list T) : Prop := {
    i_fifo : fifo size [] (log s) q;
    i_len : enqueue s = dequeue s + N.of_nat (length q);
    i_cap : N.of_nat (length q) <= size;
    i_pc : enqDeqCache s <= dequeue s;
    i_cc : deqEnqCache s <= enqueue s;
    i_ent : forall i v, q !! i = Some v -> entries s ((dequeue s + N.of_nat i) mod size) = v;
    i_pp : match pp s with
           | PWrite v => N.of_nat (length q) < size
           | PStore v => N.of_nat (length q) < size /\ entries s (enqueue s mod size) = v
           | _ => True
           end;
    i_cp : match cp s with
           | CRead => q <> []
           | CStore v => List.hd_error q = Some v
           | _ => True
           end }.

  Lemma inv_pstep s q : inv s q -> exists q', inv (pstep mask s) q'.
  Proof.
    intros [Hf Hl Hc Hpc Hcc He Hp Hcp]. pose proof size_pos. pose proof mask_succ.
    unfold pstep. destruct (pp s) as [| slow v | v | v | v] eqn:Epp.
    - destruct (pprog s) as [|[v|v| |] rest].
      + exists q. split; rewrite ?Epp; done.
      + exists q. split; simpl; rewrite ?app_nil_r; try done.
        destruct (N.ltb_spec (enqDeqCache s + mask) (enqueue s)); [done|]. lia.
      + exists q. split; simpl; rewrite ?app_nil_r; try done.
        destruct (N.ltb_spec (enqDeqCache s + mask) (enqueue s)); [done|]. lia.
      + exists q. split; simpl; try done. eapply fifo_snoc; [done|constructor].
      + exists q. split; simpl; try done. eapply fifo_snoc; [done|constructor].
        assert (N.of_nat (length q) < size \/ N.of_nat (length q) = size) as [Hlt|Heq] by lia; [left|right].
        * split; [done|].
          replace (dequeue s + mask + w64 - enqueue s) with (size - 1 - N.of_nat (length q) + 1 * w64) by wordlia.
          rewrite N.mod_add by wordlia. apply N.mod_small. pose proof size_lt. lia.
        * split; [done|]. replace (dequeue s + mask + w64 - enqueue s) with (w64 - 1) by wordlia.
          vm_compute. done.
    - destruct (N.leb_spec (enqueue s) (dequeue s + mask)); [|destruct slow].
      + exists q. split; simpl; rewrite ?app_nil_r; try done; lia.
      + exists q. split; simpl; rewrite ?app_nil_r; try done; lia.
      + exists q. split; simpl; try done; try lia. eapply fifo_snoc; [done|constructor]. lia.
    - destruct (N.leb_spec (enqueue s) (dequeue s + mask)).
      + exists q. split; simpl; rewrite ?app_nil_r; try done; lia.
      + exists q. split; simpl; rewrite ?app_nil_r; try done; lia.
    - exists q. rewrite land_mod. split; simpl; rewrite ?app_nil_r; try done.
      + intros i x Hi. destruct (N.eqb_spec ((dequeue s + N.of_nat i) mod size) (enqueue s mod size)) as [E|_]; [|by apply He].
        exfalso. apply lookup_lt_Some in Hi. revert E. apply mod_ne; lia.
      + by rewrite N.eqb_refl.
    - destruct Hp as [Hlt Hv]. exists (q ++ [v]). split; simpl; rewrite ?app_length; simpl; try done; try lia.
      + eapply fifo_snoc; [done|]. by constructor.
      + intros i x Hi. apply lookup_app_Some in Hi as [Hi|[Hi Hx]]; [by apply He|].
        apply list_lookup_singleton_Some in Hx as [Hi0 <-]. rewrite <- Hv. f_equal. f_equal. lia.
      + destruct (cp s); try done; by destruct q.
  Qed.

  Lemma inv_cstep s q : inv s q -> exists q', inv (cstep mask s) q'.
  Proof.
    intros [Hf Hl Hc Hpc Hcc He Hp Hcp]. pose proof size_pos. pose proof mask_succ. pose proof size_lt.
    assert (Hne : dequeue s < enqueue s -> q <> []) by (intros ? ->; simpl in *; lia).
    assert (Hemp : enqueue s <= dequeue s -> q = []) by (destruct q; [done|]; simpl in *; lia).
    unfold cstep. destruct (cp s) as [| slow | | | | v] eqn:Ecp.
    - destruct (cprog s) as [|[| |] rest].
      + exists q. split; rewrite ?Ecp; done.
      + exists q. split; simpl; rewrite ?app_nil_r; try done.
        destruct (N.leb_spec (deqEnqCache s) (dequeue s)); [done|]. apply Hne. lia.
      + exists q. split; simpl; rewrite ?app_nil_r; try done.
        destruct (N.leb_spec (deqEnqCache s) (dequeue s)); [done|]. apply Hne. lia.
      + exists q. split; simpl; try done. eapply fifo_snoc; [done|]. constructor.
        replace (enqueue s + w64 - dequeue s) with (N.of_nat (length q) + 1 * w64) by lia.
        rewrite N.mod_add by wordlia. apply N.mod_small. lia.
    - destruct (N.ltb_spec (dequeue s) (enqueue s)); [|destruct slow].
      + exists q. split; simpl; rewrite ?app_nil_r; try done. by apply Hne.
      + exists q. split; simpl; rewrite ?app_nil_r; try done.
      + exists q. split; simpl; try done. eapply fifo_snoc; [done|]. rewrite Hemp by done. constructor.
    - destruct (N.ltb_spec (dequeue s) (enqueue s)).
      + exists q. split; simpl; rewrite ?app_nil_r; try done. by apply Hne.
      + exists q. split; simpl; try done. eapply fifo_snoc; [done|]. rewrite Hemp by done. constructor.
    - destruct (status s) eqn:Es.
      + exists q. split; simpl; try done. eapply fifo_snoc; [done|]. constructor.
      + exists q. split; simpl; rewrite ?app_nil_r; try done.
    - exists q. split; simpl; rewrite ?app_nil_r; try done. destruct q as [|x q]; [done|]. simpl. f_equal.
      rewrite land_mod. specialize (He 0%nat x eq_refl). rewrite N.add_0_r in He. done.
    - destruct q as [|x q]; [done|]. injection Hcp as ->. simpl in *. exists q. split; simpl; try done; try lia.
      + eapply fifo_snoc; [done|constructor].
      + intros i y Hi. specialize (He (S i) y Hi). rewrite <- He. f_equal. f_equal. lia.
      + destruct (pp s); try done; [lia|]. destruct Hp. split; [lia|done].
  Qed.
  Lemma inv_run s q sched : inv s q -> exists q', inv (run mask s sched) q'.
  Proof.
    revert s q. induction sched as [|b sched IH]; intros s q H; simpl; [by exists q|].
    destruct b; [destruct (inv_pstep _ _ H) as [q1 H1]|destruct (inv_cstep _ _ H) as [q1 H1]]; by eapply IH.
  Qed.
  Lemma inv_init junk pr cr : inv (spsc_init junk pr cr) [].
  Proof. split; simpl; try done; try lia. constructor. Qed.

  (** ** Every event answers the next call of its goroutine *)
  Definition pcur s (cur : list (pop T)) : Prop :=
    match pp s with
    | PIdle => cur = []
    | PLoad slow v => cur = [if slow then Put v else Offer v]
    | PSlow v => cur = [Put v]
    | PWrite v | PStore v => cur = [Put v] \/ cur = [Offer v]
    end.
  Definition ccur s (cur : list cop) : Prop :=
    match cp s with
    | CIdle => cur = []
    | CLoad slow => cur = [if slow then Get else Accept]
    | CSlow | CStatus => cur = [Get]
    | CRead | CStore _ => cur = [Get] \/ cur = [Accept]
    end.
  Definition pconf s (prog : list (pop T)) : Prop :=
    exists don cur, prog = don ++ cur ++ pprog s /\ pcur s cur /\ Forall2 panswer don (List.filter is_pev (log s)).
  Definition cconf s (prog : list cop) : Prop :=
    exists don cur, prog = don ++ cur ++ cprog s /\ ccur s cur /\ Forall2 canswer don (List.filter is_cev (log s)).

  Lemma conf_finish {O} (ans : O -> qev T -> Prop) (f : qev T -> bool) don o rest prog lg e :
    prog = don ++ [o] ++ rest -> Forall2 ans don (List.filter f lg) -> f e = true -> ans o e ->
    exists don' cur, prog = don' ++ cur ++ rest /\ cur = [] /\ Forall2 ans don' (List.filter f (lg ++ [e])).
  Proof.
    intros -> H Hf Ha. exists (don ++ [o]), []. split; [by rewrite <- app_assoc|]. split; [done|].
    rewrite List.filter_app. simpl. rewrite Hf. by apply Forall2_app; [|constructor].
  Qed.
  Lemma filter_nilev (f : qev T -> bool) lg e : f e = false -> List.filter f (lg ++ [e]) = List.filter f lg.
  Proof. intros H. rewrite List.filter_app. simpl. rewrite H. apply app_nil_r. Qed.

  Lemma conf_pstep s pr cr : pconf s pr -> cconf s cr -> pconf (pstep mask s) pr /\ cconf (pstep mask s) cr.
  Proof.
    intros (don & cur & Epr & Hcur & Hd) (cdon & ccu & Ecr & Hccur & Hcd). split.
    - unfold pconf, pcur in *. unfold pstep. destruct (pp s) as [| slow v | v | v | v] eqn:Epp.
      + subst cur. simpl in Epr. destruct (pprog s) as [|[v|v| |] rest] eqn:Eprog.
        * exists don, []. rewrite Epp, Eprog. done.
        * exists don, [Offer v]. simpl. rewrite app_nil_r. repeat split; try done. by destruct (_ <? _); [|right].
        * exists don, [Put v]. simpl. rewrite app_nil_r. repeat split; try done. by destruct (_ <? _); [|left].
        * by eapply conf_finish.
        * eapply conf_finish; try done. simpl. eauto.
      + subst cur. destruct (_ <=? _); [|destruct slow].
        * exists don, [if slow then Put v else Offer v]. simpl. rewrite app_nil_r. repeat split; try done. destruct slow; tauto.
        * exists don, [Put v]. simpl. rewrite app_nil_r. done.
        * eapply conf_finish; try done. by right.
      + subst cur. destruct (_ <=? _).
        * exists don, [Put v]. simpl. rewrite app_nil_r. repeat split; try done. by left.
        * exists don, [Put v]. simpl. rewrite app_nil_r. done.
      + exists don, cur. simpl. rewrite app_nil_r. done.
      + destruct Hcur as [-> | ->]; eapply conf_finish; try done. by left.
    - exists cdon, ccu. unfold ccur in *. unfold pstep. destruct (pp s) as [| slow v | v | v | v] eqn:Epp.
      + destruct (pprog s) as [|[v|v| |] rest] eqn:Eprog; simpl; rewrite ?app_nil_r, ?filter_nilev by done; done.
      + destruct (_ <=? _); [|destruct slow]; simpl; rewrite ?app_nil_r, ?filter_nilev by done; done.
      + destruct (_ <=? _); simpl; rewrite ?app_nil_r, ?filter_nilev by done; done.
      + simpl; rewrite ?app_nil_r, ?filter_nilev by done; done.
      + simpl; rewrite ?app_nil_r, ?filter_nilev by done; done.
  Qed.
  Lemma conf_cstep s pr cr : pconf s pr -> cconf s cr -> pconf (cstep mask s) pr /\ cconf (cstep mask s) cr.
  Proof.
    intros (cdon & ccu & Ecr & Hccur & Hcd) (don & cur & Epr & Hcur & Hd). split.
    - exists cdon, ccu. unfold pcur in *. unfold cstep. destruct (cp s) as [| slow | | | | v] eqn:Ecp.
      + destruct (cprog s) as [|[| |] rest] eqn:Eprog; simpl; rewrite ?app_nil_r, ?filter_nilev by done; done.
      + destruct (_ <? _); [|destruct slow]; simpl; rewrite ?app_nil_r, ?filter_nilev by done; done.
      + destruct (_ <? _); simpl; rewrite ?app_nil_r, ?filter_nilev by done; done.
      + destruct (status s); simpl; rewrite ?app_nil_r, ?filter_nilev by done; done.
      + simpl; rewrite ?app_nil_r, ?filter_nilev by done; done.
      + simpl; rewrite ?app_nil_r, ?filter_nilev by done; done.
    - unfold cconf, ccur in *. unfold cstep. destruct (cp s) as [| slow | | | | v] eqn:Ecp.
      + subst cur. simpl in Epr. destruct (cprog s) as [|[| |] rest] eqn:Eprog.
        * exists don, []. rewrite Ecp, Eprog. done.
        * exists don, [Accept]. simpl. rewrite app_nil_r. repeat split; try done. by destruct (_ <=? _); [|right].
        * exists don, [Get]. simpl. rewrite app_nil_r. repeat split; try done. by destruct (_ <=? _); [|left].
        * eapply conf_finish; try done. simpl. eauto.
      + subst cur. destruct (_ <? _); [|destruct slow].
        * exists don, [if slow then Get else Accept]. simpl. rewrite app_nil_r. repeat split; try done. destruct slow; tauto.
        * exists don, [Get]. simpl. rewrite app_nil_r. done.
        * eapply conf_finish; try done. by right.
      + subst cur. destruct (_ <? _).
        * exists don, [Get]. simpl. rewrite app_nil_r. repeat split; try done. by left.
        * exists don, [Get]. simpl. rewrite filter_nilev by done. done.
      + subst cur. destruct (status s).
        * eapply conf_finish; try done. by right.
        * exists don, [Get]. simpl. rewrite app_nil_r. done.
      + exists don, cur. simpl. rewrite app_nil_r. done.
      + destruct Hcur as [-> | ->]; eapply conf_finish; try done; left; eauto.
  Qed.
  Lemma conf_run s sched pr cr : pconf s pr -> cconf s cr ->
    pconf (run mask s sched) pr /\ cconf (run mask s sched) cr.
  Proof.
    revert s. induction sched as [|b sched IH]; intros s Hp Hc; simpl; [done|].
    destruct b; [destruct (conf_pstep _ _ _ Hp Hc)|destruct (conf_cstep _ _ _ Hp Hc)]; by apply IH.
  Qed.
  Lemma conf_init junk pr cr : pconf (spsc_init junk pr cr) pr /\ cconf (spsc_init junk pr cr) cr.
  Proof. split; exists [], []; simpl; repeat split; constructor. Qed.

  (** ** Progress *)
  Fixpoint iter {A} (n : nat) (f : A -> A) (x : A) : A := match n with O => x | S n => iter n f (f x) end.
  Lemma npev_mono_p s : (calls_done is_pev s <= calls_done is_pev (pstep mask s))%nat.
  Proof.
    unfold calls_done, pstep. destruct (pp s).
    - destruct (pprog s) as [|[| | |]]; simpl; rewrite ?List.filter_app, ?app_length; lia.
    - destruct (_ <=? _); [|destruct slow]; simpl; rewrite ?List.filter_app, ?app_length; lia.
    - destruct (_ <=? _); simpl; rewrite ?List.filter_app, ?app_length; lia.
    - simpl; rewrite ?List.filter_app, ?app_length; lia.
    - simpl; rewrite ?List.filter_app, ?app_length; lia.
  Qed.
  Definition p_pending s : Prop := pp s <> PIdle \/ pprog s <> [].
  Definition c_pending s : Prop := cp s <> CIdle \/ cprog s <> [].
  (** A measure of how far the producer is from finishing its call. *)
  Definition pdist s : nat :=
    match pp s with PIdle => 5 | PLoad _ _ => 4 | PSlow _ => 3 | PWrite _ => 2 | PStore _ => 1 end.
  Definition cdist s : nat :=
    match cp s with CIdle => 6 | CLoad _ => 5 | CStatus => 4 | CSlow => 3 | CRead => 2 | CStore _ => 1 end.
  Lemma pstep_progress s q : inv s q -> N.of_nat (length q) < size -> p_pending s ->
    (calls_done is_pev s < calls_done is_pev (pstep mask s))%nat \/
    (calls_done is_pev (pstep mask s) = calls_done is_pev s /\ p_pending (pstep mask s) /\ (pdist (pstep mask s) < pdist s)%nat /\
     exists q', inv (pstep mask s) q' /\ N.of_nat (length q') < size).
  Proof.
    intros Hi Hlt Hp. pose proof mask_succ. destruct (inv_pstep _ _ Hi) as [q' Hi'].
    destruct Hi as [Hf Hl Hc Hpc Hcc He Hpp Hcp].
    assert (Hq : enqueue (pstep mask s) = enqueue s -> dequeue (pstep mask s) = dequeue s ->
      exists q', inv (pstep mask s) q' /\ N.of_nat (length q') < size).
    { intros E1 E2. exists q'. split; [done|]. pose proof (i_len _ _ Hi'). lia. }
    unfold pstep, calls_done, pdist, p_pending in *. destruct (pp s) as [| slow v | v | v | v] eqn:Epp.
    - destruct (pprog s) as [|[v|v| |] rest] eqn:Eprog.
      + by destruct Hp.
      + right. simpl. rewrite app_nil_r. repeat split; [|destruct (_ <? _); simpl; lia|auto].
        left. by destruct (_ <? _).
      + right. simpl. rewrite app_nil_r. repeat split; [|destruct (_ <? _); simpl; lia|auto].
        left. by destruct (_ <? _).
      + left. simpl. rewrite List.filter_app, app_length. simpl. lia.
      + left. simpl. rewrite List.filter_app, app_length. simpl. lia.
    - destruct (N.leb_spec (enqueue s) (dequeue s + mask)); [|lia].
      right. simpl. rewrite app_nil_r. repeat split; [by left|lia|auto].
    - destruct (N.leb_spec (enqueue s) (dequeue s + mask)); [|lia].
      right. simpl. rewrite app_nil_r. repeat split; [by left|lia|auto].
    - right. simpl. rewrite app_nil_r. repeat split; [by left|lia|auto].
    - left. simpl. rewrite List.filter_app, app_length. simpl. lia.
  Qed.
  Lemma iter_npev n s : (calls_done is_pev s <= calls_done is_pev (iter n (pstep mask) s))%nat.
  Proof. revert s. induction n as [|n IH]; intros s; simpl; [lia|]. etransitivity; [apply npev_mono_p|apply IH]. Qed.
  Lemma producer_progress n s q : inv s q -> N.of_nat (length q) < size -> p_pending s -> (pdist s <= n)%nat ->
    (calls_done is_pev s < calls_done is_pev (iter n (pstep mask) s))%nat.
  Proof.
    revert s q. induction n as [|n IH]; intros s q Hi Hlt Hp Hd.
    - unfold pdist in Hd. destruct (pp s); lia.
    - simpl. destruct (pstep_progress s q Hi Hlt Hp) as [H|(E & Hp' & Hd' & q' & Hi' & Hlt')].
      + eapply Nat.lt_le_trans; [done|apply iter_npev].
      + rewrite <- E. eapply IH; eauto. lia.
  Qed.
  Lemma ncev_mono s : (calls_done is_cev s <= calls_done is_cev (cstep mask s))%nat.
  Proof.
    unfold calls_done, cstep. destruct (cp s).
    - destruct (cprog s) as [|[| |]]; simpl; rewrite ?List.filter_app, ?app_length; lia.
    - destruct (_ <? _); [|destruct slow]; simpl; rewrite ?List.filter_app, ?app_length; lia.
    - destruct (_ <? _); simpl; rewrite ?List.filter_app, ?app_length; lia.
    - destruct (status s); simpl; rewrite ?List.filter_app, ?app_length; lia.
    - simpl; rewrite ?List.filter_app, ?app_length; lia.
    - simpl; rewrite ?List.filter_app, ?app_length; lia.
  Qed.
  Lemma iter_ncev n s : (calls_done is_cev s <= calls_done is_cev (iter n (cstep mask) s))%nat.
  Proof. revert s. induction n as [|n IH]; intros s; simpl; [lia|]. etransitivity; [apply ncev_mono|apply IH]. Qed.
  Lemma cstep_progress s q : inv s q -> q <> [] -> c_pending s ->
    (calls_done is_cev s < calls_done is_cev (cstep mask s))%nat \/
    (calls_done is_cev (cstep mask s) = calls_done is_cev s /\ c_pending (cstep mask s) /\ (cdist (cstep mask s) < cdist s)%nat /\
     exists q', inv (cstep mask s) q' /\ q' <> []).
  Proof.
    intros Hi Hlt Hp. destruct (inv_cstep _ _ Hi) as [q' Hi'].
    destruct Hi as [Hf Hl Hc Hpc Hcc He Hpp Hcp].
    assert (Hlt' : dequeue s < enqueue s) by (destruct q; [done|]; simpl in *; lia).
    assert (Hq : enqueue (cstep mask s) = enqueue s -> dequeue (cstep mask s) = dequeue s ->
      exists q', inv (cstep mask s) q' /\ q' <> []).
    { intros E1 E2. exists q'. split; [done|]. pose proof (i_len _ _ Hi'). destruct q'; [|done]. simpl in *. lia. }
    unfold cstep, calls_done, cdist, c_pending in *. destruct (cp s) as [| slow | | | | v] eqn:Ecp.
    - destruct (cprog s) as [|[| |] rest] eqn:Eprog.
      + by destruct Hp.
      + right. simpl. rewrite app_nil_r. repeat split; [|destruct (_ <=? _); simpl; lia|auto].
        left. by destruct (_ <=? _).
      + right. simpl. rewrite app_nil_r. repeat split; [|destruct (_ <=? _); simpl; lia|auto].
        left. by destruct (_ <=? _).
      + left. simpl. rewrite List.filter_app, app_length. simpl. lia.
    - destruct (N.ltb_spec (dequeue s) (enqueue s)); [|lia].
      right. simpl. rewrite app_nil_r. repeat split; [by left|lia|auto].
    - destruct (N.ltb_spec (dequeue s) (enqueue s)); [|lia].
      right. simpl. rewrite app_nil_r. repeat split; [by left|lia|auto].
    - destruct (status s).
      + left. simpl. rewrite List.filter_app, app_length. simpl. lia.
      + right. simpl. rewrite app_nil_r. repeat split; [by left|lia|auto].
    - right. simpl. rewrite app_nil_r. repeat split; [by left|lia|auto].
    - left. simpl. rewrite List.filter_app, app_length. simpl. lia.
  Qed.
  Lemma consumer_progress n s q : inv s q -> q <> [] -> c_pending s -> (cdist s <= n)%nat ->
    (calls_done is_cev s < calls_done is_cev (iter n (cstep mask) s))%nat.
  Proof.
    revert s q. induction n as [|n IH]; intros s q Hi Hlt Hp Hd.
    - unfold cdist in Hd. destruct (cp s); lia.
    - simpl. destruct (cstep_progress s q Hi Hlt Hp) as [H|(E & Hp' & Hd' & q' & Hi' & Hlt')].
      + eapply Nat.lt_le_trans; [done|apply iter_ncev].
      + rewrite <- E. eapply IH; eauto. lia.
  Qed.
  Lemma run_iter_p n s : run mask s (repeat true n) = iter n (pstep mask) s.
  Proof. revert s. induction n; intros s; simpl; auto. Qed.
  Lemma run_iter_c n s : run mask s (repeat false n) = iter n (cstep mask) s.
  Proof. revert s. induction n; intros s; simpl; auto. Qed.
  Lemma run_app m s a b : run m s (a ++ b) = run m (run m s a) b.
  Proof. revert s. induction a as [|x a IH]; intros s; simpl; [done|]. apply IH. Qed.

  (** ** What "closed" means *)
  Definition quiet (l : list (qev T)) : Prop := Forall (fun e => is_pev e = true) l.
  Definition after_check (l : list (qev T)) : Prop := exists l1 l2, l = l1 ++ EChecked :: l2 /\ quiet l2.
  Record cinv s : Prop := {
    ci_closed : forall l l3, log s = l ++ EClosed :: l3 -> after_check l /\ In EClose l;
    ci_stat : cp s = CStatus -> after_check (log s);
    ci_close : status s = true -> In EClose (log s) }.
  Lemma snoc_split {A} (l : list A) x a b c : l ++ [x] = a ++ b :: c ->
    (c = [] /\ x = b /\ l = a) \/ (exists c', c = c' ++ [x] /\ l = a ++ b :: c').
  Proof.
    destruct c as [|y c] using rev_ind; intros H.
    - left. apply app_inj_tail in H as [-> ->]. done.
    - right. clear IHc. exists c. rewrite app_comm_cons, app_assoc in H. apply app_inj_tail in H as [-> ->]. done.
  Qed.
  Lemma cinv_pev s s' e : cinv s -> log s' = log s ++ [e] -> cp s' = cp s -> is_pev e = true ->
    (status s' = true -> status s = true \/ e = EClose) -> cinv s'.
  Proof.
    intros [H1 H2 H3] El Ec He Hs. split.
    - intros l l3 E. rewrite El in E. apply snoc_split in E as [(_ & -> & _)|(c & _ & E)]; [done|eauto].
    - rewrite Ec, El. intros E. destruct (H2 E) as (l1 & l2 & -> & Hq). exists l1, (l2 ++ [e]).
      rewrite <- app_assoc. split; [done|]. apply Forall_app. split; [done|]. by constructor.
    - intros E. rewrite El. apply in_app_iff. destruct (Hs E) as [E'| ->]; [left; auto|right; by left].
  Qed.
  Lemma cinv_silent s s' : cinv s -> log s' = log s -> (cp s' = CStatus -> cp s = CStatus) -> status s' = status s -> cinv s'.
  Proof. intros [H1 H2 H3] El Ec Es. split; rewrite ?El, ?Es; auto. Qed.
  Lemma cinv_cev s s' e : cinv s -> log s' = log s ++ [e] -> cp s' <> CStatus -> status s' = status s ->
    e <> EClosed -> cinv s'.
  Proof.
    intros [H1 H2 H3] El Ec Es He. split.
    - intros l l3 E. rewrite El in E. apply snoc_split in E as [(_ & -> & _)|(c & _ & E)]; [done|eauto].
    - done.
    - rewrite Es, El. intros E. apply in_app_iff. left; auto.
  Qed.
  Lemma cinv_pstep s : cinv s -> cinv (pstep mask s).
  Proof.
    intros H. unfold pstep. destruct (pp s).
    - destruct (pprog s) as [|[| | |]]; [done|..].
      + eapply cinv_silent; [exact H|simpl; by rewrite ?app_nil_r|done..].
      + eapply cinv_silent; [exact H|simpl; by rewrite ?app_nil_r|done..].
      + eapply cinv_pev; [exact H|done..|]. auto.
      + eapply cinv_pev; [exact H|done..|]. auto.
    - destruct (_ <=? _); [|destruct slow].
      + eapply cinv_silent; [exact H|simpl; by rewrite ?app_nil_r|done..].
      + eapply cinv_silent; [exact H|simpl; by rewrite ?app_nil_r|done..].
      + eapply cinv_pev; [exact H|done..|]. auto.
    - destruct (_ <=? _); (eapply cinv_silent; [exact H|simpl; by rewrite ?app_nil_r|done..]).
    - eapply cinv_silent; [exact H|simpl; by rewrite ?app_nil_r|done..].
    - eapply cinv_pev; [exact H|done..|]. auto.
  Qed.
  Lemma cinv_cstep s : cinv s -> cinv (cstep mask s).
  Proof.
    intros H. unfold cstep. destruct (cp s) eqn:Ecp.
    - destruct (cprog s) as [|[| |]]; [done|..].
      + eapply cinv_silent; [exact H|simpl; by rewrite ?app_nil_r|simpl; by destruct (_ <=? _)|done].
      + eapply cinv_silent; [exact H|simpl; by rewrite ?app_nil_r|simpl; by destruct (_ <=? _)|done].
      + by eapply cinv_cev; [exact H|..].
    - destruct (_ <? _); [|destruct slow].
      + eapply cinv_silent; [exact H|simpl; by rewrite ?app_nil_r|done..].
      + eapply cinv_silent; [exact H|simpl; by rewrite ?app_nil_r|done..].
      + by eapply cinv_cev; [exact H|..].
    - destruct (_ <? _).
      + eapply cinv_silent; [exact H|simpl; by rewrite ?app_nil_r|done..].
      + destruct H as [H1 H2 H3]. split; simpl.
        * intros l l3 E. apply snoc_split in E as [(_ & E & _)|(c & _ & E)]; [done|eauto].
        * intros _. exists (log s), []. split; [done|constructor].
        * intros E. apply in_app_iff. left; auto.
    - destruct (status s) eqn:Es.
      + destruct H as [H1 H2 H3]. split; simpl.
        * intros l l3 E. apply snoc_split in E as [(_ & _ & <-)|(c & _ & E)]; [|eauto]. auto.
        * done.
        * intros _. apply in_app_iff. left; auto.
      + eapply cinv_silent; [exact H|simpl; by rewrite ?app_nil_r|done..].
    - eapply cinv_silent; [exact H|simpl; by rewrite ?app_nil_r|done..].
    - by eapply cinv_cev; [exact H|..].
  Qed.
  Lemma cinv_run s sched : cinv s -> cinv (run mask s sched).
  Proof.
    revert s. induction sched as [|b sched IH]; intros s H; simpl; [done|].
    apply IH. destruct b; [by apply cinv_pstep|by apply cinv_cstep].
  Qed.
  Lemma cinv_init junk pr cr : cinv (spsc_init junk pr cr).
  Proof. split; simpl; try done. by intros []. Qed.
  Lemma quiet_gots l : quiet l -> gots l = [].
  Proof. induction 1 as [|e l He Hl IH]; simpl; [done|]. rewrite IH. by destruct e. Qed.
End proofs.

Lemma puts_app {T} (a b : list (qev T)) : puts (a ++ b) = puts a ++ puts b.
Proof. apply flat_map_app. Qed.
Lemma gots_app {T} (a b : list (qev T)) : gots (a ++ b) = gots a ++ gots b.
Proof. apply flat_map_app. Qed.
