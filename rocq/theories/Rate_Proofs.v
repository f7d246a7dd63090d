(** Proofs about the rate limit. *)
From Verif Require Import Base Rate_Spec Rate_Model.
Open Scope N_scope.

Lemma quota_le rn rd t : 0 < rd -> rd * second * quota rn rd t <= rn * t.
Proof. intros H. unfold quota. apply N.mul_div_le. unfold second. lia. Qed.

(** [bn]/[rd]: a bound on the rate, not below the target, that a pause makes up for. *)
Section bound.
  Context (unit rn rd bn : N) (Hrd : 0 < rd) (Hrn : 0 < rn) (Hb : rn <= bn).
  Context (Hpause : forall extra, 0 < extra -> rd * second * extra <= bn * pause unit rn rd extra + rd * second \/ rd * second <= bn * pause unit rn rd extra).

  Definition inv (s : pace) : Prop := within bn rd 1 (remitted s) (now s) /\ within bn rd 0 (allowed s) (now s).
  Lemma event_inv s io : inv s -> inv (event unit rn rd s io).
  Proof using Hrd Hrn Hb Hpause.
    destruct io as [d o]. unfold inv, within, event. intros [H1 H2].
    assert (Hs : 0 < rd * second) by (unfold second; lia).
    destruct (negb (rn =? 0) && (allowed s <? remitted s + 1))%bool eqn:Ec.
    - pose proof (quota_le rn rd (now s + d) Hrd) as Hq.
      assert (Hmono : forall t, rn * t <= bn * t) by (intros t; apply N.mul_le_mono_r, Hb).
      destruct (N.ltb_spec (quota rn rd (now s + d)) (remitted s + 1)) as [Hlt|Hge]; cbn [remitted allowed now].
      + set (q := quota rn rd (now s + d)) in *. set (e := remitted s + 1 - q) in *.
        set (p := pause unit rn rd e) in *. set (t' := now s + d + p + o) in *.
        pose proof (quota_le rn rd t' Hrd) as Hq'. pose proof (Hmono t') as Hm'. pose proof (Hmono (now s + d)) as Hm.
        set (K := rd * second) in *.
        assert (Ht' : bn * t' = bn * now s + bn * d + bn * p + bn * o) by (subst t'; lia).
        assert (Hd : bn * (now s + d) = bn * now s + bn * d) by lia.
        split; [|lia].
        assert (Hn : K * (remitted s + 1) = K * remitted s + K) by lia.
        destruct (Hpause e ltac:(subst e; lia)) as [Hp|Hp]; fold p K in Hp.
        * assert (He : K * (remitted s + 1) = K * q + K * e) by (subst e; rewrite N.mul_sub_distr_l; pose proof (N.mul_le_mono_l q (remitted s + 1) K ltac:(lia)); lia).
          lia.
        * lia.
      + pose proof (Hmono (now s + d)) as Hm. set (q := quota rn rd (now s + d)) in *. set (K := rd * second) in *.
        pose proof (N.mul_le_mono_l (remitted s + 1) q K Hge). split; lia.
    - cbn [remitted allowed now]. set (K := rd * second) in *.
      assert (Hd : bn * (now s + d) = bn * now s + bn * d) by lia.
      split; [|lia]. destruct (N.eqb_spec rn 0); [lia|]. cbn in Ec. apply N.ltb_ge in Ec.
      pose proof (N.mul_le_mono_l (remitted s + 1) (allowed s) K Ec). lia.
  Qed.
  Lemma all_inv t0 l : inv (remit_all unit rn rd t0 l).
  Proof using Hrd Hrn Hb Hpause.
    unfold remit_all. assert (G : forall s, inv s -> inv (fold_left (event unit rn rd) l s)).
    { induction l as [|io l IH]; intros s H; simpl; [done|]. apply IH, event_inv, H. }
    apply G. unfold inv, within. simpl. split; lia.
  Qed.
End bound.
