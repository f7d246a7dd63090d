(** Sums over the vertices of OnFinish. *)
From Verif Require Import Base RBO_Spec QcUtil Finish_Spec Rank_Model Rank_Proofs Finish_Model.
From Coq Require Import QArith Qcanon.
Open Scope nat_scope.

Lemma dv_some a b x : dv a b = Some x -> b <> 0%Qc /\ x = (a / b)%Qc.
Proof. unfold dv. destruct (Qc_eq_dec b 0); [done|]. intros [= <-]. done. Qed.
Lemma dv_ok a b : b <> 0%Qc -> dv a b = Some (a / b)%Qc.
Proof. intros H. unfold dv. by destruct (Qc_eq_dec b 0). Qed.
Lemma dv_none a b : dv a b = None <-> b = 0%Qc.
Proof. unfold dv. by destruct (Qc_eq_dec b 0). Qed.

Lemma lsum_app l1 l2 : lsum (l1 ++ l2) = (lsum l1 + lsum l2)%Qc.
Proof. induction l1 as [|x l1 IH]; cbn [lsum app]; [ring|]. rewrite IH. ring. Qed.
Lemma lsum_split {A : Type} (p : A -> bool) f l : lsum (map f l) = (lsum (map f (List.filter p l)) + lsum (map f (List.filter (fun x => negb (p x)) l)))%Qc.
Proof.
  induction l as [|x l IH]; cbn [map lsum List.filter]; [ring|]. rewrite IH. destruct (p x); cbn [negb map lsum]; ring.
Qed.
Lemma lsum_ext {A : Type} f g (l : list A) : (forall x, In x l -> f x = g x) -> lsum (map f l) = lsum (map g l).
Proof. intros H. f_equal. by apply map_ext_in. Qed.
Lemma lsum_linear {A : Type} (a b : Qc) f (l : list A) : lsum (map (fun x => a * f x + b)%Qc l) = (a * lsum (map f l) + b * inject_nat (length l))%Qc.
Proof.
  induction l as [|x l IH]; cbn [map lsum length]; [rewrite QcUtil.inj_0; ring|]. rewrite IH. replace (S (length l)) with (1 + length l) by lia. rewrite QcUtil.inj_add, QcUtil.inj_1. ring.
Qed.

Lemma all_some_map {A B : Type} (f : A -> option B) l r : all_some (map f l) = Some r -> Forall2 (fun x y => f x = Some y) l r.
Proof.
  revert r. induction l as [|x l IH]; cbn; intros r H; [injection H as <-; constructor|].
  destruct (f x) eqn:E; [|done]. destruct (all_some (map f l)) eqn:E'; [|done]. injection H as <-. constructor; [done|by apply IH].
Qed.
Lemma all_some_ok {A B : Type} (f : A -> option B) l : (forall x, In x l -> exists y, f x = Some y) -> exists r, all_some (map f l) = Some r.
Proof.
  induction l as [|x l IH]; cbn; intros H; [by eexists|]. destruct (H x) as [y ->]; [by left|]. destruct IH as [r ->]; [auto|]. by eexists.
Qed.
Lemma all_some_none {A B : Type} (f : A -> option B) l x : In x l -> f x = None -> all_some (map f l) = None.
Proof.
  induction l as [|y l IH]; cbn; [done|]. intros [->|H] E; [by rewrite E|]. rewrite (IH H E). by destruct (f y).
Qed.

Lemma damp_nz : DAMP <> 0%Qc. Proof. done. Qed.
Lemma one_damp_nz : (1 - DAMP)%Qc <> 0%Qc. Proof. exact one_damp. Qed.

Lemma counts l : length l = length (List.filter gone l) + length (List.filter lasting l) + length (List.filter (fun x => negb (sink x)) l).
Proof.
  induction l as [|x l IH]; cbn [List.filter length]; [done|]. unfold gone at 1, lasting at 1. destruct (sink x), (f_late x); cbn [andb negb length]; lia.
Qed.
Lemma others l : (nV l - numSinks l)%Qc = inject_nat (length (List.filter (fun x => negb (sink x)) l)).
Proof.
  unfold nV, numSinks. rewrite <- QcUtil.inj_sub by (pose proof (counts l); lia). f_equal. pose proof (counts l). lia.
Qed.
Lemma sinks_sum l : lsum (map mass1 (List.filter sink l)) = sinkSum l.
Proof.
  unfold sinkSum. induction l as [|x l IH]; cbn [List.filter map lsum]; [done|]. unfold lasting at 1.
  destruct (sink x) eqn:E1, (f_late x) eqn:E2; cbn [andb negb map lsum]; rewrite ?IH; try done.
  unfold mass1 at 1, gone. rewrite E1, E2. cbn [andb]. ring.
Qed.

(** The factors by which the masses are scaled before they are divided by [nV]. *)
Definition quota (l : list fin) : Qc := (1 / (nV l - 1))%Qc.
Definition den (l : list fin) : Qc := (1 + DAMP * quota l - quota l * globalLatent l)%Qc.
Definition geom (l : list fin) : Qc := (globalLatent l / den l)%Qc.
Definition cN (l : list fin) : Qc := (1 + quota l * (nV l - globalLatent l / DAMP) * geom l / nonSinkSum l)%Qc.
Definition cS (l : list fin) : Qc := (1 + quota l * geom l * (1 - (1 - DAMP) / sinkSum l))%Qc.

Lemma minus_nz (a b : Qc) : a <> b -> (a - b)%Qc <> 0%Qc.
Proof. intros H E. apply H. rewrite <- (Qcplus_0_r b), <- E. ring. Qed.
Lemma ratios_eq l : nV l <> numSinks l -> nV l <> 1%Qc ->
  ratios l = if Qc_eq_dec (den l) 0 then None else Some ((globalLatent l / DAMP - numSinks l) / (nV l - numSinks l), quota l, (nV l - numSinks l) / (nV l - 1), geom l)%Qc.
Proof.
  intros H1 H2. unfold ratios. rewrite !dv_ok by by apply minus_nz.
  assert (E : (1 - DAMP * (1 / (nV l - 1) * (numSinks l - 1) + (nV l - numSinks l) / (nV l - 1) * ((globalLatent l / DAMP - numSinks l) / (nV l - numSinks l))))%Qc = den l).
  { unfold den, quota. field. repeat split; [by apply minus_nz|exact damp_nz|by apply minus_nz]. }
  rewrite E. unfold dv. by destruct (Qc_eq_dec (den l) 0).
Qed.
Lemma ratios_some l q : ratios l = Some q -> nV l <> numSinks l /\ nV l <> 1%Qc /\ den l <> 0%Qc.
Proof.
  intros H. assert (H1 : nV l <> numSinks l /\ nV l <> 1%Qc).
  { unfold ratios in H. destruct (dv _ (nV l - numSinks l)) eqn:E1; [|done]. destruct (dv 1 (nV l - 1)) eqn:E2; [|done].
    apply dv_some in E1. apply dv_some in E2. destruct E1 as [E1 _], E2 as [E2 _]. split; intros E; [apply E1|apply E2]; rewrite E; ring. }
  split; [apply H1|]. split; [apply H1|]. rewrite ratios_eq in H by apply H1. by destruct (Qc_eq_dec (den l) 0).
Qed.

Lemma sink_alg (d m S k V a D : Qc) : (d <> 0 -> 1 - d <> 0 -> S <> 0 -> V <> k -> V <> 1 -> V <> 0 -> D <> 0 -> S * d / (1 - d) / d <> k -> a = 1 / (V - 1) ->
  (m + (1 - d) * (S * d / (1 - d) / D) * (a * (1 - m * (d / (1 - d)) / (S * d / (1 - d))) + (V - k) / (V - 1) * ((S * d / (1 - d) / d - k) / (V - k)) * ((m * (d / (1 - d)) / d - 1) / (S * d / (1 - d) / d - k)))) / V
  = m * (1 + a * (S * d / (1 - d) / D) * (1 - (1 - d) / S)) / V)%Qc.
Proof.
  intros Hd Hd' HS Hk H1 HV HD HL ->. pose proof (minus_nz _ _ Hk) as Hk'. pose proof (minus_nz _ _ H1) as H1'.
  assert (E : (S * d / (1 - d) / d = S / (1 - d))%Qc) by (field; auto). rewrite !E in *. pose proof (minus_nz _ _ HL) as HL'.
  set (q := ((V - k) / (V - 1) * ((S / (1 - d) - k) / (V - k)) * ((m * (d / (1 - d)) / d - 1) / (S / (1 - d) - k)))%Qc).
  assert (Eq : q = ((m / (1 - d) - 1) / (V - 1))%Qc).
  { unfold q. set (z := (S / (1 - d) - k)%Qc) in *. clearbody z. field. repeat split; auto. }
  rewrite Eq. field. repeat split; auto.
Qed.

(** When the passes go through, and what they make of each mass. *)
Definition smooth (l : list fin) : Prop :=
  nV l <> numSinks l /\ nV l <> 1%Qc /\ den l <> 0%Qc /\ nonSinkSum l <> 0%Qc /\ nV l <> 0%Qc /\
  ((exists x, In x l /\ sink x = true /\ mass1 x <> 0%Qc) -> globalLatent l <> 0%Qc /\ globalLatent l / DAMP <> numSinks l)%Qc.
Definition scaled (l : list fin) (x : fin) : Qc * Qc := (flow1 x, mass1 x * (if sink x then cS l else cN l) / nV l)%Qc.

Lemma latent_eq l : globalLatent l = (sinkSum l * DAMP / (1 - DAMP))%Qc.
Proof. unfold globalLatent. field. exact one_damp_nz. Qed.
Lemma latent_sum l : globalLatent l <> 0%Qc -> sinkSum l <> 0%Qc.
Proof. intros H E. apply H. unfold globalLatent. rewrite E. ring. Qed.

Lemma finish_smooth l : smooth l -> finish l = Some (map (scaled l) l).
Proof.
  intros (H1 & H2 & H3 & H4 & H5 & H6). unfold finish. rewrite ratios_eq by done. destruct (Qc_eq_dec (den l) 0) as [|_]; [done|].
  assert (Ha : forall x, In x l -> adjust l ((globalLatent l / DAMP - numSinks l) / (nV l - numSinks l), quota l, (nV l - numSinks l) / (nV l - 1), geom l)%Qc x = Some (scaled l x)).
  { intros x Hx. unfold adjust, scaled. destruct (sink x) eqn:Es.
    - destruct (Qc_eq_dec (mass1 x) 0) as [E|E]; [rewrite E; do 2 f_equal; unfold Qcdiv; ring|].
      destruct H6 as [H6 H7]; [by exists x|]. rewrite (dv_ok _ _ (minus_nz _ _ H7)), (dv_ok _ _ H6), (dv_ok _ _ H5). do 2 f_equal. unfold cS, geom. pose proof (latent_sum l H6) as H8. rewrite latent_eq in H7 |- *.
      apply sink_alg; auto using one_damp_nz, damp_nz.
    - rewrite !dv_ok by done. do 2 f_equal. unfold cN, quota. set (g := geom l). set (L := globalLatent l). pose proof (minus_nz _ _ H1). pose proof (minus_nz _ _ H2). field. repeat split; auto using damp_nz. }
  clear H1 H2 H3 H4 H5 H6. set (q := _ : Qc * Qc * Qc * Qc) in Ha |- *. clearbody q. revert Ha. generalize (scaled l). generalize (adjust l q). intros f g Ha.
  induction l as [|x r IH]; cbn [map all_some]; [done|]. rewrite Ha by by left. rewrite IH; [done|]. intros y Hy. apply Ha. by right.
Qed.

Lemma nV_nz l : nV l <> numSinks l -> nV l <> 0%Qc.
Proof.
  intros H E. apply H. assert (E' : length l - length (List.filter gone l) = 0). { apply QcUtil.inj_eq. rewrite QcUtil.inj_0. exact E. }
  pose proof (counts l). unfold nV, numSinks. f_equal. lia.
Qed.
Lemma some_other l : nV l <> numSinks l -> exists x, In x l /\ sink x = false.
Proof.
  intros H. destruct (List.filter (fun x => negb (sink x)) l) as [|x r] eqn:E.
  - exfalso. apply (minus_nz _ _ H). rewrite others, E. apply QcUtil.inj_0.
  - exists x. assert (Hx : In x (List.filter (fun x => negb (sink x)) l)) by (rewrite E; by left). apply filter_In in Hx. destruct Hx as [Hx Hs]. split; [done|]. by apply negb_true_iff.
Qed.
Lemma finish_some l out : finish l = Some out -> smooth l.
Proof.
  unfold finish. destruct (ratios l) as [q|] eqn:Eq; [|done]. intros H. pose proof (ratios_some l q Eq) as (H1 & H2 & H3).
  assert (Ha : forall x, In x l -> exists y, adjust l q x = Some y).
  { intros x Hx. destruct (adjust l q x) as [y|] eqn:E; [by eexists|]. by rewrite (all_some_none _ _ _ Hx E) in H. }
  unfold smooth. do 3 (split; [done|]). split; [|split; [by apply nV_nz|]].
  - destruct (some_other l H1) as (x & Hx & Hs). destruct (Ha x Hx) as [y Hy]. unfold adjust in Hy. destruct q as [[[? ?] ?] ?]. rewrite Hs in Hy.
    destruct (dv (mass1 x) (nonSinkSum l)) eqn:E; [|done]. apply dv_some in E. apply E.
  - intros (x & Hx & Hs & Hm). destruct (Ha x Hx) as [y Hy]. unfold adjust in Hy. destruct q as [[[? ?] ?] ?]. rewrite Hs in Hy.
    destruct (Qc_eq_dec (mass1 x) 0) as [|_]; [done|]. destruct (dv _ (globalLatent l / DAMP - numSinks l)) eqn:E1; [|done]. destruct (dv _ (globalLatent l)) eqn:E2; [|done].
    apply dv_some in E1. apply dv_some in E2. split; [apply E2|]. intros E. apply (proj1 E1). rewrite E. ring.
Qed.
Lemma finish_eq l out : finish l = Some out -> out = map (scaled l) l.
Proof. intros H. pose proof (finish_smooth l (finish_some l out H)) as H'. rewrite H in H'. by injection H'. Qed.

Lemma total_alg (d V S N : Qc) : (d <> 0 -> 1 - d <> 0 -> V <> 1 -> N <> 0 -> 1 + d * (1 / (V - 1)) - 1 / (V - 1) * (S * d / (1 - d)) <> 0 ->
  N * (1 + 1 / (V - 1) * (V - S * d / (1 - d) / d) * (S * d / (1 - d) / (1 + d * (1 / (V - 1)) - 1 / (V - 1) * (S * d / (1 - d)))) / N) +
  S * (1 + 1 / (V - 1) * (S * d / (1 - d) / (1 + d * (1 / (V - 1)) - 1 / (V - 1) * (S * d / (1 - d)))) * (1 - (1 - d) / S)) = N + S / (1 - d))%Qc.
Proof.
  intros Hd Hd' H1 HN HD. pose proof (minus_nz _ _ H1) as H1'.
  assert (E : (1 + d * (1 / (V - 1)) - 1 / (V - 1) * (S * d / (1 - d)) = ((V - 1) * (1 - d) + d * (1 - d) - S * d) / ((V - 1) * (1 - d)))%Qc) by (field; auto).
  set (D := ((V - 1) * (1 - d) + d * (1 - d) - S * d)%Qc) in *.
  assert (HD' : D <> 0%Qc). { intros E'. apply HD. rewrite E, E'. unfold Qcdiv. ring. }
  rewrite E. destruct (Qc_eq_dec S 0) as [->|HS].
  - assert (E0 : ((0 : Qc) * d / (1 - d) = 0)%Qc) by (unfold Qcdiv; ring). rewrite !E0. unfold Qcdiv. ring.
  - replace V with ((D + S * d) / (1 - d) + 1 - d)%Qc by (unfold D; field; auto). assert (HV : ((D + S * d) / (1 - d) - d <> 0)%Qc).
    { intros E'. apply H1'. transitivity ((D + S * d) / (1 - d) - d)%Qc; [unfold D; field; auto|done]. }
    clearbody D. field. repeat split; auto.
    intros E'. assert (E1 : (D + S * d + (1 - d) - d * (1 - d) - (1 - d) = 0)%Qc) by exact E'. clear E'. apply HV. transitivity ((D + S * d - d * (1 - d)) / (1 - d))%Qc; [field; auto|]. replace (D + S * d - d * (1 - d))%Qc with 0%Qc; [unfold Qcdiv; ring|]. rewrite <- E1. ring.
Qed.

Lemma mass_total l out : finish l = Some out -> (nV l * lsum (map snd out) = nonSinkSum l + sinkSum l / (1 - DAMP))%Qc.
Proof.
  intros H. pose proof (finish_some l out H) as (H1 & H2 & H3 & H4 & H5 & H6). rewrite (finish_eq l out H). rewrite map_map. cbn [scaled snd].
  rewrite (lsum_split sink).
  rewrite (lsum_ext _ (fun x => (cS l / nV l) * mass1 x + 0)%Qc) by (intros x Hx; apply filter_In in Hx; destruct Hx as [_ ->]; field; done).
  rewrite (lsum_ext _ (fun x => (cN l / nV l) * mass1 x + 0)%Qc (List.filter (fun x => negb (sink x)) l)) by (intros x Hx; apply filter_In in Hx; destruct Hx as [_ Hx]; apply negb_true_iff in Hx; rewrite Hx; field; done).
  rewrite !lsum_linear, sinks_sum. change (lsum (map mass1 (List.filter (fun x => negb (sink x)) l))) with (nonSinkSum l).
  transitivity (nonSinkSum l * cN l + sinkSum l * cS l)%Qc; [field; done|]. unfold cN, cS, geom. unfold den in *. unfold quota in *. rewrite latent_eq in *. apply total_alg; auto using one_damp_nz, damp_nz.
Qed.
