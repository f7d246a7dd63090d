(** Proofs about the flags. *)
From Coq Require Import QArith Ascii String.
From Verif Require Import Base Helpers_RoundUp Helpers_RoundUp_Props Opts_Spec Opts_Model.
Open Scope Z_scope.

(** The options do what was asked. *)
Definition honours (o : options) (w : wish) : Prop :=
  init_threads o = Z.min 32 (w_threads w) /\ init_loaders o = w_loaders w /\
  (16384 * w_factor w * (32 / init_threads o) <= queue_size o < 2 * (16384 * w_factor w * (32 / init_threads o))) /\
  (exists k, queue_size o = 2 ^ k) /\
  TimestampPos o = w_ts_pos w /\ WeightPos o = w_weight_pos w /\ Dynamic o = w_dynamic w /\ Sync o = w_sync w /\
  (if LogTimeseries o then Some (TimeSeriesInterval o) else None) = w_series w /\
  InsertDeleteOnExpire o = w_window w /\ AsyncContinuationTime o = w_refine w.

(** The values of the flags for which nothing is lost in a conversion. *)
Definition sensible (f : flags) : Prop :=
  0 <= f_m f <= 44 /\ 1 <= f_t f < 2 ^ 32 /\ 1 <= f_tg f < 2 ^ 8 /\ 0 <= f_pt f < 2 ^ 7 /\ 0 <= f_pw f < 2 ^ 7 /\
  0 <= f_de f < 2 ^ 63 /\ 0 <= f_dt f <= 2 ^ 47 /\ 0 <= f_w f <= 2 ^ 47 /\ 0 <= f_refine f < 2 ^ 31.

Lemma u64_id z : 0 <= z < 2 ^ 64 -> u64 z = z.
Proof. intros H. unfold u64. by apply Z.mod_small. Qed.
Lemma u32_id z : 0 <= z < 2 ^ 32 -> u32 z = z.
Proof. intros H. unfold u32. by apply Z.mod_small. Qed.
Lemma u8_id z : 0 <= z < 2 ^ 8 -> u8 z = z.
Proof. intros H. unfold u8. by apply Z.mod_small. Qed.
Lemma i8_id z : 0 <= z < 2 ^ 7 -> i8 z = z.
Proof. intros H. unfold i8. rewrite Z.mod_small; lia. Qed.
Lemma i32_id z : 0 <= z < 2 ^ 31 -> i32 z = z.
Proof. intros H. unfold i32. rewrite Z.mod_small; lia. Qed.
Lemma i64_id z : 0 <= z < 2 ^ 63 -> i64 z = z.
Proof. intros H. unfold i64. rewrite Z.mod_small; lia. Qed.

Lemma panics f : flags_to_options f = None <->
  (w_sync (asked f) = true /\ w_dynamic (asked f) = true) \/ f_t f <= 0 \/ f_tg f <= 0.
Proof.
  unfold flags_to_options. cbn [asked w_sync w_dynamic].
  set (d := f_d f || _ || _ || _). set (s := f_s f || f_sprev f).
  destruct (s && d) eqn:E.
  - apply andb_true_iff in E as [-> ->]. split; [by left; split|done].
  - apply andb_false_iff in E.
    destruct (Z.leb_spec (f_t f) 0); [split; [by right; left|done]|].
    destruct (Z.leb_spec (f_tg f) 0); [split; [by right; right|done]|].
    split; [done|]. intros [[-> ->]|[?|?]]; [by destruct E|lia|lia].
Qed.

Lemma threads_range o : 0 <= NumThreads o -> 1 <= init_threads o <= 32.
Proof.
  intros H. unfold init_threads, THREAD_MAX.
  destruct (Z.eqb_spec (NumThreads o) 0); [lia|]. destruct (Z.ltb_spec (2 ^ 5) (NumThreads o)); lia.
Qed.

Lemma always f o : flags_to_options f = Some o ->
  (Sync o && Dynamic o = false) /\ 1 <= init_threads o <= 32 /\ 1 <= init_loaders o <= 255 /\
  0 <= TimeSeriesInterval o < 2 ^ 64 /\ (LogTimeseries o = true <-> TimeSeriesInterval o <> 0) /\
  (TimeseriesEdgeCount o = true -> LogTimeseries o = true \/ 2 ^ 63 <= f_de f).
Proof.
  unfold flags_to_options.
  set (d := f_d f || _ || _ || _). set (s := f_s f || f_sprev f).
  destruct (s && d) eqn:E; [done|].
  destruct (Z.leb_spec (f_t f) 0); [done|]. destruct (Z.leb_spec (f_tg f) 0); [done|].
  intros [= <-]. split; [done|].
  assert (Hi : 0 <= (if 0 <? f_de f then u64 (f_de f) else u64 (24 * 60 * 60 * u64 (f_dt f))) < 2 ^ 64).
  { destruct (0 <? f_de f); apply Z.mod_pos_bound; lia. }
  cbn [TimeSeriesInterval LogTimeseries TimeseriesEdgeCount].
  split; [|split; [|split; [done|split]]].
  - apply threads_range. cbn. apply Z.mod_pos_bound. lia.
  - unfold init_loaders. cbn [LoadThreads]. assert (0 <= u8 (f_tg f) < 2 ^ 8) by (apply Z.mod_pos_bound; lia).
    destruct (Z.eqb_spec (u8 (f_tg f)) 0); lia.
  - destruct (Z.ltb_spec 0 (if 0 <? f_de f then u64 (f_de f) else u64 (24 * 60 * 60 * u64 (f_dt f)))); split; try done; lia.
  - destruct (Z.ltb_spec 0 (f_de f)) as [Hd|]; [|done]. intros _.
    destruct (decide (2 ^ 63 <= f_de f)); [by right|left]. rewrite u64_id by lia. apply Z.ltb_lt. lia.
Qed.

Lemma round_up_spec i : 1 <= i <= 2 ^ 63 -> exists k, 0 <= k /\ round_up i = 2 ^ k /\ i <= 2 ^ k < 2 * i.
Proof.
  intros H. unfold round_up.
  destruct (C03_round_up_pow_least_power (Z.to_N i)) as (k & -> & Hk & Hle & Hmin); [lia..|].
  exists (Z.of_N k). split; [lia|]. rewrite N2Z.inj_pow. split; [done|]. split; [change (Z.of_N 2) with 2 in *|].
  - apply N2Z.inj_le in Hle. rewrite Z2N.id, N2Z.inj_pow in Hle by lia. done.
  - destruct (decide (k = 0)%N) as [->|Hk0]; [cbn; lia|].
    destruct (Z.lt_ge_cases (2 ^ Z.of_N k) (2 * i)) as [|Hge]; [done|]. exfalso.
    assert (Hp : 2 ^ Z.of_N k = 2 * 2 ^ Z.of_N (k - 1)%N).
    { replace (Z.of_N k) with (Z.succ (Z.of_N (k - 1)%N)) by lia. rewrite Z.pow_succ_r by lia. done. }
    assert (Hi : i <= 2 ^ Z.of_N (k - 1)%N) by lia.
    specialize (Hmin (k - 1)%N). assert (Hlt : (2 ^ (k - 1) < 2 ^ k)%N) by (apply N.pow_lt_mono_r; lia).
    assert ((Z.to_N i <= 2 ^ (k - 1))%N); [|lia].
    apply N2Z.inj_le. rewrite Z2N.id, N2Z.inj_pow by lia. done.
Qed.

Lemma round_up_zero : round_up 0 = 0.
Proof. reflexivity. Qed.

Lemma queue o : 1 <= NumThreads o -> 0 <= QueueMultiplier o <= 44 ->
  let want := 16384 * 2 ^ QueueMultiplier o * (32 / init_threads o) in
  want <= queue_size o < 2 * want /\ exists k, queue_size o = 2 ^ k.
Proof.
  intros Ht Hm want.
  assert (HT : 1 <= init_threads o <= 32) by (apply threads_range; lia).
  assert (Hq : 1 <= 32 / init_threads o <= 32).
  { split; [apply Z.div_le_lower_bound; lia|apply Z.div_le_upper_bound; lia]. }
  assert (Hpow : 1 <= 2 ^ QueueMultiplier o <= 2 ^ 44).
  { split; [change 1 with (2 ^ 0)|]; apply Z.pow_le_mono_r; lia. }
  unfold queue_size.
  assert (E : (if 0 <? QueueMultiplier o then i64 (BASE_SIZE * i64 (2 ^ QueueMultiplier o)) else BASE_SIZE) = 16384 * 2 ^ QueueMultiplier o).
  { unfold BASE_SIZE. destruct (Z.ltb_spec 0 (QueueMultiplier o)).
    - rewrite (i64_id (2 ^ _)) by lia. apply i64_id. lia.
    - replace (QueueMultiplier o) with 0 by lia. done. }
  rewrite E. clear E. change THREAD_MAX with 32. rewrite (u64_id (16384 * _)) by lia.
  fold want. assert (Hw : 1 <= want <= 2 ^ 63).
  { unfold want. change (2 ^ 63) with (16384 * 2 ^ 44 * 32). split; nia. }
  rewrite u64_id by lia. destruct (round_up_spec want Hw) as (k & Hk & -> & ?). split; [done|by exists k].
Qed.

Lemma honoured f : sensible f -> ~ (w_sync (asked f) = true /\ w_dynamic (asked f) = true) ->
  exists o, flags_to_options f = Some o /\ honours o (asked f).
Proof.
  intros (Hm & Ht & Htg & Hpt & Hpw & Hde & Hdt & Hw & Hr) Hno.
  destruct (flags_to_options f) as [o|] eqn:E; [|apply panics in E as [?|[?|?]]; [done|lia|lia]].
  exists o. split; [done|]. revert E Hno. unfold flags_to_options. cbn [asked w_sync w_dynamic].
  set (d := f_d f || _ || _ || _) in *. set (s := f_s f || f_sprev f) in *.
  destruct (s && d) eqn:Esd; [done|].
  destruct (Z.leb_spec (f_t f) 0); [lia|]. destruct (Z.leb_spec (f_tg f) 0); [lia|].
  intros [= E] _.
  assert (HT : NumThreads o = f_t f) by (subst o; apply u32_id; lia).
  assert (HM : QueueMultiplier o = f_m f) by (subst o; apply u8_id; lia).
  pose proof (queue o ltac:(lia) ltac:(lia)) as [Hq1 Hq2]. rewrite HM in Hq1.
  split; [|split; [|split; [|split; [|split; [|split; [|split; [|split; [|split; [|split]]]]]]]]].
  - cbn [asked w_threads]. unfold init_threads. rewrite HT. unfold THREAD_MAX.
    destruct (Z.eqb_spec (f_t f) 0); [lia|]. destruct (Z.ltb_spec (2 ^ 5) (f_t f)); lia.
  - cbn [asked w_loaders]. unfold init_loaders. subst o. cbn [LoadThreads]. rewrite u8_id by lia.
    destruct (Z.eqb_spec (f_tg f) 0); lia.
  - exact Hq1.
  - exact Hq2.
  - clear - E Hpt. subst o. cbn [TimestampPos asked w_ts_pos]. by apply i8_id.
  - clear - E Hpw. subst o. cbn [WeightPos asked w_weight_pos]. by apply i8_id.
  - by subst o.
  - by subst o.
  - subst o. cbn [LogTimeseries TimeSeriesInterval asked w_series]. unfold day.
    rewrite (u64_id (f_de f)), (u64_id (f_dt f)), (u64_id (24 * 60 * 60 * f_dt f)) by lia.
    destruct (Z.ltb_spec 0 (f_de f)) as [Hd|].
    + by rewrite (proj2 (Z.ltb_lt 0 (f_de f)) Hd).
    + destruct (Z.ltb_spec 0 (f_dt f)); destruct (Z.ltb_spec 0 (24 * 60 * 60 * f_dt f)); try done; lia.
  - subst o. cbn [InsertDeleteOnExpire asked w_window]. unfold day. rewrite (u64_id (f_w f)) by lia. apply u64_id. lia.
  - clear - E Hr. subst o. cbn [AsyncContinuationTime asked w_refine]. by apply i32_id.
Qed.

(** Negative numbers of days. *)
Lemma negative_days k : 0 < k <= 2 ^ 47 -> u64 (24 * 60 * 60 * u64 (- k)) = 2 ^ 64 - 86400 * k.
Proof.
  intros H. unfold u64. rewrite Z.mul_mod_idemp_r by lia.
  symmetry. apply (Z.mod_unique _ _ (-1)); lia.
Qed.

Lemma series_static f : f_d f = false -> (f_dr f <= 0)%Q -> f_de f <= 0 -> - 2 ^ 47 <= f_dt f < 0 -> 1 <= f_t f -> 1 <= f_tg f ->
  exists o, flags_to_options f = Some o /\ Dynamic o = false /\ LogTimeseries o = true /\
    TimeSeriesInterval o = 2 ^ 64 - 86400 * (- f_dt f).
Proof.
  intros Hd Hdr Hde Hdt Ht Htg. unfold flags_to_options. rewrite Hd.
  destruct (Qlt_le_dec 0 (f_dr f)) as [Hlt|_]; [by apply Qlt_not_le in Hlt|].
  destruct (Z.ltb_spec 0 (f_de f)); [lia|]. destruct (Z.ltb_spec 0 (f_dt f)); [lia|].
  cbn [orb]. rewrite andb_false_r. destruct (Z.leb_spec (f_t f) 0); [lia|]. destruct (Z.leb_spec (f_tg f) 0); [lia|].
  eexists. split; [done|]. cbn [Dynamic LogTimeseries TimeSeriesInterval].
  pose proof (negative_days (- f_dt f) ltac:(lia)) as E. rewrite Z.opp_involutive in E. rewrite E.
  split; [done|]. split; [|done]. apply Z.ltb_lt. lia.
Qed.

Lemma window_back f o t : flags_to_options f = Some o -> - 2 ^ 47 <= f_w f < 0 -> 86400 * (- f_w f) <= t < 2 ^ 64 ->
  u64 (t + InsertDeleteOnExpire o) = t - 86400 * (- f_w f).
Proof.
  intros E Hw Ht.
  assert (HI : InsertDeleteOnExpire o = 2 ^ 64 - 86400 * (- f_w f)).
  { revert E. unfold flags_to_options. set (d := f_d f || _ || _ || _). set (s := f_s f || f_sprev f).
    destruct (s && d); [done|]. destruct (f_t f <=? 0); [done|]. destruct (f_tg f <=? 0); [done|].
    intros [= <-]. cbn [InsertDeleteOnExpire].
    pose proof (negative_days (- f_w f) ltac:(lia)) as E. by rewrite Z.opp_involutive in E. }
  rewrite HI. unfold u64. symmetry. apply (Z.mod_unique _ _ 1); lia.
Qed.

(** Numbers that are too large. *)
Lemma too_many f o n : flags_to_options f = Some o -> 
  (f_tg f = 256 * n -> init_loaders o = 1) /\ (f_t f = 2 ^ 32 * n -> init_threads o = 1) /\
  (f_pt f = 256 * n -> TimestampPos o = 0) /\ (f_pt f = 128 -> TimestampPos o = -128).
Proof.
  unfold flags_to_options. set (d := f_d f || _ || _ || _). set (s := f_s f || f_sprev f).
  destruct (s && d); [done|]. destruct (f_t f <=? 0); [done|]. destruct (f_tg f <=? 0); [done|].
  intros [= <-]. unfold init_loaders, init_threads. cbn [LoadThreads NumThreads TimestampPos].
  split; [|split; [|split]].
  - intros ->. unfold u8. rewrite Z.mul_comm, Z_mod_mult. done.
  - intros ->. unfold u32. rewrite Z.mul_comm, Z_mod_mult. done.
  - intros ->. unfold i8. rewrite Z.add_comm, Z.mul_comm, Z_mod_plus_full. done.
  - intros ->. done.
Qed.

Lemma queue_zero o : 50 <= QueueMultiplier o <= 255 -> queue_size o = 0.
Proof.
  intros H. unfold queue_size.
  destruct (Z.ltb_spec 0 (QueueMultiplier o)); [|lia].
  assert (E : i64 (BASE_SIZE * i64 (2 ^ QueueMultiplier o)) = 0).
  { assert (Hz : exists c, i64 (2 ^ QueueMultiplier o) = 2 ^ 50 * c).
    { exists (2 ^ (QueueMultiplier o - 50) - 2 ^ 14 * ((2 ^ QueueMultiplier o + 2 ^ 63) / 2 ^ 64)).
      unfold i64. rewrite Z.mod_eq by lia.
      replace (2 ^ QueueMultiplier o) with (2 ^ 50 * 2 ^ (QueueMultiplier o - 50)) at 1
        by (rewrite <- Z.pow_add_r by lia; f_equal; lia).
      change (2 ^ 64) with (2 ^ 50 * 2 ^ 14). lia. }
    destruct Hz as [c ->]. unfold i64, BASE_SIZE.
    replace (4096 * 4 * (2 ^ 50 * c) + 2 ^ 63) with (2 ^ 63 + c * 2 ^ 64) by lia.
    rewrite Z_mod_plus_full. done. }
  rewrite E. reflexivity.
Qed.

Lemma queue_none f o : flags_to_options f = Some o -> 50 <= f_m f <= 255 \/ -206 <= f_m f < 0 -> queue_size o = 0.
Proof.
  intros E H. apply queue_zero. revert E.
  unfold flags_to_options. set (d := f_d f || _ || _ || _). set (s := f_s f || f_sprev f).
  destruct (s && d); [done|]. destruct (f_t f <=? 0); [done|]. destruct (f_tg f <=? 0); [done|].
  intros [= <-]. cbn [QueueMultiplier]. destruct H as [H|H].
  - rewrite u8_id; lia.
  - unfold u8. replace (f_m f mod 2 ^ 8) with (f_m f + 256); [lia|]. apply (Z.mod_unique _ _ (-1)); lia.
Qed.

(** Names. *)
Lemma split_cons c s : exists w ws, split c s = w :: ws.
Proof.
  induction s as [|x s [w [ws IH]]]; cbn; [by eexists _, _|].
  destruct (Ascii.eqb x c); [by eexists _, _|]. rewrite IH. by eexists _, _.
Qed.
Lemma split_none c s : ~ In c s -> split c s = [s].
Proof.
  induction s as [|x s IH]; intros H; [done|]. cbn.
  destruct (Ascii.eqb_spec x c) as [->|]; [destruct H; by left|].
  rewrite IH; [done|]. intros ?. apply H. by right.
Qed.
Lemma split_first c a s : ~ In c a -> split c (a ++ c :: s) = a :: split c s.
Proof.
  induction a as [|x a IH]; intros H; cbn.
  - by rewrite Ascii.eqb_refl.
  - destruct (Ascii.eqb_spec x c) as [->|]; [destruct H; by left|].
    rewrite IH; [done|]. intros ?. apply H. by right.
Qed.
Lemma split_last c d s : ~ In c s -> exists l, split c (d ++ c :: s) = l ++ [s].
Proof.
  intros H. induction d as [|x d [l IH]]; cbn.
  - rewrite Ascii.eqb_refl, split_none by done. by exists [[]].
  - destruct (Ascii.eqb x c).
    + rewrite IH. by exists ([] :: l).
    + rewrite IH. destruct l as [|w l]; cbn; [|by exists ((x :: w) :: l)].
      exfalso. revert IH. clear - H. intros IH.
      assert (Hl : (2 <= length (split c (d ++ c :: s)))%nat); [|rewrite IH in Hl; cbn in Hl; lia].
      clear IH. induction d as [|y d IH]; cbn.
      * rewrite Ascii.eqb_refl, split_none by done. cbn. lia.
      * destruct (Ascii.eqb y c); cbn; [lia|]. destruct (split c (d ++ c :: s)) eqn:E; cbn in *; lia.
Qed.
Lemma nth_last {A} (l : list A) x d : nth (length (l ++ [x]) - 1) (l ++ [x]) d = x.
Proof.
  rewrite app_length. cbn. replace (length l + 1 - 1)%nat with (length l) by lia.
  rewrite app_nth2 by lia. by rewrite Nat.sub_diag.
Qed.

Definition in_dir (dir : option (list ascii)) (s : list ascii) : list ascii :=
  match dir with Some d => d ++ "/"%char :: s | None => s end.
Lemma main_part dir s : ~ In "/"%char s ->
  nth (length (split "/"%char (in_dir dir s)) - 1) (split "/"%char (in_dir dir s)) [] = s.
Proof.
  intros H. destruct dir as [d|]; cbn [in_dir].
  - destruct (split_last "/"%char d s H) as [l ->]. apply nth_last.
  - rewrite split_none by done. done.
Qed.

Lemma name_two dir base ext : plain base -> plain ext ->
  pathless_name (in_dir dir (base ++ "."%char :: ext)) = base.
Proof.
  intros [Hb1 Hb2] [He1 He2]. unfold pathless_name. rewrite main_part.
  - rewrite split_first, (split_none _ ext) by done. done.
  - intros [?|[?|?]%in_inv]%in_app_or; [by apply Hb1|done|by apply He1].
Qed.
Lemma name_one dir base : plain base -> pathless_name (in_dir dir base) = base.
Proof.
  intros [Hb1 Hb2]. unfold pathless_name. rewrite main_part by done. rewrite split_none by done. done.
Qed.
Lemma name_many dir pre base ext : ~ In "/"%char pre -> plain base -> plain ext ->
  pathless_name (in_dir dir (pre ++ "."%char :: base ++ "."%char :: ext)) = base.
Proof.
  intros Hp [Hb1 Hb2] [He1 He2]. unfold pathless_name. rewrite main_part.
  - assert (Hs : exists l, split "."%char (pre ++ "."%char :: base ++ "."%char :: ext) = l ++ [base; ext]).
    { induction pre as [|x pre IH]; cbn.
      - rewrite split_first, (split_none _ ext) by done. by exists [[]].
      - destruct IH as [l IH]; [intros ?; apply Hp; by right|].
        destruct (Ascii.eqb x "."); rewrite IH; [by exists ([] :: l)|].
        destruct l as [|w l]; cbn; [|by exists ((x :: w) :: l)].
        exfalso. clear - IH Hb2 He2.
        assert (Hl : (3 <= length (split "."%char (pre ++ "."%char :: base ++ "."%char :: ext)))%nat); [|rewrite IH in Hl; cbn in Hl; lia].
        clear IH. induction pre as [|y pre IH]; cbn.
        + rewrite split_first, (split_none _ ext) by done. cbn. lia.
        + destruct (Ascii.eqb y "."); cbn; [lia|].
          destruct (split "." (pre ++ "."%char :: base ++ "."%char :: ext)) eqn:E; cbn in *; lia. }
    destruct Hs as [l ->]. rewrite app_length. cbn [length].
    destruct (Nat.ltb_spec 1 (length l + 2)); [|lia].
    rewrite app_nth2 by lia. by replace (length l + 2 - 2 - length l)%nat with 0%nat by lia.
  - intros [?|[?|[?|[?|?]%in_inv]%in_app_or]%in_inv]%in_app_or; [by apply Hp|done|by apply Hb1|done|by apply He1].
Qed.
