(** C96, single producer: RingBuffSPSC compares its counters with < and <=, so it only works until they wrap. *)
From Verif Require Import Base Helpers_RoundUp Ring_Spec SPSC_Model SPSC_Proofs SPSC_Props WrapS_Model WrapS_Proofs.
Open Scope N_scope.
Local Opaque N.add N.sub N.ltb N.leb N.pow N.modulo N.ones N.land N.eqb.

(** Up to 2^64 - size items the queue with words is the queue with unbounded counters, so C10 and C11 hold for it. *)
Theorem C96_spsc_same {T} (junk : T) n pr cr sched : 2 <= n -> n <= 2 ^ 63 ->
  let s := spsc_run n junk pr cr sched in
  N.of_nat (length (puts (log s))) + round_up_pow n <= 2 ^ 64 -> wrun (round_up_pow n - 1) (spsc_init junk pr cr) sched = s.
Proof.
  intros H1 H2 s Hl. unfold s, spsc_run in *. destruct (spsc_mask n ltac:(lia) H2) as (k & Hk & Hm & Hs). rewrite Hm in *. rewrite Hs in Hl. clear s.
  eapply (same_run k Hk sched _ []).
  - destruct (N.eq_dec k 0) as [-> |]; [|lia]. exfalso. destruct (Helpers_RoundUp_Props.C03_round_up_pow_least_power n ltac:(lia) H2) as (k' & E & _ & Hle & _). rewrite <- E, Hs in Hle. change (2 ^ 0) with 1 in Hle. lia.
  - by apply inv_init.
  - assert (C : counted (run (N.ones k) (spsc_init junk pr cr) sched)) by (by apply counted_run). unfold counted in C. by rewrite C.
Qed.

Lemma wrun_app {T} mask (s : rb T) a b : wrun mask s (a ++ b) = wrun mask (wrun mask s a) b.
Proof. apply fold_left_app. Qed.
Lemma wrun_cons {T} mask (s : rb T) b l : wrun mask s (b :: l) = wrun mask (if b then wpstep mask s else wcstep mask s) l.
Proof. reflexivity. Qed.

Section stops.
  Context {T : Type} (k : N) (Hk : 1 <= k) (Hk2 : k < 64) (v : T).
  Notation mask := (N.ones k).
  Notation size := (2 ^ k).
  Implicit Types s : rb T.
  Definition level s (n : N) pr cr : Prop := enqueue s = n /\ dequeue s = n /\ deqEnqCache s = n /\ pp s = PIdle /\ cp s = CIdle /\ pprog s = pr /\ cprog s = cr /\ puts (log s) = gots (log s).
  Definition round : list bool := [true; true; true; true; false; false; false; false].
  (** The steps, one by one. *)
  Lemma w_space s r : pp s = PIdle -> pprog s = Space :: r -> exists x, wpstep mask s = with_p s (enqueue s) (dequeue s) (entries s) (status s) PIdle r [ESpace x] /\ x = word (word (dequeue s + mask) + 2 ^ 64 - enqueue s).
  Proof. intros H1 H2. eexists. split; [|reflexivity]. unfold wpstep. rewrite H1, H2. reflexivity. Qed.
  Lemma w_offer s r b : pp s = PIdle -> pprog s = Offer v :: r -> (word (enqDeqCache s + mask) <? enqueue s) = b ->
    wpstep mask s = with_p s (enqueue s) (enqDeqCache s) (entries s) (status s) (if b then PLoad false v else PWrite v) r [].
  Proof. intros H1 H2 <-. unfold wpstep. rewrite H1, H2. reflexivity. Qed.
  Lemma w_put s r b : pp s = PIdle -> pprog s = Put v :: r -> (word (enqDeqCache s + mask) <? enqueue s) = b ->
    wpstep mask s = with_p s (enqueue s) (enqDeqCache s) (entries s) (status s) (if b then PLoad true v else PWrite v) r [].
  Proof. intros H1 H2 <-. unfold wpstep. rewrite H1, H2. reflexivity. Qed.
  Lemma w_load s slow : pp s = PLoad slow v -> (enqueue s <=? word (dequeue s + mask)) = false ->
    wpstep mask s = if slow then with_p s (enqueue s) (dequeue s) (entries s) (status s) (PSlow v) (pprog s) [] else with_p s (enqueue s) (dequeue s) (entries s) (status s) PIdle (pprog s) [EFull v].
  Proof. intros H1 H2. unfold wpstep. rewrite H1. cbv zeta. rewrite H2. reflexivity. Qed.
  Lemma w_write s : pp s = PWrite v -> wpstep mask s = with_p s (enqueue s) (enqDeqCache s) (fun j => if j =? N.land (enqueue s) mask then v else entries s j) (status s) (PStore v) (pprog s) [].
  Proof. intros H1. unfold wpstep. rewrite H1. reflexivity. Qed.
  Lemma w_store s : pp s = PStore v -> wpstep mask s = with_p s (word (enqueue s + 1)) (enqDeqCache s) (entries s) (status s) PIdle (pprog s) [EPut v].
  Proof. intros H1. unfold wpstep. rewrite H1. reflexivity. Qed.
  Lemma w_avail s r : cp s = CIdle -> cprog s = Avail :: r -> exists x, wcstep mask s = with_c s (dequeue s) (enqueue s) CIdle r [EAvail x].
  Proof. intros H1 H2. eexists. unfold wcstep. rewrite H1, H2. reflexivity. Qed.
  Lemma w_accept s r : cp s = CIdle -> cprog s = Accept :: r -> (deqEnqCache s <=? dequeue s) = false -> wcstep mask s = with_c s (dequeue s) (deqEnqCache s) CRead r [].
  Proof. intros H1 H2 H3. unfold wcstep. rewrite H1, H2. cbv zeta. rewrite H3. reflexivity. Qed.
  Lemma w_read s : cp s = CRead -> wcstep mask s = with_c s (dequeue s) (deqEnqCache s) (CStore (entries s (N.land (dequeue s) mask))) (cprog s) [].
  Proof. intros H1. unfold wcstep. rewrite H1. reflexivity. Qed.
  Lemma w_got s x : cp s = CStore x -> wcstep mask s = with_c s (word (dequeue s + 1)) (deqEnqCache s) CIdle (cprog s) [EGot x].
  Proof. intros H1. unfold wcstep. rewrite H1. reflexivity. Qed.
  Lemma puts_with s l : puts (log s ++ l) = puts (log s) ++ puts l.
  Proof. apply puts_app. Qed.
  Lemma gots_with s l : gots (log s ++ l) = gots (log s) ++ gots l.
  Proof. apply flat_map_app. Qed.
  Ltac fields E := repeat match goal with |- _ /\ _ => split end; rewrite E; unfold with_p, with_c; cbn [enqueue dequeue enqDeqCache deqEnqCache entries status pp pprog cp cprog log];
    rewrite ?puts_with, ?gots_with; cbn [puts gots flat_map app]; rewrite ?app_nil_r; try reflexivity; try congruence.

  Lemma put_one s n pr : enqueue s = n -> dequeue s = n -> pp s = PIdle -> pprog s = Space :: Offer v :: pr -> n + size <= 2 ^ 64 ->
    let s' := wpstep mask (wpstep mask (wpstep mask (wpstep mask s))) in
    enqueue s' = n + 1 /\ dequeue s' = n /\ pp s' = PIdle /\ pprog s' = pr /\ cp s' = cp s /\ cprog s' = cprog s /\ entries s' (N.land n mask) = v /\
    puts (log s') = puts (log s) ++ [v] /\ gots (log s') = gots (log s).
  Proof.
    intros A1 A2 A3 A4 Hn. pose proof (ones_lt k Hk2). assert (2 <= size) by (change 2 with (2 ^ 1) at 1; apply N.pow_le_mono_r; lia).
    cbv zeta. set (s1 := wpstep mask s). assert (H1 : enqueue s1 = n /\ dequeue s1 = n /\ enqDeqCache s1 = n /\ pp s1 = PIdle /\ pprog s1 = Offer v :: pr /\ cp s1 = cp s /\ cprog s1 = cprog s /\ puts (log s1) = puts (log s) /\ gots (log s1) = gots (log s)).
    { destruct (w_space s _ A3 A4) as (x & E & _). unfold s1. fields E. }
    clearbody s1. destruct H1 as (B1&B2&B3&B4&B5&B6&B7&B8&B9). set (s2 := wpstep mask s1).
    assert (H2 : enqueue s2 = n /\ dequeue s2 = n /\ pp s2 = PWrite v /\ pprog s2 = pr /\ cp s2 = cp s /\ cprog s2 = cprog s /\ puts (log s2) = puts (log s) /\ gots (log s2) = gots (log s)).
    { assert (E : (word (enqDeqCache s1 + mask) <? enqueue s1) = false). { rewrite B1, B3, word_small by lia. apply N.ltb_ge. lia. }
      pose proof (w_offer s1 _ _ B4 B5 E) as E'. unfold s2. fields E'. }
    clearbody s2. clear s1 B1 B2 B3 B4 B5 B6 B7 B8 B9. destruct H2 as (B1&B2&B3&B4&B5&B6&B7&B8). set (s3 := wpstep mask s2).
    assert (H3 : enqueue s3 = n /\ dequeue s3 = n /\ pp s3 = PStore v /\ pprog s3 = pr /\ cp s3 = cp s /\ cprog s3 = cprog s /\ entries s3 (N.land n mask) = v /\ puts (log s3) = puts (log s) /\ gots (log s3) = gots (log s)).
    { pose proof (w_write s2 B3) as E. unfold s3. fields E. rewrite B1, N.eqb_refl. reflexivity. }
    clearbody s3. clear s2 B1 B2 B3 B4 B5 B6 B7 B8. destruct H3 as (B1&B2&B3&B4&B5&B6&B7&B8&B9).
    pose proof (w_store s3 B3) as E. rewrite B1, word_small in E by lia. fields E.
  Qed.
  Lemma got_one s n cr : enqueue s = n + 1 -> dequeue s = n -> cp s = CIdle -> cprog s = Avail :: Accept :: cr -> n + size <= 2 ^ 64 -> entries s (N.land n mask) = v ->
    let s' := wcstep mask (wcstep mask (wcstep mask (wcstep mask s))) in
    enqueue s' = n + 1 /\ dequeue s' = n + 1 /\ deqEnqCache s' = n + 1 /\ cp s' = CIdle /\ cprog s' = cr /\ pp s' = pp s /\ pprog s' = pprog s /\
    puts (log s') = puts (log s) /\ gots (log s') = gots (log s) ++ [v].
  Proof.
    intros A1 A2 A3 A4 Hn A5. pose proof (ones_lt k Hk2). assert (2 <= size) by (change 2 with (2 ^ 1) at 1; apply N.pow_le_mono_r; lia).
    cbv zeta. set (s1 := wcstep mask s). assert (H1 : enqueue s1 = n + 1 /\ dequeue s1 = n /\ deqEnqCache s1 = n + 1 /\ cp s1 = CIdle /\ cprog s1 = Accept :: cr /\ pp s1 = pp s /\ pprog s1 = pprog s /\ entries s1 = entries s /\ puts (log s1) = puts (log s) /\ gots (log s1) = gots (log s)).
    { destruct (w_avail s _ A3 A4) as (x & E). unfold s1. fields E. }
    clearbody s1. destruct H1 as (B1&B2&B3&B4&B5&B6&B7&B10&B8&B9). set (s2 := wcstep mask s1).
    assert (H2 : enqueue s2 = n + 1 /\ dequeue s2 = n /\ deqEnqCache s2 = n + 1 /\ cp s2 = CRead /\ cprog s2 = cr /\ pp s2 = pp s /\ pprog s2 = pprog s /\ entries s2 = entries s /\ puts (log s2) = puts (log s) /\ gots (log s2) = gots (log s)).
    { assert (E : (deqEnqCache s1 <=? dequeue s1) = false). { rewrite B2, B3. apply N.leb_gt. lia. }
      pose proof (w_accept s1 _ B4 B5 E) as E'. unfold s2. fields E'. }
    clearbody s2. clear s1 B1 B2 B3 B4 B5 B6 B7 B8 B9 B10. destruct H2 as (B1&B2&B3&B4&B5&B6&B7&B10&B8&B9). set (s3 := wcstep mask s2).
    assert (H3 : enqueue s3 = n + 1 /\ dequeue s3 = n /\ deqEnqCache s3 = n + 1 /\ cp s3 = CStore v /\ cprog s3 = cr /\ pp s3 = pp s /\ pprog s3 = pprog s /\ puts (log s3) = puts (log s) /\ gots (log s3) = gots (log s)).
    { pose proof (w_read s2 B4) as E. rewrite B10, B2, A5 in E. unfold s3. fields E. }
    clearbody s3. clear s2 B1 B2 B3 B4 B5 B6 B7 B8 B9 B10. destruct H3 as (B1&B2&B3&B4&B5&B6&B7&B8&B9).
    pose proof (w_got s3 _ B4) as E. rewrite B2, word_small in E by lia. fields E.
  Qed.
  Lemma round_step s n pr cr : level s n (Space :: Offer v :: pr) (Avail :: Accept :: cr) -> n + size <= 2 ^ 64 -> level (wrun mask s round) (n + 1) pr cr.
  Proof.
    intros (A1&A2&A3&A4&A5&A6&A7&A8) Hn. destruct (put_one s n pr A1 A2 A4 A6 Hn) as (B1&B2&B3&B4&B5&B6&B7&B8&B9).
    change (wrun mask s round) with (wcstep mask (wcstep mask (wcstep mask (wcstep mask (wpstep mask (wpstep mask (wpstep mask (wpstep mask s)))))))).
    set (s1 := wpstep mask (wpstep mask (wpstep mask (wpstep mask s)))) in *. clearbody s1. rewrite A5 in B5. rewrite A7 in B6.
    destruct (got_one s1 n cr B1 B2 B5 B6 Hn B7) as (C1&C2&C3&C4&C5&C6&C7&C8&C9). set (s2 := wcstep mask (wcstep mask (wcstep mask (wcstep mask s1)))) in *. clearbody s2.
    unfold level. split_and!; congruence.
  Qed.
  Lemma rounds m : forall s n pr cr, level s n (concat (repeat [Space; Offer v] m) ++ pr) (concat (repeat [Avail; Accept] m) ++ cr) -> n + N.of_nat m + size <= 2 ^ 64 + 1 ->
    level (wrun mask s (concat (repeat round m))) (n + N.of_nat m) pr cr.
  Proof.
    induction m as [|m IH]; intros s n pr cr H Hn. { cbn in *. by rewrite N.add_0_r. }
    cbn [repeat concat]. rewrite wrun_app. replace (n + N.of_nat (S m)) with (n + 1 + N.of_nat m) by lia. apply IH; [|lia]. apply round_step; [exact H|lia].
  Qed.
  (** Empty, and a put that waits for room. *)
  Definition stuck s (n : N) : Prop := enqueue s = n /\ dequeue s = n /\ deqEnqCache s <= n /\ pp s = PSlow v /\ match cp s with CRead | CStore _ => False | _ => True end.
  Lemma stuck_step s b : stuck s (2 ^ 64 - mask) -> stuck (if b : bool then wpstep mask s else wcstep mask s) (2 ^ 64 - mask) /\
    puts (log (if b : bool then wpstep mask s else wcstep mask s)) = puts (log s).
  Proof.
    intros (A1&A2&A3&A4&A5). pose proof (ones_lt k Hk2). assert (2 <= size) by (change 2 with (2 ^ 1) at 1; apply N.pow_le_mono_r; lia).
    assert (size < 2 ^ 64) by (apply N.pow_lt_mono_r; lia).
    assert (Hw : word (2 ^ 64 - mask + mask) = 0). { replace (2 ^ 64 - mask + mask) with (2 ^ 64) by lia. by apply N.mod_same. }
    assert (Hp : forall l, puts (log s ++ l) = puts (log s) ++ puts l) by (intros; apply puts_app).
    destruct b.
    - unfold wpstep. rewrite A4. cbv zeta. rewrite A1, A2, Hw. destruct (N.leb_spec (2 ^ 64 - mask) 0) as [|_]; [lia|]. unfold stuck. cbn -[puts]. rewrite Hp. cbn. rewrite app_nil_r. done.
    - unfold wcstep. destruct (cp s) as [|slow| | | |w] eqn:Ec; try done.
      + destruct (cprog s) as [|[] r] eqn:Er; cbv zeta.
        * unfold stuck. rewrite Ec. done.
        * rewrite A2. destruct (N.leb_spec (deqEnqCache s) (2 ^ 64 - mask)); [|lia]. unfold stuck. cbn -[puts]. rewrite Hp. cbn. rewrite app_nil_r. done.
        * rewrite A2. destruct (N.leb_spec (deqEnqCache s) (2 ^ 64 - mask)); [|lia]. unfold stuck. cbn -[puts]. rewrite Hp. cbn. rewrite app_nil_r. done.
        * unfold stuck. cbn -[puts]. rewrite Hp, A1. cbn. rewrite app_nil_r. split_and!; try done; lia.
      + cbv zeta. rewrite A1, A2. rewrite N.ltb_irrefl. destruct slow; unfold stuck; cbn -[puts]; rewrite Hp; cbn; rewrite app_nil_r; split_and!; try done; lia.
      + cbv zeta. rewrite A1, A2. rewrite N.ltb_irrefl. unfold stuck; cbn -[puts]; rewrite Hp; cbn; rewrite app_nil_r; split_and!; try done; lia.
      + destruct (status s); unfold stuck; cbn -[puts]; rewrite Hp; cbn; rewrite app_nil_r; split_and!; try done; lia.
  Qed.
  Lemma stuck_run sched : forall s, stuck s (2 ^ 64 - mask) -> stuck (wrun mask s sched) (2 ^ 64 - mask) /\ puts (log (wrun mask s sched)) = puts (log s).
  Proof.
    induction sched as [|b sched IH]; intros s H; [split; [exact H|reflexivity]|]. rewrite wrun_cons. destruct (stuck_step s b H) as [H1 H2].
    set (s1 := if b then _ else _) in *. clearbody s1. destruct (IH _ H1) as [H3 H4]. split; [exact H3|]. rewrite H4. exact H2.
  Qed.
  Lemma last_steps s cr : enqueue s = 2 ^ 64 - mask -> dequeue s = 2 ^ 64 - mask -> deqEnqCache s = 2 ^ 64 - mask -> pp s = PIdle -> cp s = CIdle -> pprog s = [Space; Offer v; Put v] -> cprog s = cr ->
    let s' := wrun mask s [true; true; true; true; true] in log s' = log s ++ [ESpace (word (0 + 2 ^ 64 - (2 ^ 64 - mask))); EFull v] /\ stuck s' (2 ^ 64 - mask).
  Proof.
    intros A1 A2 A3 A4 A5 A6 A7. pose proof (ones_lt k Hk2). assert (size < 2 ^ 64) by (apply N.pow_lt_mono_r; lia).
    assert (Hw : word (2 ^ 64 - mask + mask) = 0). { replace (2 ^ 64 - mask + mask) with (2 ^ 64) by lia. apply N.mod_same. lia. }
    cbv zeta. change (wrun mask s [true; true; true; true; true]) with (wpstep mask (wpstep mask (wpstep mask (wpstep mask (wpstep mask s))))).
    set (N0 := 2 ^ 64 - mask) in *. assert (Hpos : 0 < N0) by (unfold N0; lia).
    set (s1 := wpstep mask s). assert (H1 : enqueue s1 = N0 /\ dequeue s1 = N0 /\ deqEnqCache s1 = N0 /\ enqDeqCache s1 = N0 /\ pp s1 = PIdle /\ pprog s1 = [Offer v; Put v] /\ cp s1 = CIdle /\ log s1 = log s ++ [ESpace (word (0 + 2 ^ 64 - N0))]).
    { destruct (w_space s _ A4 A6) as (x & E & Ex). rewrite A1, A2, Hw in Ex. unfold s1. fields E. }
    clearbody s1. clear A1 A2 A3 A4 A5 A6 A7. destruct H1 as (B1&B2&B3&B4&B5&B6&B7&B8). set (s2 := wpstep mask s1).
    assert (L : forall x : rb T, enqueue x = N0 -> enqDeqCache x = N0 -> (word (enqDeqCache x + mask) <? enqueue x) = true). { intros x X1 X2. rewrite X1, X2, Hw. by apply N.ltb_lt. }
    assert (L' : forall x : rb T, enqueue x = N0 -> dequeue x = N0 -> (enqueue x <=? word (dequeue x + mask)) = false). { intros x X1 X2. rewrite X1, X2, Hw. by apply N.leb_gt. }
    assert (H2 : enqueue s2 = N0 /\ dequeue s2 = N0 /\ deqEnqCache s2 = N0 /\ pp s2 = PLoad false v /\ pprog s2 = [Put v] /\ cp s2 = CIdle /\ log s2 = log s ++ [ESpace (word (0 + 2 ^ 64 - N0))]).
    { pose proof (w_offer s1 _ _ B5 B6 (L s1 B1 B4)) as E. unfold s2. fields E. }
    clearbody s2. clear s1 B1 B2 B3 B4 B5 B6 B7 B8. destruct H2 as (B1&B2&B3&B4&B5&B6&B7). set (s3 := wpstep mask s2).
    assert (H3 : enqueue s3 = N0 /\ dequeue s3 = N0 /\ deqEnqCache s3 = N0 /\ enqDeqCache s3 = N0 /\ pp s3 = PIdle /\ pprog s3 = [Put v] /\ cp s3 = CIdle /\ log s3 = log s ++ [ESpace (word (0 + 2 ^ 64 - N0)); EFull v]).
    { pose proof (w_load s2 _ B4 (L' s2 B1 B2)) as E. unfold s3. fields E. rewrite B7, <- app_assoc. reflexivity. }
    clearbody s3. clear s2 B1 B2 B3 B4 B5 B6 B7. destruct H3 as (B1&B2&B3&B4&B5&B6&B7&B8). set (s4 := wpstep mask s3).
    assert (H4 : enqueue s4 = N0 /\ dequeue s4 = N0 /\ deqEnqCache s4 = N0 /\ pp s4 = PLoad true v /\ cp s4 = CIdle /\ log s4 = log s3).
    { pose proof (w_put s3 _ _ B5 B6 (L s3 B1 B4)) as E. unfold s4. fields E. }
    clearbody s4. rewrite B8 in H4. clear s3 B1 B2 B3 B4 B5 B6 B7 B8. destruct H4 as (B1&B2&B3&B4&B5&B6). set (s5 := wpstep mask s4).
    assert (H5 : enqueue s5 = N0 /\ dequeue s5 = N0 /\ deqEnqCache s5 = N0 /\ pp s5 = PSlow v /\ cp s5 = CIdle /\ log s5 = log s4).
    { pose proof (w_load s4 _ B4 (L' s4 B1 B2)) as E. unfold s5. fields E. }
    clearbody s5. destruct H5 as (C1&C2&C3&C4&C5&C6). split; [congruence|]. unfold stuck. rewrite C5. split_and!; try done. lia.
  Qed.
End stops.

(** After 2^64 - size + 1 items the queue is empty, EnqCheckRange says size-1 places are free, and still an offer is refused and a put waits for ever,
    whatever the consumer does. (Nothing resets the counters.) *)
Theorem C96_spsc_refuted {T} (junk v : T) k cr : 1 <= k -> k < 64 -> exists pr cr' sched,
  let s := wrun (N.ones k) (spsc_init junk pr (cr' ++ cr)) sched in
  puts (log s) = gots (log s) /\ (exists l, log s = l ++ [ESpace (2 ^ k - 1); EFull v]) /\
  forall sched', puts (log (wrun (N.ones k) s sched')) = puts (log s) /\ pp (wrun (N.ones k) s sched') = PSlow v.
Proof.
  intros Hk Hk2. pose proof (ones_lt k Hk2) as Ho. assert (Hs2 : 2 <= 2 ^ k) by (change 2 with (2 ^ 1) at 1; apply N.pow_le_mono_r; lia).
  assert (Hlt : 2 ^ k < 2 ^ 64) by (apply N.pow_lt_mono_r; lia).
  assert (Hm : exists m, N.of_nat m = 2 ^ 64 - N.ones k) by (exists (N.to_nat (2 ^ 64 - N.ones k)); apply N2Nat.id). destruct Hm as [m Hm].
  exists (concat (repeat [Space; Offer v] m) ++ [Space; Offer v; Put v]), (concat (repeat [Avail; Accept] m)), (concat (repeat round m) ++ [true; true; true; true; true]).
  cbv zeta. rewrite !wrun_app.
  assert (L : level (wrun (N.ones k) (spsc_init junk (concat (repeat [Space; Offer v] m) ++ [Space; Offer v; Put v]) (concat (repeat [Avail; Accept] m) ++ cr)) (concat (repeat round m))) (2 ^ 64 - N.ones k) [Space; Offer v; Put v] cr).
  { replace (2 ^ 64 - N.ones k) with (0 + N.of_nat m) by lia. apply (rounds k Hk Hk2 v); [unfold level; cbn; split_and!; reflexivity|]. lia. }
  set (s := wrun (N.ones k) (spsc_init _ _ _) _) in *. clearbody s. destruct L as (A1&A2&A3&A4&A5&A6&A7&A8).
  assert (Hw : word (2 ^ 64 - N.ones k + N.ones k) = 0). { replace (2 ^ 64 - N.ones k + N.ones k) with (2 ^ 64) by lia. by apply N.mod_same. }
  assert (Hw2 : word (0 + 2 ^ 64 - (2 ^ 64 - N.ones k)) = 2 ^ k - 1). { rewrite word_small by lia. lia. }
  destruct (last_steps k Hk Hk2 v s cr A1 A2 A3 A4 A5 A6 A7) as [E St]. set (s' := wrun (N.ones k) s _) in *. clearbody s'. rewrite E. split_and!.
  - unfold puts, gots in *. rewrite !flat_map_app, A8. reflexivity.
  - exists (log s). rewrite Hw2. reflexivity.
  - intros sched'. destruct (stuck_run k Hk Hk2 v sched' s' St) as [(_&_&_&B&_) C]. rewrite <- E. split; [exact C|exact B].
Qed.

Print Assumptions C96_spsc_same.
Print Assumptions C96_spsc_refuted.

(** Counters at 2^64 - 1, queue of 4 empty: the item goes in only through the stale cache, and never comes out. *)
Example C96_spsc_case :
  let s := wrun 3 (Rb (2 ^ 64 - 1) (2 ^ 64 - 4) (2 ^ 64 - 1) 0 (fun _ => 0%nat) false PIdle [Offer 7%nat] CIdle [Accept; Avail; Accept] []) [true; true; true; false; false; false; false; false] in
  log s = [EPut 7%nat; EEmpty; EAvail 1; EEmpty].
Proof. vm_compute. reflexivity. Qed.
