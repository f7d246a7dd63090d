(** C66: the edge list tool (cmd/lp-edgelist-tools). *)
From Verif Require Import Base IO_Spec IO_Model IO_Proofs Tool_Spec Tool_Model Tool_Proofs.
From Coq Require Import Permutation Sorted.
Open Scope nat_scope.

(** Loading: whatever the schedule, the result holds the lines of each residue class of line numbers, in file order,
    one class after the other; every line that is not a comment is there once, and the number of lines is right. *)
Theorem C66_load threads cap ls sched q s0 r m :
  load_start threads = Some (q, s0) -> result (lrun cap q ls s0 sched) = Some (r, m) ->
  r = concat (map (fun i => share threads i 1 ls) (seq 0 threads)) /\ Permutation r (kept ls) /\ m = length ls.
Proof.
  unfold load_start. destruct (Nat.ltb_spec threads (Nat.max threads 1)) as [|Ht]; [done|]. intros [= <- <-] H.
  assert (Nat.max threads 1 = threads) as E by lia. rewrite E in *. assert (Hq : 0 < threads) by lia.
  pose proof (l_res _ _ _ (linv_run cap threads ls Hq sched _ (linv_start threads ls)) _ H) as [= -> ->].
  split_and!; [done|by apply share_perm|done].
Qed.
(** It ends on every fair schedule, and never before. *)
Theorem C66_load_ends threads cap ls sched : 0 < threads -> 0 < cap ->
  exists enough, forall rounds, enough <= length rounds ->
    Forall (fun r => In Main r /\ forall i, i < threads -> In (Enq i) r /\ In (Deq i) r) rounds ->
    result (lrun cap threads ls lstart (sched ++ concat rounds)) <> None.
Proof.
  intros Hq Hc. exists (mass threads ls (lrun cap threads ls lstart sched)). intros rounds Hl HF.
  unfold lrun. rewrite fold_left_app. apply (lend cap threads ls Hq Hc); [|done|done].
  apply (linv_run cap threads ls Hq). apply linv_start.
Qed.
(** With one thread the order is that of the file. *)
Theorem C66_load_one cap ls sched r m :
  result (lrun cap 1 ls lstart sched) = Some (r, m) -> r = kept ls.
Proof.
  intros H. destruct (C66_load 1 cap ls sched 1 lstart r m eq_refl H) as (-> & _ & _). cbn. rewrite app_nil_r.
  assert (Hk : forall k, share 1 0 k ls = kept ls); [|apply Hk]. clear. induction ls as [|l ls IH]; intros k; [done|]. cbn [share]. rewrite Nat.mod_1_r. cbn [Nat.eqb].
  rewrite IH. unfold kept. cbn. by destruct (comment l).
Qed.
(** With more it is not; with none it panics. *)
Definition bytes2 : list (list N) := [[49]; [50]; [51]]%N.
Definition fair_round (q : nat) : list actor := Main :: concat (map (fun i => [Enq i; Deq i]) (seq 0 q)).
Theorem C66_load_order_refuted : ~ (forall threads cap ls sched q s0 r m, 0 < cap ->
  load_start threads = Some (q, s0) -> result (lrun cap q ls s0 sched) = Some (r, m) -> r = kept ls).
Proof.
  intros H. specialize (H 2 4096 bytes2 (concat (repeat (fair_round 2) 20)) 2 lstart [[50]; [49]; [51]]%N 3 ltac:(lia) eq_refl ltac:(by vm_compute)). done.
Qed.
Theorem C66_no_threads : load_start 0 = None.
Proof. done. Qed.

(** Sorting: for lines of at most five words it gives the lines in byte order of the words at [pos], lines with equal
    words in the order they had. *)
Theorem C66_sort pos ls : pos < 5 -> (forall l, In l ls -> Forall (fun b => (b < 256)%N) l /\ exists ws, splits l ws /\ length ws <= 5) ->
  exists l', tool_sort pos ls = Some l' /\
    sorted_by (fun a b => exists wa wb, stamp pos a wa /\ stamp pos b wb /\ before wa wb) ls l'.
Proof.
  intros Hp H. destruct (tool_sort_ok pos Hp ls) as (l' & E & (S1 & S2 & S3)).
  { apply Forall_forall. intros l Hl. destruct (H l Hl) as (H1 & ws & H2 & H3). split; [done|]. apply splits_iff in H2. by rewrite <- H2. }
  assert (K : forall a b, (exists wa wb, stamp pos a wa /\ stamp pos b wb /\ before wa wb) <-> klt pos a b).
  { intros a b. split.
    - intros (wa & wb & Ha & Hb & Hw). apply stamp_key in Ha as ->. by apply stamp_key in Hb as ->.
    - intros Hk. exists (key pos a), (key pos b). by rewrite !stamp_key. }
  exists l'. split; [done|]. split_and!; [done| |].
  - clear -S2 K. induction S2 as [|a l Hs IH Hf]; [constructor|]. constructor; [done|]. eapply Forall_impl; [|exact Hf]. cbn. intros b Hb Hc. by apply Hb, K.
  - intros p Hpp. apply S3. intros a b Ha Hb Pa Pb Hc. apply (Hpp a b Ha Hb Pa Pb). by apply K.
Qed.
(** If the words are numerals of one length this is the order of the numbers. *)
Theorem C66_sort_numbers pos len ls : pos < 5 ->
  (forall l, In l ls -> Forall (fun b => (b < 256)%N) l /\ exists ws, splits l ws /\ length ws <= 5 /\ pos < length ws /\ Forall digit (nth pos ws []) /\ length (nth pos ws []) = len) ->
  exists l', tool_sort pos ls = Some l' /\ Permutation ls l' /\
    StronglySorted (fun a b => forall wa wb, stamp pos a wa -> stamp pos b wb -> (decimal wa <= decimal wb)%N) l'.
Proof.
  intros Hp H. destruct (tool_sort_ok pos Hp ls) as (l' & E & (S1 & S2 & S3)).
  { apply Forall_forall. intros l Hl. destruct (H l Hl) as (H1 & ws & H2 & H3 & _). split; [done|]. apply splits_iff in H2. by rewrite <- H2. }
  exists l'. split_and!; [done|done|].
  assert (Hk : forall l, In l l' -> Forall digit (key pos l) /\ length (key pos l) = len).
  { intros l Hl. destruct (H l (Permutation_in l (Permutation_sym S1) Hl)) as (_ & ws & H2 & _ & _ & H5 & H6). apply splits_iff in H2. unfold key. by rewrite <- H2. }
  clear -S2 Hk. induction S2 as [|a l Hs IH Hf]; [constructor|]. constructor; [apply IH; intros; apply Hk; by right|].
  apply Forall_forall. intros b Hb wa wb Ha Hwb. apply stamp_key in Ha as ->. apply stamp_key in Hwb as ->.
  rewrite Forall_forall in Hf. destruct (Hk a ltac:(by left)) as [A1 A2]. destruct (Hk b ltac:(by right)) as [B1 B2].
  pose proof (Hf b Hb) as Hn. unfold klt in Hn. rewrite before_decimal in Hn by (try done; congruence). lia.
Qed.
(** In general it is not: "1 2 10" comes before "1 2 9". *)
Theorem C66_sort_numbers_refuted : ~ (forall pos ls l', pos < 5 ->
  (forall l, In l ls -> exists ws, splits l ws /\ length ws = 3 /\ Forall (Forall digit) ws) -> tool_sort pos ls = Some l' ->
  StronglySorted (fun a b => forall wa wb, stamp pos a wa -> stamp pos b wb -> (decimal wa <= decimal wb)%N) l').
Proof.
  intros H. set (l9 := [49; 32; 50; 32; 57]%N). set (l10 := [49; 32; 50; 32; 49; 48]%N).
  assert (Hs : tool_sort 2 [l9; l10] = Some [l10; l9]) by (by vm_compute).
  specialize (H 2 [l9; l10] [l10; l9] ltac:(lia)). assert (Hd : forall d, (48 <= d <= 57)%N -> digit d) by done.
  assert (H1 : forall l, In l [l9; l10] -> exists ws, splits l ws /\ length ws = 3 /\ Forall (Forall digit) ws).
  { intros l [<-|[<-|[]]]; (eexists; split_and!; [apply splits_iff; reflexivity|by vm_compute|]); vm_compute; repeat constructor; done. }
  specialize (H H1 Hs). inversion H as [|? ? _ HF]; subst. inversion HF as [|? ? Hc _]; subst.
  specialize (Hc [49; 48]%N [57]%N). rewrite !stamp_key in Hc. by specialize (Hc ltac:(by vm_compute) ltac:(by vm_compute)).
Qed.
(** Two lines of which one has more than five words make it panic. *)
Theorem C66_sort_panics pos ls l ws : (forall l, In l ls -> Forall (fun b => (b < 256)%N) l) ->
  2 <= length ls -> In l ls -> splits l ws -> 5 < length ws -> tool_sort pos ls = None.
Proof.
  intros Hb Hl Hin Hs Hw. destruct (tool_sort pos ls) as [l'|] eqn:E; [|done]. exfalso. apply splits_iff in Hs as ->.
  pose proof (stable_some pos ls [] l') as H. specialize (H ltac:(by apply Forall_forall) ltac:(done) E Hl ltac:(done) l Hin). lia.
Qed.
(** Loading with two threads and sorting does not keep the file's order of lines with equal timestamps. *)
Theorem C66_stable_refuted : ~ (forall threads cap ls sched q s0 r m l' pos, 0 < cap ->
  load_start threads = Some (q, s0) -> result (lrun cap q ls s0 sched) = Some (r, m) -> tool_sort pos r = Some l' ->
  sorted_by (fun a b => exists wa wb, stamp pos a wa /\ stamp pos b wb /\ before wa wb) (kept ls) l').
Proof.
  intros H. set (a := [49; 32; 50; 32; 57]%N). set (b := [51; 32; 52; 32; 57]%N).
  specialize (H 2 4096 [a; b] (concat (repeat (fair_round 2) 20)) 2 lstart [b; a] 2 [b; a] 2 ltac:(lia) eq_refl ltac:(by vm_compute) ltac:(by vm_compute)).
  destruct H as (_ & _ & H). specialize (H (fun _ => true)). cbn in H. discriminate H.
  intros x y Hx Hy _ _ (wa & wb & S1 & S2 & Hc). apply stamp_key in S1 as ->. apply stamp_key in S2 as ->.
  assert (Hk : forall z, z = a \/ z = b \/ False -> key 2 z = [57]%N) by (intros z [-> |[-> |[]]]; by vm_compute).
  rewrite (Hk x), (Hk y) in Hc by naive_solver. by apply before_irrefl in Hc.
Qed.
(** And nothing of it is ever written. *)
Theorem C66_writes_nothing ex ls : match write_lines ex ls with Ended w | Fatal w => w = [] | Panicked => True end /\
  (ls <> [] -> write_lines ex ls <> Ended ls).
Proof. unfold write_lines. destruct ex, ls; done. Qed.

(** Three threads, six lines of which one is a comment; then sorted by the third word, which two lines share. *)
Example C66_case :
  let s := fun a b c : N => [a; 32; b; 32; c]%N in
  let ls := [s 49 50 57; [35]; s 50 51 56; s 51 52 57; s 52 53 55; s 53 54 56]%N in
  result (lrun 1 3 ls lstart (concat (repeat (fair_round 3) 40))) =
    Some ([s 50 51 56; s 53 54 56; s 49 50 57; s 51 52 57; s 52 53 55]%N, 6) /\
  tool_sort 2 ([s 50 51 56; s 53 54 56; s 49 50 57; s 51 52 57; s 52 53 55]%N) =
    Some ([s 52 53 55; s 50 51 56; s 53 54 56; s 49 50 57; s 51 52 57]%N).
Proof. by vm_compute. Qed.

Print Assumptions C66_load.
Print Assumptions C66_load_ends.
Print Assumptions C66_load_one.
Print Assumptions C66_load_order_refuted.
Print Assumptions C66_sort.
Print Assumptions C66_sort_numbers.
Print Assumptions C66_sort_numbers_refuted.
Print Assumptions C66_sort_panics.
Print Assumptions C66_stable_refuted.
Print Assumptions C66_writes_nothing.
