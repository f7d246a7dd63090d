(** C43: the triangle count is exact. *)
From stdpp Require Import numbers list_numbers.
From Verif Require Import Base TC_Spec Active_Spec Active_Model Active_Proofs TC_Model TC_Count TC_Static TC_Proofs.
Open Scope nat_scope.

(** ** Loading a static graph *)
Section load.
Context (raw : nat -> N) (owner : nat -> nat) (E : list (nat * nat)) (M nt : nat).
Hypothesis Hown : forall v, owner v < nt.
Hypothesis Hraw : forall u v, u < M -> v < M -> raw u = raw v -> u = v.
Hypothesis Hsmall : forall v, v < M -> (raw v < MASK)%N.
Hypothesis Hends : forall a b, (a, b) ∈ E -> a < M /\ b < M.
Notation n := (length (events E)).
Definition arrive (i : nat) : nat * tchoice := let v := snd (event E i) in (owner v, TIn v).

Record fresh (k : nat) (s : tst) : Prop := Fresh {
  f_inv : tinv raw owner E M nt true s;
  f_act : forall v, aact (base s) v = 0; f_queue : forall t, aqueue (base s) t = []; f_todo : forall t, atodo (base s) t = []; f_log : alog (base s) = [];
  f_zero : forall v, NumLeader (aprop (base s) v) = 0 /\ UpdateAt (aprop (base s) v) = 0;
  f_got : forall v, got s v = length (List.filter (fun j => snd (event E j) =? v) (seq 0 k));
  f_mark : forall i, i < k -> mark s i <> None }.
Lemma fresh_step k s : k < n -> fresh k s -> fresh (S k) (tstep raw owner E s (owner (snd (event E k))) (TIn (snd (event E k)))).
Proof.
  intros Hk HF. pose proof (tinv_in raw owner E M nt true Hown Hraw Hsmall Hends s (owner (snd (event E k))) (snd (event E k)) (f_inv _ _ HF)) as HI.
  set (v := snd (event E k)) in *. unfold tstep in *. rewrite (f_todo _ _ HF) in *.
  assert (En : nth_error (ins E v) (got s v) = Some k) by (apply ins_nth; split; [done|]; split; [done|]; rewrite (f_got _ _ HF); done).
  rewrite En, Nat.eqb_refl in *.
  assert (Hf := in_edge raw owner E M nt true Hown Hraw Hsmall Hends s v k (f_inv _ _ HF) Hk eq_refl ltac:(rewrite (f_got _ _ HF); done)). cbv zeta in Hf.
  destruct (on_in_edge (aprop (base s) v) (raw (fst (event E k))) (raw v) (got s v) k) as [p r] eqn:Eq. cbn [fst snd] in Hf. destruct Hf as (_ & Hf1 & Hf2 & _).
  assert (Hb : astep tcount owner (base s) (owner v) (ATouch (a := tcount) v (raw (event E k).1, raw v, got s v, k)) = Ast (aact (base s)) (aqueue (base s)) (upd (aprop (base s)) v (p : p_t tcount)) (aedges (base s)) (atodo (base s)) (alog (base s))).
  { unfold astep. rewrite (f_todo _ _ HF), Nat.eqb_refl. do 2 f_equal. cbn [touch tcount]. by rewrite Eq. }
  rewrite Hb in HI |- *. constructor; [done|..]; cbn [base got added mark aact aqueue aprop aedges atodo alog].
  - apply (f_act _ _ HF).
  - apply (f_queue _ _ HF).
  - apply (f_todo _ _ HF).
  - apply (f_log _ _ HF).
  - intros w. destruct (decide (w = v)) as [->|]; us; [|apply (f_zero _ _ HF)]. rewrite Hf1, Hf2. apply (f_zero _ _ HF).
  - intros w. rewrite seq_S, filter_app, app_length. cbn [List.filter Nat.add]. fold v. destruct (decide (w = v)) as [->|]; us.
    + rewrite Nat.eqb_refl, (f_got _ _ HF). cbn. lia.
    + rewrite (proj2 (Nat.eqb_neq v w)) by congruence. rewrite (f_got _ _ HF). cbn. lia.
  - intros i Hi. destruct (decide (i = k)) as [->|]; us; [done|]. apply (f_mark _ _ HF). lia.
Qed.
Lemma fresh_run k : k <= n -> fresh k (trun raw owner E tnew (map arrive (seq 0 k))).
Proof.
  induction k as [|k IH]; intros Hk.
  - constructor; try done; [by apply tinv_new|intros i Hi; lia].
  - rewrite seq_S, map_app. unfold trun. rewrite fold_left_app. apply fresh_step; [lia|]. apply IH. lia.
Qed.
Lemma marked_all (m : nat -> option tedge) l : (forall i, In i l -> m i <> None) -> marked E m l <> None.
Proof.
  induction l as [|i l IH]; intros H; [done|]. cbn [marked]. destruct (m i) eqn:Em; [|by destruct (H i); [left|]]. destruct (marked E m l); [done|]. exfalso. apply IH; [|done]. intros j Hj. apply H. by right.
Qed.
Lemma tinv_loaded : tinv raw owner E M nt true (tloaded raw owner E) /\ forall u, added (tloaded raw owner E) u = length (outs E u).
Proof.
  pose proof (fresh_run n (le_n _)) as HF. unfold tloaded. fold arrive. change (map _ (seq 0 n)) with (map arrive (seq 0 n)). set (s := trun _ _ _ _ _) in *. clearbody s.
  pose proof (f_inv _ _ HF) as HI.
  assert (Hes : forall v, match marked E (mark s) (outs E v) with Some l => l | None => [] end = SE raw E v).
  { intros v. destruct (marked E (mark s) (outs E v)) as [l|] eqn:Em.
    - apply (marked_spec raw owner E M nt true s _ _ HI) in Em. by destruct Em as [-> _].
    - exfalso. revert Em. apply marked_all. intros i Hi. apply (f_mark _ _ HF). unfold outs, those in Hi. apply filter_In in Hi. destruct Hi as [Hi _]. apply in_seq in Hi. lia. }
  assert (Hlen : forall v, length (SE raw E v) = length (outs E v)) by (intros v; unfold SE; apply map_length).
  split; [|intros u; cbn [added]; by rewrite Hes].
  constructor; cbn [base got added mark aact aqueue aprop aedges atodo alog].
  - destruct (t_a _ _ _ _ _ _ _ HI). by constructor.
  - apply (t_got _ _ _ _ _ _ _ HI).
  - apply (t_mark _ _ _ _ _ _ _ HI).
  - intros u. rewrite Hes, Hlen. split; [lia|]. rewrite firstn_all2; [done|]. by rewrite Hlen.
  - intros u k i Hk Hn. rewrite Hes, Hlen in Hk. apply outs_nth in Hn. destruct Hn as [Hi _]. destruct (mark s i) as [x|] eqn:Em; [|by apply (f_mark _ _ HF) in Em].
    apply (t_mark _ _ _ _ _ _ _ HI) in Em. apply Em.
  - intros t d x Hin. rewrite (f_queue _ _ HF) in Hin. by apply elem_of_nil in Hin.
  - intros t o Hin. rewrite (f_todo _ _ HF) in Hin. by apply elem_of_nil in Hin.
  - intros u. unfold UA. cbn [aprop aedges]. destruct (f_zero _ _ HF u) as [_ ->]. lia.
  - intros v Hv. destruct (f_zero _ _ HF v) as [-> _]. rewrite (f_queue _ _ HF), sumt_zero by (intros t _; by rewrite (f_todo _ _ HF)). cbn [wt sum_list_with]. symmetry. apply sumn_zero.
    intros u _. unfold UA. cbn [aprop]. destruct (f_zero _ _ HF u) as [_ ->]. by eapply sent_none.
  - intros u _. right. right. right. split; [done|]. cbn [alog]. rewrite (f_log _ _ HF). intros H. by apply elem_of_nil in H.
Qed.
End load.

Lemma added_run raw owner E sched : forall s u, added s u <= added (trun raw owner E s sched) u.
Proof.
  induction sched as [|[t c] l IH]; intros s u; [done|]. cbn. etransitivity; [|apply IH]. destruct c as [| |v|v|v k]; cbn [tstep added]; try done.
  - destruct (atodo (base s) t); [|done]. destruct (nth_error (ins E v) (got s v)); [|done]. destruct (owner v =? t); [|done]. by destruct (on_in_edge _ _ _ _ _).
  - destruct (atodo (base s) t); [|done]. destruct (marked E (mark s) _) as [[|y ys]|]; [done| |done]. destruct (owner v =? t); [|done]. cbn [added]. destruct (decide (u = v)) as [->|]; us; lia.
Qed.

(** ** The theorems *)
Definition at_rest (nt : nat) (s : tst) : Prop := forall t, t < nt -> atodo (base s) t = [] /\ aqueue (base s) t = [].
Definition counted (M : nat) (s : tst) : nat := sumn (fun v => NumLeader (aprop (base s) v)) M.

(** A stream: whatever the interleaving of receiving, adding and messages, once every edge has been
    added and no message is left, the counters add up to the number of triangles. *)
Theorem C43_stream raw owner E M nt sched :
  (forall v, owner v < nt) -> (forall u v, u < M -> v < M -> raw u = raw v -> u = v) -> (forall v, v < M -> (raw v < 2147483647)%N) ->
  (forall a b, (a, b) ∈ E -> a < M /\ b < M) -> (forall t c, (t, c) ∈ sched -> t < nt) ->
  let s := trun raw owner E tnew sched in
  at_rest nt s -> (forall u, u < M -> added s u = length (outs E u)) -> counted M s = triangles E M.
Proof.
  intros Hown Hraw Hsmall Hends Ht s Hrest Hadd.
  apply (tinv_rest raw owner E M nt false Hown Hraw Hsmall Hends s); try done. apply tinv_trun; try done. by apply tinv_new.
Qed.
(** A static graph, every vertex with edges having been sent its initial notification. *)
Theorem C43_static raw owner E M nt sched :
  (forall v, owner v < nt) -> (forall u v, u < M -> v < M -> raw u = raw v -> u = v) -> (forall v, v < M -> (raw v < 2147483647)%N) ->
  (forall a b, (a, b) ∈ E -> a < M /\ b < M) -> (forall t c, (t, c) ∈ sched -> t < nt) ->
  let s := trun raw owner E (tloaded raw owner E) sched in
  at_rest nt s -> (forall u, u < M -> outs E u <> [] -> Began_send u ∈ alog (base s)) -> counted M s = triangles E M.
Proof.
  intros Hown Hraw Hsmall Hends Ht s Hrest Hnoted. destruct (tinv_loaded raw owner E M nt Hown Hraw Hsmall Hends) as [HL Hadd].
  assert (HI : tinv raw owner E M nt true s) by (apply tinv_trun; done).
  apply (tinv_rest raw owner E M nt true Hown Hraw Hsmall Hends s); try done. intros u Hu. destruct (t_edges _ _ _ _ _ _ _ HI u) as [H1 _].
  pose proof (added_run raw owner E sched (tloaded raw owner E) u) as H2. fold s in H2. rewrite Hadd in H2. lia.
Qed.

(** Two threads, the edges of a square with both diagonals (4 triangles), a repeated edge and a
    self-loop; the threads take turns at receiving, adding and handling. *)
Definition square : list (nat * nat) := [(0, 1); (1, 2); (0, 1); (2, 3); (3, 3); (3, 0); (0, 2); (1, 3)].
Definition turns (k : nat) : list (nat * tchoice) :=
  flat_map (fun i => flat_map (fun v => [(v mod 2, TIn v); (v mod 2, TRun); (v mod 2, TOut v (1 + i mod 2)); (v mod 2, TRun); (v mod 2, TPop); (v mod 2, TRun); (v mod 2, TRun)]) [0; 1; 2; 3]) (seq 0 k)
  ++ flat_map (fun i => flat_map (fun t => [(t, TPop); (t, TRun); (t, TRun); (t, TRun)]) [0; 1]) (seq 0 60).
Notation case_run := (trun (fun v => N.of_nat (v + 7)) (fun v => v mod 2) square tnew (turns 30)).
Example C43_case : triangles square 4 = 4 /\ counted 4 case_run = 4 /\ map (fun v => NumLeader (aprop (base case_run) v)) [0; 1; 2; 3] = [2; 2; 0; 0]
  /\ map (added case_run) [0; 1; 2; 3] = map (fun u => length (outs square u)) [0; 1; 2; 3]
  /\ map (fun t => (length (atodo (base case_run) t), length (aqueue (base case_run) t))) [0; 1] = [(0, 0); (0, 0)].
Proof. vm_compute. repeat split. Qed.
Notation case_static := (trun (fun v => N.of_nat (v + 7)) (fun v => v mod 2) square (tloaded (fun v => N.of_nat (v + 7)) (fun v => v mod 2) square)
  (map (fun v => (v mod 2, TNote v)) [0] ++ turns 0 ++ map (fun v => (v mod 2, TNote v)) [1] ++ turns 0 ++ map (fun v => (v mod 2, TNote v)) [2] ++ turns 0 ++ map (fun v => (v mod 2, TNote v)) [3] ++ turns 0)).
Example C43_case_static : counted 4 case_static = 4 /\ map (fun t => (length (atodo (base case_static) t), length (aqueue (base case_static) t))) [0; 1] = [(0, 0); (0, 0)].
Proof. vm_compute. repeat split. Qed.
(** The bound on raw identifiers matters: 2^31 - 1 with its flag is EMPTY. *)
Definition big (v : nat) : N := match v with O => 2147483647%N | _ => N.of_nat v end.
Notation case_big := (trun big (fun v => v mod 2) [(1, 0); (0, 2); (2, 1)] tnew (turns 30)).
Example C43_largest_id : triangles [(1, 0); (0, 2); (2, 1)] 3 = 1 /\ counted 3 case_big = 0
  /\ map (added case_big) [0; 1; 2] = [2; 2; 2] /\ map (fun t => (length (atodo (base case_big) t), length (aqueue (base case_big) t))) [0; 1] = [(0, 0); (0, 0)].
Proof. vm_compute. repeat split. Qed.
Print Assumptions C43_stream.
Print Assumptions C43_static.
