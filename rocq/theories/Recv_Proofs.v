(** Invariant: what has arrived is what was handed, the batch, the buffer and the queue, in this
    order. *)
From Verif Require Import Base Deque_Spec Deque_Model Deque_Proofs Recv_Spec Recv_Model.

Section proofs.
Context {T U : Type} (zero : T) (update : U -> T -> U * N) (max : nat) (u0 : U).
Notation rst := (rst T U).

Definition batch (s : rst) : list T := firstn (cnt s) (notifs s).
Definition waiting (s : rst) : list T := batch s ++ abs (buff s) ++ rq s.
Record rinv (s : rst) : Prop := {
  r_dq : inv (buff s);
  r_len : length (notifs s) = max;
  r_cnt : cnt s <= max;
  r_all : arrived s = handed s ++ waiting s;
  r_ust : ust s = fst (hand update u0 (handed s));
  r_recv : recv s = (N.of_nat (length (handed s)) mod w64)%N;
  r_send : send s = (snd (hand update u0 (handed s)) mod w64)%N }.

(** The fields a reception does not touch. *)
Definition same (s s' : rst) : Prop :=
  ust s' = ust s /\ recv s' = recv s /\ send s' = send s /\ handed s' = handed s /\ checks s' = checks s.
Lemma same_refl s : same s s.
Proof. by repeat split. Qed.
Lemma same_trans a b c : same a b -> same b c -> same a c.
Proof. unfold same. intros (A1 & A2 & A3 & A4 & A5) (B1 & B2 & B3 & B4 & B5). repeat split; congruence. Qed.
Lemma rinv_same s s' : rinv s -> same s s' -> inv (buff s') -> length (notifs s') = max -> cnt s' <= max ->
  arrived s' = handed s ++ waiting s' -> rinv s'.
Proof.
  intros [A B C D E F G] (H1 & H2 & H3 & H4 & H5) Hd Hl Hc Ha. constructor; try congruence.
Qed.

Lemma put_ok (l : list T) i x : i < length l ->
  put_notif l i x = Some (<[i := x]> l) /\ firstn (S i) (<[i := x]> l) = firstn i l ++ [x].
Proof.
  intros H. unfold put_notif. rewrite (proj2 (Nat.ltb_lt _ _) H). split; [done|].
  erewrite (take_S_r _ _ x); [|by apply list_lookup_insert]. by rewrite take_insert by lia.
Qed.

Lemma pop_loop_ok fuel s : rinv s -> cnt s + fuel = max ->
  exists s', pop_loop zero fuel s = Some s' /\ rinv s' /\ same s s' /\ rq s' = rq s /\
    arrived s' = arrived s /\ waiting s' = waiting s /\
    cnt s' = Nat.min max (cnt s + length (abs (buff s))) /\ (cnt s' = max \/ abs (buff s') = []).
Proof.
  revert s. induction fuel as [|fuel IH]; intros s Hs Hf.
  - exists s. split; [done|]. split; [done|]. split; [apply same_refl|]. repeat split; try done; [lia|]. left. lia.
  - cbn [pop_loop]. destruct (pop_front_ok zero (buff s) (r_dq s Hs)) as (d & Hp & Hd & Ea).
    unfold pop_front in Hp. destruct (try_pop_front zero (buff s)) as [[[x|] d1]|] eqn:Et; [| |done].
    + destruct (update_pop_front d1) as [d2|] eqn:Eu; [|done]. cbn in Hp. injection Hp as Hh <-.
      destruct (abs (buff s)) as [|y r] eqn:Eb; [done|]. cbn in Hh, Ea. injection Hh as <-.
      destruct (put_ok (notifs s) (cnt s) x) as (-> & Ef). { rewrite (r_len s Hs). lia. }
      set (s1 := Rst d2 _ _ _ _ _ _ _ _ _).
      assert (Hw : waiting s1 = waiting s).
      { unfold waiting, batch. cbn. rewrite Ef, Ea, Eb, <- !app_assoc. done. }
      destruct (IH s1) as (s' & E & H1 & H2 & H3 & H4 & H5 & H6 & H7).
      * apply (rinv_same s); [done|by repeat split|done| |cbn; lia|].
        { cbn. by rewrite insert_length, (r_len s Hs). }
        rewrite Hw. apply Hs.
      * cbn. lia.
      * exists s'. split; [done|]. split; [done|]. split; [by eapply same_trans; [|exact H2]; repeat split|].
        split; [by rewrite H3|]. split; [by rewrite H4|]. split; [congruence|]. split; [|done].
        rewrite H6. cbn. rewrite Ea. lia.
    + injection Hp as Hh <-. destruct (abs (buff s)) as [|y r] eqn:Eb; [|done]. cbn in Ea.
      eexists. split; [reflexivity|].
      assert (Hw : forall d, abs d = [] -> waiting (Rst d (rq s) (notifs s) (cnt s) (ust s) (recv s) (send s) (arrived s) (handed s) (checks s)) = waiting s).
      { intros d Ed. unfold waiting, batch. cbn. by rewrite Ed, Eb. }
      split. { apply (rinv_same s); [done|by repeat split|done|apply Hs|apply Hs|]. rewrite Hw by done. apply Hs. }
      split; [by repeat split|]. rewrite Hw by done. cbn. pose proof (r_cnt s Hs). repeat split; try done; [lia|].
      by right.
Qed.

Lemma accept_cases (q : list T) e : match accept q e with
  | (None, q', new, e') => q' = q ++ new
  | (Some x, q', new, e') => x :: q' = q ++ new /\ length e = S (length e') end.
Proof.
  destruct e as [|[new ok] e]; cbn; [by rewrite app_nil_r|].
  destruct (q ++ new) as [|x q'] eqn:E; [done|]. destruct ok; cbn; by rewrite ?E.
Qed.

Lemma queue_loop_ok fuel e s : rinv s -> cnt s + fuel = max -> (fuel = 0 \/ abs (buff s) = []) ->
  exists s' e', queue_loop fuel e s = Some (s', e') /\ rinv s' /\ same s s' /\ buff s' = buff s /\
    (exists new, arrived s' = arrived s ++ new /\ waiting s' = waiting s ++ new).
Proof.
  revert e s. induction fuel as [|fuel IH]; intros e s Hs Hf Hb.
  - exists s, e. split; [done|]. split; [done|]. split; [apply same_refl|]. split; [done|]. exists []. by rewrite !app_nil_r.
  - destruct Hb as [|Hb]; [lia|]. cbn [queue_loop]. pose proof (accept_cases (rq s) e) as Ha.
    destruct (accept (rq s) e) as [[[[x|] q] new] e'].
    + destruct Ha as [Ha _]. destruct (put_ok (notifs s) (cnt s) x) as (-> & Ef). { rewrite (r_len s Hs). lia. }
      set (s1 := Rst (buff s) q _ _ _ _ _ _ _ _).
      assert (Hw : waiting s1 = waiting s ++ new).
      { unfold waiting, batch. cbn. rewrite Ef, Hb, <- !app_assoc. cbn. by rewrite Ha. }
      destruct (IH e' s1) as (s' & e2 & E & H1 & H2 & H3 & new' & H4 & H5).
      * apply (rinv_same s); [done|by repeat split|apply Hs| |cbn; lia|].
        { cbn. by rewrite insert_length, (r_len s Hs). }
        rewrite Hw. cbn. rewrite (r_all s Hs). by rewrite <- app_assoc.
      * cbn. lia.
      * by right.
      * exists s', e2. split; [done|]. split; [done|]. split; [by eapply same_trans; [|exact H2]; repeat split|].
        split; [done|]. exists (new ++ new'). rewrite H4, H5, Hw. cbn. by rewrite <- !app_assoc.
    + subst q. eexists _, _. split; [reflexivity|].
      set (s1 := Rst _ _ _ _ _ _ _ _ _ _).
      assert (Hw : waiting s1 = waiting s ++ new).
      { unfold waiting, batch. cbn. by rewrite <- !app_assoc. }
      split. { apply (rinv_same s); [done|by repeat split|apply Hs..|]. rewrite Hw. cbn. rewrite (r_all s Hs). by rewrite <- app_assoc. }
      split; [by repeat split|]. split; [done|]. exists new. done.
Qed.

Lemma drain_loop_ok fuel e s : rinv s ->
  exists s', drain_loop zero fuel e s = Some s' /\ rinv s' /\ same s s' /\ notifs s' = notifs s /\ cnt s' = cnt s /\
    (exists new, arrived s' = arrived s ++ new /\ waiting s' = waiting s ++ new).
Proof.
  revert e s. induction fuel as [|fuel IH]; intros e s Hs.
  - exists s. split; [done|]. split; [done|]. split; [apply same_refl|]. repeat split; try done. exists []. by rewrite !app_nil_r.
  - cbn [drain_loop]. pose proof (accept_cases (rq s) e) as Ha.
    destruct (accept (rq s) e) as [[[[x|] q] new] e'].
    + destruct Ha as [Ha _]. destruct (fast_slow_ok zero (buff s) x (r_dq s Hs)) as (d & -> & Hd & Ea).
      set (s1 := Rst d q _ _ _ _ _ _ _ _).
      assert (Hw : waiting s1 = waiting s ++ new).
      { unfold waiting, batch. cbn. rewrite Ea, <- !app_assoc. cbn. by rewrite Ha. }
      destruct (IH e' s1) as (s' & E & H1 & H2 & H3 & H3' & new' & H4 & H5).
      * apply (rinv_same s); [done|by repeat split|done|apply Hs..|].
        rewrite Hw. cbn. rewrite (r_all s Hs). by rewrite <- app_assoc.
      * exists s'. split; [done|]. split; [done|]. split; [by eapply same_trans; [|exact H2]; repeat split|].
        repeat split; try done. exists (new ++ new'). rewrite H4, H5, Hw. cbn. by rewrite <- !app_assoc.
    + subst q. eexists. split; [reflexivity|].
      set (s1 := Rst _ _ _ _ _ _ _ _ _ _).
      assert (Hw : waiting s1 = waiting s ++ new).
      { unfold waiting, batch. cbn. by rewrite <- !app_assoc. }
      split. { apply (rinv_same s); [done|by repeat split|apply Hs..|]. rewrite Hw. cbn. rewrite (r_all s Hs). by rewrite <- app_assoc. }
      split; [by repeat split|]. repeat split; try done. exists new. done.
Qed.

Lemma receive_ok e full s : rinv s -> exists s', receive zero max e full s = Some s' /\ rinv s' /\ same s s' /\
  (exists new, arrived s' = arrived s ++ new /\ waiting s' = waiting s ++ new).
Proof.
  intros Hs. unfold receive.
  assert (exists s1, (if dlen (buff s) =? 0 then Some s else pop_loop zero (max - cnt s) s) = Some s1 /\ rinv s1 /\
    same s s1 /\ arrived s1 = arrived s /\ waiting s1 = waiting s /\ (cnt s1 = max \/ abs (buff s1) = [])) as (s1 & -> & H1 & H2 & H3 & H4 & H5).
  { pose proof (r_cnt s Hs). destruct (Nat.eqb_spec (dlen (buff s)) 0) as [E|E].
    - exists s. repeat split; try done; try apply Hs. right. by apply abs_nil_dlen.
    - destruct (pop_loop_ok (max - cnt s) s) as (s1 & A & B & C & D & F & G & _ & K); [done|lia|]. by exists s1. }
  destruct (queue_loop_ok (max - cnt s1) e s1) as (s2 & e2 & -> & K1 & K2 & K3 & new & K4 & K5); [done| | |].
  { pose proof (r_cnt s1 H1). lia. }
  { destruct H5 as [->|]; [left; lia|by right]. }
  destruct full.
  - destruct (drain_loop_ok (length e2) e2 s2 K1) as (s3 & E & L1 & L2 & _ & _ & new2 & L3 & L4).
    exists s3. split; [done|]. split; [done|]. split; [eauto using same_trans|].
    exists (new ++ new2). rewrite L3, L4, K4, K5, H3, H4. by rewrite <- !app_assoc.
  - exists s2. split; [done|]. split; [done|]. split; [eauto using same_trans|]. exists new. by rewrite K4, K5, H3, H4.
Qed.

Lemma hand_app u l1 l2 : hand update u (l1 ++ l2) =
  (fst (hand update (fst (hand update u l1)) l2), (snd (hand update u l1) + snd (hand update (fst (hand update u l1)) l2))%N).
Proof.
  revert u. induction l1 as [|x l1 IH]; intros u; cbn; [by destruct hand|].
  destruct (update u x) as [u1 k]. rewrite IH. destruct (hand update u1 l1) as [u2 k2]. cbn. f_equal. lia.
Qed.

Lemma mod_add_l a b : ((a mod w64 + b) mod w64 = (a + b) mod w64)%N.
Proof. apply N.add_mod_idemp_l. done. Qed.
Lemma mod_add_r a b : ((a + b mod w64) mod w64 = (a + b) mod w64)%N.
Proof. apply N.add_mod_idemp_r. done. Qed.

(** The loop hands [l], the entries of the array from [i] on. *)
Lemma handle_loop_ok l : forall i (sent : N) s pre post, notifs s = pre ++ l ++ post -> length pre = i ->
  exists s' k, handle_loop update (length l) i sent s = Some (s', k) /\
    s' = Rst (buff s) (rq s) (notifs s) (cnt s) (fst (hand update (ust s) l)) (recv s) (send s) (arrived s)
          (handed s ++ l) (checks s) /\
    (k mod w64 = (sent + snd (hand update (ust s) l)) mod w64)%N.
Proof.
  induction l as [|x l IH]; intros i sent s pre post El Ei; cbn [handle_loop length].
  - eexists _, _. split; [reflexivity|]. cbn. rewrite app_nil_r, N.add_0_r. by destruct s.
  - replace (notifs s !! i) with (Some x).
    2:{ rewrite El. rewrite lookup_app_r by lia. by rewrite Ei, Nat.sub_diag. }
    cbn [hand]. destruct (update (ust s) x) as [u k] eqn:Eu.
    destruct (IH (S i) ((sent + k) mod w64)%N
      (Rst (buff s) (rq s) (notifs s) (cnt s) u (recv s) (send s) (arrived s) (handed s ++ [x]) (checks s))
      (pre ++ [x]) post) as (s' & k' & E & Es & Ek).
    { cbn. rewrite El. by rewrite <- app_assoc. }
    { rewrite app_length. cbn. lia. }
    exists s', k'. split; [exact E|]. cbn in Es, Ek. destruct (hand update u l) as [u2 k2]. cbn in Es, Ek |- *.
    split; [by rewrite <- app_assoc in Es|]. rewrite Ek, mod_add_l. f_equal. lia.
Qed.

Lemma process_ok x s : rinv s -> exists s', process update x s = Some s' /\ rinv s' /\
  handed s' = handed s ++ batch s /\ cnt s' = 0 /\ arrived s' = arrived s /\ rq s' = rq s /\ buff s' = buff s /\
  checks s' = checks s + (if x && (cnt s =? 0) then 1 else 0).
Proof.
  intros Hs. unfold process.
  destruct (handle_loop_ok (batch s) 0 0%N s [] (skipn (cnt s) (notifs s))) as (s' & k & E & -> & Ek); [|done|].
  { unfold batch. cbn. by rewrite firstn_skipn. }
  assert (Hl : length (batch s) = cnt s).
  { unfold batch. rewrite take_length, (r_len s Hs). pose proof (r_cnt s Hs). lia. }
  rewrite Hl in E. rewrite E. cbn [cnt buff rq notifs ust recv send arrived handed checks].
  assert (Ha : arrived s = (handed s ++ batch s) ++ abs (buff s) ++ rq s).
  { rewrite (r_all s Hs). unfold waiting. by rewrite <- app_assoc. }
  eexists. split; [reflexivity|]. destruct (Nat.eqb_spec (cnt s) 0) as [E0|E0].
  - assert (Hb : batch s = []) by (unfold batch; by rewrite E0). rewrite Hb in *. cbn.
    rewrite app_nil_r in *. split.
    { destruct Hs. constructor; cbn; try done. lia. }
    repeat split; try done. destruct x; cbn; lia.
  - split; [|repeat split; try done; cbn; rewrite andb_false_r; lia].
    destruct Hs as [A B C D F G H]. constructor; cbn; try done.
    + lia.
    + rewrite hand_app. cbn. by rewrite F.
    + rewrite app_length, Hl, G, mod_add_l. by rewrite Nat2N.inj_add.
    + rewrite hand_app. cbn. rewrite H, mod_add_l, <- F. cbn in Ek. rewrite <- mod_add_r, Ek, mod_add_r. done.
Qed.

Lemma rrun_ok cs s : rinv s -> exists s', rrun zero update max s cs = Some s' /\ rinv s'.
Proof.
  revert s. induction cs as [|[e full|x] cs IH]; intros s Hs; cbn.
  - by exists s.
  - destruct (receive_ok e full s Hs) as (s1 & -> & H & _). by apply IH.
  - destruct (process_ok x s Hs) as (s1 & -> & H & _). by apply IH.
Qed.
Lemma rinv_start junk : length junk = max -> rinv (rstart u0 junk).
Proof. intros H. constructor; cbn; try done; [by left|lia]. Qed.

(** ** Progress: nothing new arrives and Accept fails only on an empty queue. *)
Definition quiet (n : nat) : env T := replicate n ([], true).
Lemma accept_quiet (q : list T) n : accept q (quiet (S n)) =
  match q with [] => (None, [], [], quiet n) | x :: q => (Some x, q, [], quiet n) end.
Proof. unfold quiet. cbn. rewrite app_nil_r. by destruct q. Qed.

Lemma queue_loop_quiet fuel n s : rinv s -> cnt s + fuel = max -> (fuel = 0 \/ abs (buff s) = []) -> fuel <= n ->
  exists s' n', queue_loop fuel (quiet n) s = Some (s', quiet n') /\ n - fuel <= n' /\
    cnt s' = Nat.min max (cnt s + length (rq s)).
Proof.
  revert n s. induction fuel as [|fuel IH]; intros n s Hs Hf Hb Hn.
  - exists s, n. repeat split; [lia|]. lia.
  - destruct n as [|n]; [lia|]. destruct Hb as [|Hb]; [lia|]. cbn [queue_loop]. rewrite accept_quiet.
    destruct (rq s) as [|x q] eqn:Eq.
    + eexists _, n. split; [reflexivity|]. cbn. lia.
    + destruct (put_ok (notifs s) (cnt s) x) as (-> & Ef). { rewrite (r_len s Hs). lia. }
      set (s1 := Rst (buff s) q _ _ _ _ _ _ _ _).
      assert (Hw : waiting s1 = waiting s).
      { unfold waiting, batch. cbn. rewrite Ef, Hb, Eq, <- !app_assoc. done. }
      destruct (IH n s1) as (s' & n' & E & H1 & H2).
      * apply (rinv_same s); [done|by repeat split|apply Hs| |cbn; lia|].
        { cbn. by rewrite insert_length, (r_len s Hs). }
        rewrite Hw. cbn. rewrite app_nil_r. apply Hs.
      * cbn. lia.
      * by right.
      * lia.
      * exists s', n'. split; [done|]. split; [lia|]. rewrite H2. cbn. lia.
Qed.

Lemma drain_loop_quiet fuel n (s s' : rst) : drain_loop zero fuel (quiet n) s = Some s' -> arrived s' = arrived s.
Proof.
  revert n s. induction fuel as [|fuel IH]; intros n s; cbn [drain_loop]; [by intros [= <-]|].
  destruct n as [|n]. { cbn. intros [= <-]. cbn. by rewrite app_nil_r. }
  rewrite accept_quiet. destruct (rq s) as [|x q].
  - intros [= <-]. cbn. by rewrite app_nil_r.
  - destruct fast_slow_push_back; [|done]. intros H. apply IH in H. cbn in H. by rewrite app_nil_r in H.
Qed.
Lemma queue_loop_quiet_arrived fuel n (s s' : rst) e : queue_loop fuel (quiet n) s = Some (s', e) ->
  arrived s' = arrived s /\ exists n', e = quiet n'.
Proof.
  revert n s. induction fuel as [|fuel IH]; intros n s; cbn [queue_loop]; [intros [= <- <-]; eauto|].
  destruct n as [|n]. { cbn. intros [= <- <-]. cbn. rewrite app_nil_r. split; [done|by exists 0]. }
  rewrite accept_quiet. destruct (rq s) as [|x q].
  - intros [= <- <-]. cbn. rewrite app_nil_r. eauto.
  - destruct put_notif; [|done]. intros H. apply IH in H. cbn in H. by rewrite app_nil_r in H.
Qed.

Lemma receive_quiet n full s : rinv s -> max <= n ->
  exists s', receive zero max (quiet n) full s = Some s' /\ rinv s' /\ same s s' /\ arrived s' = arrived s /\
    cnt s' = Nat.min max (length (waiting s)).
Proof.
  intros Hs Hn. destruct (receive_ok (quiet n) full s Hs) as (s' & E & H1 & H2 & _).
  exists s'. split; [done|]. split; [done|]. split; [done|]. revert E. unfold receive.
  pose proof (r_cnt s Hs) as Hc.
  assert (Hl : length (waiting s) = cnt s + length (abs (buff s)) + length (rq s)).
  { unfold waiting, batch. rewrite !app_length, take_length, (r_len s Hs). lia. }
  assert (exists s1, (if dlen (buff s) =? 0 then Some s else pop_loop zero (max - cnt s) s) = Some s1 /\ rinv s1 /\
    rq s1 = rq s /\ arrived s1 = arrived s /\ cnt s1 = Nat.min max (cnt s + length (abs (buff s))) /\
    (cnt s1 = max \/ abs (buff s1) = [])) as (s1 & -> & K1 & K2 & K3 & K4 & K5).
  { destruct (Nat.eqb_spec (dlen (buff s)) 0) as [E|E].
    - exists s. rewrite (abs_nil_dlen _ E). cbn. repeat split; try done; try apply Hs; [lia|]. by right.
    - destruct (pop_loop_ok (max - cnt s) s) as (s1 & A & B & C & D & F & G & K & K'); [done|lia|]. by exists s1. }
  destruct (queue_loop_quiet (max - cnt s1) n s1 K1) as (s2 & n' & E2 & L1 & L2).
  { pose proof (r_cnt s1 K1). lia. } { destruct K5 as [->|]; [left; lia|by right]. } { lia. }
  rewrite E2. destruct (queue_loop_quiet_arrived _ _ _ _ _ E2) as [L3 _].
  assert (Hc2 : cnt s2 = Nat.min max (length (waiting s))) by (rewrite L2, K4, K2, Hl; lia).
  destruct full.
  - intros E. pose proof (drain_loop_quiet _ _ _ _ E) as L4.
    assert (rinv s2).
    { destruct (queue_loop_ok (max - cnt s1) (quiet n) s1) as (s2' & e' & E2' & ? & _); [done| | |].
      { pose proof (r_cnt s1 K1). lia. } { destruct K5 as [->|]; [left; lia|by right]. }
      rewrite E2 in E2'. by injection E2' as <- <-. }
    destruct (drain_loop_ok (length (quiet n')) (quiet n') s2) as (s3 & E3 & _ & _ & _ & L5 & _); [done|].
    rewrite E in E3. injection E3 as <-. split; congruence.
  - intros [= <-]. split; congruence.
Qed.
End proofs.
