(** C33: reception of notifications. *)
From Verif Require Import Base Deque_Spec Deque_Model Deque_Proofs Recv_Spec Recv_Model Recv_Proofs.

(** Whatever calls a thread makes, whatever arrives meanwhile and whatever Accept answers: no
    panic; the notifications handed to the vertex update are those that arrived, in that order,
    without omission or repetition, up to some point; the rest is, in order, the pulled batch,
    what the buffer would give when popped until empty, and the queue; the thread's state is that
    of handing exactly these; MsgRecv counts them and MsgSend the messages sent, modulo 2^64. *)
Theorem C33_fifo {T U} (zero : T) (update : U -> T -> U * N) : forall max u0 junk cs,
  length junk = max ->
  exists s buffered, rrun zero update max (rstart u0 junk) cs = Some s /\
    arrived s = handed s ++ firstn (cnt s) (notifs s) ++ buffered ++ rq s /\
    option_map snd (dq_run zero (buff s) (repeat TryUpdatePopFront (length buffered) ++ [Len])) =
      Some (map Elem buffered ++ [Size 0]) /\
    cnt s <= max /\
    ust s = fst (hand update u0 (handed s)) /\
    recv s = (N.of_nat (length (handed s)) mod 2 ^ 64)%N /\
    send s = (snd (hand update u0 (handed s)) mod 2 ^ 64)%N.
Proof.
  intros max u0 junk cs Hj.
  destruct (rrun_ok zero update max u0 cs (rstart u0 junk)) as (s & E & Hs); [by apply rinv_start|].
  exists s, (abs (buff s)). split; [done|]. split; [apply Hs|]. split; [|by destruct Hs].
  destruct (run_ok zero (buff s) (repeat TryUpdatePopFront (length (abs (buff s))) ++ [Len])) as (d & -> & _); [apply Hs|].
  cbn. f_equal. generalize (abs (buff s)). intros l. induction l as [|x l IH]; [done|]. cbn. by rewrite IH.
Qed.
Print Assumptions C33_fifo.

(** CheckTermination is called exactly when asked to and the batch is empty. *)
Theorem C33_check {T U} (zero : T) (update : U -> T -> U * N) : forall max u0 junk cs s x,
  length junk = max -> rrun zero update max (rstart u0 junk) cs = Some s ->
  exists s', process update x s = Some s' /\
    handed s' = handed s ++ firstn (cnt s) (notifs s) /\
    checks s' = checks s + (if x && (cnt s =? 0) then 1 else 0).
Proof.
  intros max u0 junk cs s x Hj E.
  destruct (rrun_ok zero update max u0 cs (rstart u0 junk)) as (s0 & E0 & Hs); [by apply rinv_start|].
  rewrite E in E0. injection E0 as <-.
  destruct (process_ok update max u0 x s Hs) as (s' & H1 & _ & H2 & _ & _ & _ & _ & H3). by exists s'.
Qed.
Print Assumptions C33_check.

(** Progress: in a round (receive, then process) in which nothing new arrives and Accept fails
    only on an empty queue, [max] notifications are handed, or all if there are fewer. *)
Theorem C33_round {T U} (zero : T) (update : U -> T -> U * N) : forall max u0 junk cs s n full x,
  length junk = max -> rrun zero update max (rstart u0 junk) cs = Some s -> max <= n ->
  exists s', rrun zero update max s [Receive (replicate n ([], true)) full; Process x] = Some s' /\
    arrived s' = arrived s /\
    length (handed s') = length (handed s) + Nat.min max (length (arrived s) - length (handed s)).
Proof.
  intros max u0 junk cs s n full x Hj E Hn.
  destruct (rrun_ok zero update max u0 cs (rstart u0 junk)) as (s0 & E0 & Hs); [by apply rinv_start|].
  rewrite E in E0. injection E0 as <-. cbn [rrun rexec].
  destruct (receive_quiet zero update max u0 n full s Hs Hn) as (s1 & E1 & H1 & H2 & H3 & H4). unfold quiet in E1. rewrite E1.
  destruct (process_ok update max u0 x s1 H1) as (s2 & -> & _ & K1 & _ & K2 & _).
  exists s2. split; [done|]. split; [congruence|]. rewrite K1, app_length. unfold batch.
  rewrite take_length, (r_len _ _ _ _ H1), H4. destruct H2 as (_ & _ & _ & -> & _).
  rewrite (r_all _ _ _ _ Hs), app_length. lia.
Qed.
Print Assumptions C33_round.

(** So enough such rounds hand everything. *)
Theorem C33_all_handed {T U} (zero : T) (update : U -> T -> U * N) : forall max u0 junk k cs s n full x,
  length junk = max -> rrun zero update max (rstart u0 junk) cs = Some s -> max <= n ->
  length (arrived s) - length (handed s) <= k * max ->
  exists s', rrun zero update max s (concat (repeat [Receive (replicate n ([], true)) full; Process x] k)) = Some s' /\
    arrived s' = arrived s /\ handed s' = arrived s.
Proof.
  intros max u0 junk k. induction k as [|k IH]; intros cs s n full x Hj E Hn Hk.
  - exists s. split; [done|]. split; [done|].
    destruct (rrun_ok zero update max u0 cs (rstart u0 junk)) as (s0 & E0 & Hs); [by apply rinv_start|].
    rewrite E in E0. injection E0 as <-. rewrite (r_all _ _ _ _ Hs) in Hk |- *. rewrite app_length in Hk.
    destruct (waiting s); [by rewrite app_nil_r|cbn in Hk; lia].
  - destruct (C33_round zero update max u0 junk cs s n full x Hj E Hn) as (s1 & E1 & H1 & H2).
    assert (Happ : forall a b s, rrun zero update max s (a ++ b) =
      match rrun zero update max s a with Some s => rrun zero update max s b | None => None end).
    { intros a. induction a as [|c a IHa]; intros b s2; cbn; [done|]. destruct rexec; [apply IHa|done]. }
    destruct (IH (cs ++ [Receive (replicate n ([], true)) full; Process x]) s1 n full x Hj) as (s' & E' & K1 & K2).
    { by rewrite Happ, E. } { done. } { rewrite H1. lia. }
    exists s'. cbn [repeat concat]. rewrite Happ, E1. split; [done|]. split; congruence.
Qed.
Print Assumptions C33_all_handed.

(** Batches of 2: notifications through the array, the buffer (drained twice, once while it
    still holds something) and the queue, with an Accept that fails on a non-empty queue. *)
Example C33_case :
  let up u (x : nat) := (u ++ [x], N.of_nat x) in
  let run cs := option_map (fun s => (handed s, (firstn (cnt s) (notifs s), rq s), (recv s, send s)))
                  (rrun 0 up 2 (rstart [] [0; 0]) cs) in
  let ok := ([], true) in
  let a := [Receive [([1;2;3;4], true); ok; ok; ok; ([5], false)] true; Process true] in
  let b := [Receive [([6], true)] true; Process true] in
  let c := [Receive [ok; ([7;8;9], true); ok] true; Process true; Process true] in
  run (firstn 1 a) = Some ([], ([1;2], [5]), (0%N, 0%N)) /\
  run a = Some ([1;2], ([], [5]), (2%N, 3%N)) /\
  run (a ++ b) = Some ([1;2;3;4], ([], [6]), (4%N, 10%N)) /\
  run (a ++ b ++ c) = Some ([1;2;3;4;5;6], ([], [9]), (6%N, 21%N)) /\
  run (a ++ b ++ c ++ [Receive [] false]) = Some ([1;2;3;4;5;6], ([7;8], [9]), (6%N, 21%N)).
Proof. vm_compute. repeat split; reflexivity. Qed.
