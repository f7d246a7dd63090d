(** C97: the single-producer calls of RingBuffMPSC. *)
From Verif Require Import Base Helpers_RoundUp MPSC_Spec MPSC_Model MPSC_Proofs MPSC_Props OfferSP_Model OfferSP_Proofs.
Open Scope N_scope.

(** A run of the queue made by Init(n) (204-213): one producer with the calls [prog], one consumer. *)
Definition sp_log {T} n (junk : T) prog kpr sched : list (mev T) := mlog (fst (sp_run (round_up_pow n - 1) (mpsc_init junk [prog] kpr, false) sched)).

Lemma sp_sim {T} (junk : T) n prog kpr sched : 2 <= n -> n <= 2 ^ 63 ->
  exists k sched', 1 <= k /\ k < 64 /\ round_up_pow n = 2 ^ k /\ sp_log n junk prog kpr sched = mlog (mpsc_run n junk [prog] kpr sched') /\ fair_no k (sp_log n junk prog kpr sched).
Proof.
  intros H1 H2. unfold sp_log, mpsc_run. destruct (mpsc_mask n H1 H2) as (k & Hk & Hk2 & -> & Es).
  destruct (rel_run k Hk Hk2 sched (mpsc_init junk [prog] kpr, false) (mpsc_init junk [prog] kpr)) as (sched' & (pc & pr & sl & _ & _ & E & _) & F).
  - by apply minv_init.
  - exists MIdle, prog, (fun i => (i, junk)). done.
  - intros l p v r E. by destruct l.
  - exists k, sched'. rewrite E. done.
Qed.

(** OfferSP writes the element before it takes its ticket, without an atomic operation.  With one producer nobody can tell: every run has the events
    of a run of the multi-producer calls, so the claims of C12 hold. *)
Theorem C97_as_multi {T} (junk : T) n prog kpr sched : 2 <= n -> n <= 2 ^ 63 -> exists sched', sp_log n junk prog kpr sched = mlog (mpsc_run n junk [prog] kpr sched').
Proof. intros H1 H2. destruct (sp_sim junk n prog kpr sched H1 H2) as (k & sched' & _ & _ & _ & E & _). eauto. Qed.

(** What the consumer has got is the first items whose ticket was taken, in order; the producer's calls are answered in order; every event is one that a
    ticket queue may produce. *)
Theorem C97_fifo {T} (junk : T) n prog kpr sched : 2 <= n -> n <= 2 ^ 63 -> forall lg, lg = sp_log n junk prog kpr sched ->
  (exists pending, map snd (claims lg) = gots lg ++ pending) /\ (forall l e r, lg = l ++ e :: r -> mjust (round_up_pow n) l e) /\
  (exists answered rest, prog = answered ++ rest /\ Forall2 (manswer 0) answered (List.filter (ends_call 0) lg)).
Proof.
  intros H1 H2 lg ->. destruct (C97_as_multi junk n prog kpr sched H1 H2) as [sched' E].
  destruct (C12_fifo_no_loss junk n [prog] kpr sched' H1 H2 _ E) as (A & _). destruct (C12_ticket_queue junk n [prog] kpr sched' H1 H2 _ E) as (B & C & _).
  split; [exact A|]. split; [exact B|]. by apply (C 0%nat).
Qed.

(** With one producer an offer is refused only when all places are taken (several producers: also when another one was faster). *)
Theorem C97_refused_full {T} (junk : T) n prog kpr sched l p v r : 2 <= n -> n <= 2 ^ 63 ->
  sp_log n junk prog kpr sched = l ++ ERefuse p v :: r -> N.of_nat (length (gots l)) + round_up_pow n <= N.of_nat (length (claims l)).
Proof.
  intros H1 H2 E. destruct (sp_sim junk n prog kpr sched H1 H2) as (k & sched' & Hk & Hk2 & Es & _ & F). specialize (F _ _ _ _ E). rewrite Es. exact F.
Qed.

(** A queue of 2: two offers, a third one is refused, the consumer takes one, the fourth offer succeeds; between lines 252 and 253 the consumer still counts 1. *)
Example C97_case :
  sp_log 2 0%nat [MOffer 5%nat; MOffer 6%nat; MOffer 7%nat; MOffer 8%nat] [MAvail; MAvail; MAccept; MGet; MAccept; MAccept]
    ([true; true; true; true; true] ++ [true; true; true; false; true; false; true] ++ [true; true] ++ [false; false; false] ++ [true; true; true; true; true] ++ repeat false 7) =
  [EStart 0%nat; EClaim 0%nat 5%nat; EDone 0%nat 0 5%nat; EStart 0%nat; EAvail 1; EClaim 0%nat 6%nat; EAvail 2; EDone 0%nat 1 6%nat; EStart 0%nat; ERefuse 0%nat 7%nat;
   EGot 5%nat; EStart 0%nat; EClaim 0%nat 8%nat; EDone 0%nat 2 8%nat; EGot 6%nat; EGot 8%nat; EEmpty].
Proof. vm_compute. reflexivity. Qed.

Print Assumptions C97_as_multi.
Print Assumptions C97_fifo.
Print Assumptions C97_refused_full.
