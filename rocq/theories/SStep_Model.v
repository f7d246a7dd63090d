(** Super-steps: graph/superstep.go, with the loop that calls it (graph/run-async.go:207-230,
    graph/run-dynamic.go:285-287) and CheckTermination (Term_Model).

    The two channels have room for all threads (superstep.go:8-11), so that sending never blocks; all
    tokens are alike, so a channel is a number.  OnSuperStepConverged is any number of messages, each one
    step.  Not modelled: what OnSuperStepConverged does to vertices; epochs (see C62). *)
From Verif Require Import Base Term_Model.
Open Scope nat_scope.

Inductive phase :=
| Loop                     (* the loop; CheckTermination that ends in [Done] returned true *)
| Asleep                   (* superstep.go:33, after line 32 *)
| Collect (i : nat)        (* 17-19 *)
| Super (k : N)            (* 22: OnSuperStepConverged, [k] messages sent so far *)
| Wipe (i j : nat)         (* termination.go:103-109: thread [i], the [j]-th of its three fields *)
| Free (i : nat)           (* 28-30 *)
| Last                     (* 36: CheckTermination *)
| Out.                     (* it returned true: the thread is completed *)

Record sst := Sst { trm : st; ph : nat -> phase; dn : nat; rs : nat }.  (* doneMessages, resumeMessages *)
Definition set_ph (s : sst) (t : nat) (p : phase) : sst := Sst (trm s) (fset (ph s) t p) (dn s) (rs s).
Definition set_trm (s : sst) (x : st) : sst := Sst x (ph s) (dn s) (rs s).

(** A step of the loop or of CheckTermination; a step of the barrier; a message of OnSuperStepConverged. *)
Inductive schoice := Ctl (c : choice) | Act | Give (u : nat).

Definition zero (j i : nat) (s : st) : st :=
  match j with 0 => set_vote s i 0 | 1 => set_view s i 0 | _ => set_data s i 0 end.
(** CheckTermination has returned false. *)
Definition back (p : pc) : bool := match p with Recv _ => true | _ => false end.

Definition sgo (swap : bool) (n : nat) (s : sst) (t : nat) (c : schoice) : sst :=
  match ph s t, c with
  | Loop, Act =>
      match at_ (trm s) t with
      | Done => if t =? 0 then set_ph s t (Collect 1) else set_ph (Sst (trm s) (ph s) (S (dn s)) (rs s)) t Asleep
      | _ => s
      end
  | Loop, Ctl c => set_trm s (step swap n (trm s) (t, c))
  | Collect i, Act =>
      if i <? n then match dn s with O => s | S d => set_ph (Sst (trm s) (ph s) d (rs s)) t (Collect (S i)) end
      else set_ph s t (Super 0)
  | Super k, Give u => if u <? n then set_ph (set_trm s (set_queue (trm s) u (queue (trm s) u + 1)%N)) t (Super (k + 1)) else s
  | Super k, Act =>
      if (k =? 0)%N then set_ph s t (Free 1)
      else set_ph (set_trm s (set_cnt (trm s) t (cnt (trm s) t + k)%N)) t (Wipe 0 0)
  | Wipe i j, Act =>
      if i <? n then set_ph (set_trm s (zero j i (trm s))) t (if j <? 2 then Wipe i (S j) else Wipe (S i) 0)
      else set_ph s t (Free 1)
  | Free i, Act =>
      if i <? n then set_ph (Sst (trm s) (ph s) (dn s) (S (rs s))) t (Free (S i))
      else set_ph (set_trm s (at_pc (trm s) t K0)) t Last
  | Asleep, Act =>
      match rs s with O => s | S r => set_ph (Sst (at_pc (trm s) t K0) (ph s) (dn s) r) t Last end
  | Last, Act => match at_ (trm s) t with Done => set_ph s t Out | _ => s end
  | Last, Ctl c =>
      let x := step swap n (trm s) (t, c) in
      set_ph (set_trm s x) t (if back (at_ x t) then Loop else Last)
  | _, _ => s
  end.
Definition sstep (swap : bool) (n : nat) (s : sst) (x : nat * schoice) : sst :=
  if fst x <? n then sgo swap n s (fst x) (snd x) else s.
Definition srun (swap : bool) (n : nat) (s : sst) (sched : list (nat * schoice)) : sst := fold_left (sstep swap n) sched s.
Definition sstart (own : nat -> bool) (q c : nat -> N) : sst := Sst (start own q c) (fun _ => Loop) 0 0.

(** The barrier alone (superstep.go:17-34 without the termination check): threads come to it when they
    like.  [At r]: at work, after passing it [r] times; [In r]: asleep for the [r]-th time; thread 0 collects,
    is alone ([Alone]), or frees. *)
Inductive bph := At (r : nat) | In (r : nat) | Coll (r i : nat) | Alone (r : nat) | Freeing (r i : nat).
Record bst := Bst { bp : nat -> bph; bd : nat; br : nat }.
Definition bgo (n : nat) (s : bst) (t : nat) : bst :=
  match bp s t with
  | At r => if t =? 0 then Bst (fset (bp s) t (Coll r 1)) (bd s) (br s) else Bst (fset (bp s) t (In r)) (S (bd s)) (br s)
  | In r => match br s with O => s | S k => Bst (fset (bp s) t (At (S r))) (bd s) k end
  | Coll r i => if i <? n then match bd s with O => s | S d => Bst (fset (bp s) t (Coll r (S i))) d (br s) end
                else Bst (fset (bp s) t (Alone r)) (bd s) (br s)
  | Alone r => Bst (fset (bp s) t (Freeing r 1)) (bd s) (br s)
  | Freeing r i => if i <? n then Bst (fset (bp s) t (Freeing r (S i))) (bd s) (S (br s))
                   else Bst (fset (bp s) t (At (S r))) (bd s) (br s)
  end.
Definition brun (n : nat) (s : bst) (sched : list nat) : bst := fold_left (fun s t => if t <? n then bgo n s t else s) sched s.
Definition bstart : bst := Bst (fun _ => At 0) 0 0.
