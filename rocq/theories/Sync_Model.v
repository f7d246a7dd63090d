(** Model of the synchronous engine, graph/run-sync.go:17-50 (ConvergeSync), generic in the
    algorithm.  Within a round every thread goes through its vertices in order
    (graph/graph.go NodeParallelFor), the threads in any interleaving of their accesses to shared
    memory; a round ends when all are through.  Sending is as in Engine_Model.v.
    The comparison with an oracle (Options.OracleCompareSync) is not modelled. *)
From Verif Require Import Base Engine_Spec Engine_Model Engine_Proofs Sync_Spec.

(** The vertices of threads 0, ..., n-1. *)
Definition all_verts (n : nat) (verts : nat -> list nat) : list nat := concat (map verts (seq 0 n)).

Section sync.
Context (a : alg) (owner : nat -> nat) (n : nat) (verts : nat -> list nat).

(** [spos]: how many vertices a thread has visited in this round; [sacc]: the vertex for which it
    is about to call Accept (line 32); [stact]: tActivity. *)
Record sst := Sst {
  sbase : est a; spos : nat -> nat; sacc : nat -> option nat; stact : nat -> nat; sdone : bool; slog : list sevent }.

Definition set_act (s : est a) (v k : nat) : est a :=
  Est (box s) (upd (act s) v k) (queue s) (prop s) (edges s) (todo s) (sent s) (elog s).
Definition pop_queue (s : est a) (t : nat) : est a :=
  Est (box s) (act s) (upd (queue s) t (tail (queue s t))) (prop s) (edges s) (todo s) (sent s) (elog s).

Definition through (s : sst) (t : nat) : bool :=
  (match todo (sbase s) t with [] => true | _ => false end) && (match sacc s t with None => true | _ => false end)
  && (spos s t =? length (verts t))%nat.

Definition sstep (s : sst) (t : nat) : sst :=
  if sdone s || negb (t <? n)%nat then s else
  match todo (sbase s) t with
  | o :: rest =>
      Sst (exec_op a owner (sbase s) t o rest) (spos s) (sacc s)
          (match o with Put _ => upd (stact s) t (S (stact s t)) | _ => stact s end) false (slog s)
  | [] =>
      match sacc s t with
      | Some v => Sst (start_task a (pop_queue (sbase s) t) t [Begin v KUpd]) (spos s) (upd (sacc s) t None) (stact s) false (slog s)
      | None =>
          match verts t !! spos s t with
          | Some v =>                                                               (* lines 28-31 *)
              let active := (act (sbase s) v =? 1)%nat in
              Sst (set_act (sbase s) v 0) (upd (spos s) t (S (spos s t))) (if active then upd (sacc s) t (Some v) else sacc s)
                  (stact s) false (slog s ++ [Visit v active])
          | None =>
              if forallb (through s) (seq 0 n)
              then if (sumt (stact s) n =? 0)%nat
                   then Sst (sbase s) (spos s) (sacc s) (stact s) true (slog s)      (* lines 45-47 *)
                   else Sst (sbase s) (fun _ => 0) (sacc s) (fun _ => 0) false (slog s ++ [Round (act (sbase s))])%nat
              else s
          end
      end
  end.
Definition srun (s : sst) (sched : list nat) : sst := fold_left sstep sched s.

(** After SendInitialMail (line 18) has left the state [e]. *)
Definition sstart (e : est a) : sst := Sst e (fun _ => 0%nat) (fun _ => None) (fun _ => 0%nat) false [Round (act e)].
End sync.
Arguments Sst {a} _ _ _ _ _ _. Arguments sbase {a} _. Arguments spos {a} _. Arguments sacc {a} _. Arguments stact {a} _.
Arguments sdone {a} _. Arguments slog {a} _.

(** graph/run-sync.go:55-101 (ConvergeSyncPrevOnly): a round first takes the mail of all active
    vertices, then updates them.  While mail is taken nobody sends, so visiting a vertex, with
    Accept and MailRetrieve, is one step there. *)
Section prev.
Context (a : alg) (owner : nat -> nat) (n : nat) (verts : nat -> list nat).

(** [pgather]: the first part of a round; [plast]: frontier and mailLast. *)
Record pst := Pst {
  pbase : est a; pgather : bool; ppos : nat -> nat; plast : nat -> option (list (cell_t a)); ptact : nat -> nat;
  pdone : bool; plog : list (pevent (cell_t a)) }.

Definition pthrough (s : pst) (t : nat) : bool :=
  (match todo (pbase s) t with [] => true | _ => false end) && (ppos s t =? length (verts t))%nat.
Definition read_all (b : list (cell_t a)) : list (cell_t a) := map (fun c => snd (take a c)) b.

Definition pstep (s : pst) (t : nat) : pst :=
  let e := pbase s in
  if pdone s || negb (t <? n)%nat then s else
  match todo e t with
  | o :: rest =>
      Pst (exec_op a owner e t o rest) (pgather s) (ppos s) (plast s)
          (match o with Put _ => upd (ptact s) t (S (ptact s t)) | _ => ptact s end) false (plog s)
  | [] =>
      match verts t !! ppos s t with
      | Some v =>
          if pgather s
          then if (act e v =? 1)%nat                                                  (* lines 69-75 *)
               then Pst (Est (upd (box e) v (map (fun c => fst (take a c)) (box e v))) (upd (act e) v 0%nat) (upd (queue e) t (tail (queue e t)))
                             (prop e) (edges e) (todo e) (sent e) (elog e ++ [Began v]))
                        true (upd (ppos s) t (S (ppos s t))) (upd (plast s) v (Some (read_all (box e v)))) (ptact s) false (plog s)
               else Pst (set_act a e v 0) true (upd (ppos s) t (S (ppos s t))) (plast s) (ptact s) false (plog s)
          else match plast s v with                                                   (* lines 81-88 *)
               | Some got =>
                   let '(p, ms, ms') := react a v KUpd (prop e v) (edges e v) got in
                   Pst (start_task a (Est (box e) (act e) (queue e) (upd (prop e) v p) (edges e) (todo e) (sent e) (elog e)) t
                          (map (fun '(d, m) => Merge v d m) ms ++ [Else (map (fun '(d, m) => (v, d, m)) ms')]))
                       false (upd (ppos s) t (S (ppos s t))) (upd (plast s) v None) (ptact s) false (plog s ++ [Update v got])
               | None => Pst e false (upd (ppos s) t (S (ppos s t))) (plast s) (ptact s) false (plog s)
               end
      | None =>
          if forallb (pthrough s) (seq 0 n)
          then if pgather s then Pst e false (fun _ => 0%nat) (plast s) (ptact s) false (plog s)
               else if (sumt (ptact s) n =? 0)%nat
               then Pst e false (ppos s) (plast s) (ptact s) true (plog s)             (* lines 96-98 *)
               else Pst e true (fun _ => 0%nat) (plast s) (fun _ => 0%nat) false (plog s ++ [PRound (act e) (box e)])
          else s
      end
  end.
Definition prun (s : pst) (sched : list nat) : pst := fold_left pstep sched s.
Definition pstart (e : est a) : pst := Pst e true (fun _ => 0%nat) (fun _ => None) (fun _ => 0%nat) false [PRound (act e) (box e)].
End prev.
Arguments Pst {a} _ _ _ _ _ _ _. Arguments pbase {a} _. Arguments pgather {a} _. Arguments ppos {a} _. Arguments plast {a} _.
Arguments ptact {a} _. Arguments pdone {a} _. Arguments plog {a} _.
