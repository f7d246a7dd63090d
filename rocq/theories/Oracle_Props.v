(** C74: comparing with a solution computed anew in the middle of a run. *)
From Verif Require Import Base RBO_Spec QcUtil Engine_Spec Engine_Model Engine_Proofs Engine_Shape Engine_Props.
From Verif Require Import Rank_Spec Rank_Model Finish_Model Whole_Model Whole_Proofs Whole_Props Query_Spec Query_Proofs Query_Props Block_Spec Block_Model Block_Proofs Block_Props Oracle_Model Oracle_Proofs.
From Verif Require Term_Model Term_Proofs.
From Coq Require Import QArith Qcanon.
Open Scope nat_scope.

(** The properties of the vertices in a state. *)
Definition set_prop {a} (e : est a) (p : nat -> prop_t a) : est a :=
  Est (box e) (act e) (queue e) p (edges e) (todo e) (sent e) (elog e).
Definition set_eng {a} (w : wst a) (e : est a) : wst a := Wst a e (trm w) (did w) (nsend w) (nrecv w).
Definition wset {a} (w : wst a) (p : nat -> prop_t a) : wst a := set_eng w (set_prop (eng w) p).
Lemma wset_get {a} (w : wst a) : wset w (prop (eng w)) = w.
Proof. by destruct w as [[] ? ? ? ?]. Qed.

Section epoch.
Context (a : alg) (owner : nat -> nat) (swap : bool) (n : nat) (Hown : forall v, owner v < n).
Context (evs : list (nat * (nat * edge_t a))) (ask : nat -> bool).
Definition qget (s : qst a) : nat -> prop_t a := prop (eng (who s)).
Definition qset (s : qst a) (p : nat -> prop_t a) : qst a := set_who a s (wset (who s) p).
Definition qlooking (s : qst a) : bool := match lg s with LResume 0 => true | _ => false end.
Definition q_is_log (x : actor a) : bool := match x with Logger => true | _ => false end.
Notation qstep := (qstep a owner swap n evs ask).
Notation qrun := (qrun a owner swap n evs ask).
Notation ocrun := (crun qstep qget qset qlooking q_is_log).
Notation okept := (kept qstep qget qset qlooking q_is_log).

Lemma q_frozen e s x : qinv a owner swap n evs ask e s -> qlooking s = true -> q_is_log x = false -> forall p, qstep (qset s p) x = qset s p /\ qstep s x = s.
Proof.
  intros H Hl Hx p. unfold qlooking in Hl. destruct (lg s) as [| | | |[|]] eqn:El; try done.
  assert (Er : rem s = Asked) by (apply (q_asking _ _ _ _ _ _ _ _ H); by rewrite El).
  destruct x as [| |t x]; [|done|]; cbn [Query_Model.qstep].
  - unfold remit. by cbn [rem qset set_who]; rewrite Er.
  - unfold tstep. destruct (Nat.leb_spec n t) as [|Ht]; [done|]. destruct (q_mode _ _ _ _ _ _ _ _ H t Ht) as (m & Hm & Hin).
    rewrite El in Hm. cbn in Hm. subst m. destruct Hin as (_ & Ha & Hc & _). cbn [acked cmds qset set_who]. rewrite Ha, Hc. by destruct x.
Qed.

(** While all threads wait for RESUME at the end of an epoch, comparing, with whatever OnFinish does,
    leaves no trace: the program goes on as without it. *)
Theorem C74_epoch e sent0 sched : fresh n e sent0 ->
  let s := ocrun (cstart (qstart a e sent0)) sched in let l := okept (cstart (qstart a e sent0)) sched in
  l `sublist_of` plains sched /\ (stash s = None -> sys s = qrun (qstart a e sent0) l).
Proof.
  intros (F1 & F2 & F3) s l. split; [apply kept_sub|]. intros Hs.
  assert (HI : qinv a owner swap n evs ask e (qstart a e sent0)) by by apply (qstart_inv a owner swap n Hown).
  pose proof (follows_run qstep qget qset qlooking q_is_log (fun s => s) (qinv a owner swap n evs ask e)) as HF.
  assert (K : follows qget qset qlooking (fun s => s) (qinv a owner swap n evs ask e) s (fold_left qstep l (qstart a e sent0))).
  { apply HF; clear HF; try done.
    - intros s1 x. by apply (qstep_inv a owner swap n Hown).
    - intros s1. unfold qset, qget. rewrite wset_get. by destruct s1.
    - intros s1 x p H Hl Hx. destruct (q_frozen e s1 x H Hl Hx p) as [-> ->]. done. }
  destruct K as [_ K]. rewrite Hs in K. exact K.
Qed.
End epoch.

Section block.
Context (a : alg) (owner : nat -> nat) (swap : bool) (n : nat) (Hown : forall v, owner v < n).
Context (evs : list (nat * (nat * edge_t a))) (ask : nat -> bool) (async : bool) (verts : list nat).
Definition bget (s : bst a) : nat -> prop_t a := prop (eng (bwho s)).
Definition bset (s : bst a) (p : nat -> prop_t a) : bst a := bset_who a s (wset (bwho s) p).
Definition blooks (s : bst a) : bool := match blg s with LResume 0 => true | _ => false end.
Definition b_is_log (x : bactor a) : bool := match x with BLogger => true | _ => false end.
(** Without what the finishing goroutine has read. *)
Definition unread (s : bst a) : bst a :=
  Bst a (bwho s) (btq s) (bbatch s) (top s) (held s) (bcmds s) (bresp s) (bnxt s) (brem s) (blg s) (bseen s) (fin s) (fun _ => None).
Notation bstep := (bstep a owner swap n evs ask async verts).
Notation brun := (brun a owner swap n evs ask async verts).
Notation ocrun := (crun bstep bget bset blooks b_is_log).
Notation okept := (kept bstep bget bset blooks b_is_log).

Lemma unread_step s x : unread (bstep (unread s) x) = unread (bstep s x).
Proof.
  destruct x as [| |t x|v]; cbn [Block_Model.bstep].
  - unfold bremit. cbn [brem bnxt unread]. destruct (brem s); try done. by destruct (nth_error evs (bnxt s)) as [[]|].
  - unfold blog_step. cbn [blg brem bcmds bresp fin unread]. destruct (blg s); repeat case_match; done.
  - unfold btstep. cbn [held bcmds unread]. destruct (n <=? t); [done|]. destruct (held s t).
    + destruct x, (bcmds s t) as [|[] ?]; done.
    + destruct x as [|x|k r| |]; try done.
      * unfold btake. cbn [bcmds unread]. destruct (bcmds s t) as [|c l]; [done|]. change (breceiving a (unread s) t) with (breceiving a s t).
        destruct (breceiving a s t); [|done]. cbn [bresp unread]. destruct c, (bresp s t =? 0); done.
      * unfold bloop. change (blooking a (unread s) t) with (blooking a s t). change (closed_now a (unread s) t) with (closed_now a s t). cbn [btq bbatch top bwho unread].
        destruct x as [[]|[]]; try done; repeat case_match; done.
      * unfold bpull. change (bmay_pull a (unread s) t k r) with (bmay_pull a s t k r). by destruct (bmay_pull a s t k r).
  - unfold bread. cbn [fin unread]. by destruct (existsb (Nat.eqb v) (fin s)).
Qed.
Lemma b_still e s x p : async = false -> binv a owner swap n evs ask async e s -> blooks s = true -> b_is_log x = false ->
  unread (bstep (bset s p) x) = unread (bset (bstep s x) p) /\ bget (bstep s x) = bget s /\ blooks (bstep s x) = true.
Proof.
  intros Ea H Hl Hx. unfold blooks in *. destruct (blg s) as [| | | |[|]] eqn:El; try done.
  assert (Er : brem s = Asked) by (apply (b_asking _ _ _ _ _ _ _ _ _ H); by rewrite El).
  destruct x as [| |t x|v]; [|done| |]; cbn [Block_Model.bstep].
  - unfold bremit. cbn [brem bset bset_who]. rewrite Er. by rewrite El.
  - assert (K : btstep a owner swap n s t x = s /\ btstep a owner swap n (bset s p) t x = bset s p).
    { unfold btstep. destruct (Nat.leb_spec n t) as [|Ht]; [done|]. destruct (b_mode _ _ _ _ _ _ _ _ _ H t Ht) as (m & Hm & Hin).
      rewrite El in Hm. cbn in Hm. subst m. destruct Hin as (Hb & Hc & _). unfold blocked in Hb. rewrite Ea in Hb. destruct Hb as (_ & Hh & _).
      cbn [held bcmds bset bset_who]. rewrite Hh, Hc. by destruct x. }
    destruct K as [-> ->]. by rewrite El.
  - unfold bread. cbn [fin bset bset_who]. destruct (existsb (Nat.eqb v) (fin s)); cbn; by rewrite El.
Qed.

(** With BLOCK_ALL: no trace but in what the finishing goroutine reads. *)
Theorem C74_block e sent0 sched : fresh n e sent0 -> async = false ->
  let s := ocrun (cstart (bstart a e sent0)) sched in let l := okept (cstart (bstart a e sent0)) sched in
  l `sublist_of` plains sched /\ (stash s = None -> unread (sys s) = unread (brun (bstart a e sent0) l)).
Proof.
  intros F Ea s l. split; [apply kept_sub|]. intros Hs.
  assert (HI : binv a owner swap n evs ask async e (bstart a e sent0)) by (destruct F as (F1 & F2 & F3); by apply (bstart_inv a owner swap n Hown)).
  pose proof (follows_run bstep bget bset blooks b_is_log unread (binv a owner swap n evs ask async e)) as HF.
  assert (K : follows bget bset blooks unread (binv a owner swap n evs ask async e) s (fold_left bstep l (bstart a e sent0))).
  { apply HF; clear HF; try done.
    - intros s1 x. by apply (bstep_inv a owner swap n Hown).
    - intros s1. unfold bset, bget. rewrite wset_get. by destruct s1.
    - apply unread_step.
    - intros s1 x p. by apply b_still. }
  destruct K as [_ K]. rewrite Hs in K. exact K.
Qed.

(** So a run with comparisons also ends as it should. *)
Theorem C74_end e sent0 sched : fresh n e sent0 -> async = false ->
  let s := ocrun (cstart (bstart a e sent0)) sched in
  stash s = None -> 0 < n -> (forall t, t < n -> left (bwho (sys s)) t) ->
  eng (bwho (sys s)) = erun a owner e (bworks a owner swap n evs ask async verts (bstart a e sent0) (okept (cstart (bstart a e sent0)) sched)) /\
  idle (eng (bwho (sys s))) /\ complete n (bwho (sys s)) = true /\ (forall v, edges (eng (bwho (sys s))) v = edges e v ++ out evs v) /\
  bseen (sys s) = List.filter ask (seq 1 (length evs)).
Proof.
  intros F Ea s Hs Hn Hl. destruct (C74_block e sent0 sched F Ea) as [_ K]. specialize (K Hs). fold s in K.
  set (l := okept (cstart (bstart a e sent0)) sched) in *.
  assert (Ew : bwho (sys s) = bwho (brun (bstart a e sent0) l)) by exact (f_equal bwho K).
  assert (Es : bseen (sys s) = bseen (brun (bstart a e sent0) l)) by exact (f_equal bseen K).
  rewrite Ew, Es in *. split; [by rewrite bwork_run|]. by apply (C73_end a owner swap n Hown evs ask async verts e sent0 l F Hn).
Qed.
End block.

(** PageRank, one thread, two vertices, the stream of C73: 0 -> 1, then (after a query) 1 -> 0. *)
Notation ocst := (@cst (bst ranking) rprop). Notation oact := (@cactor (bactor ranking) rprop).
Section demo.
Context (async : bool).
Notation bstep := (bstep ranking (fun _ => 0) false 1 k_stream k_ask async [0; 1]).
Definition o_run (s : ocst) (l : list oact) : ocst := crun bstep (bget ranking) (bset ranking) (blooks ranking) (b_is_log ranking) s l.
Definition o_choose (s : bst ranking) : tchoice ranking :=
  if held s 0 then Awake else
  match Term_Model.at_ (trm (bwho s)) 0 with
  | Term_Model.Recv _ => if nil (bcmds s 0) then Loop (Ctl Term_Model.Go) else Take
  | Term_Model.Look _ =>
      if top s 0 then Loop (Ctl Term_Model.Go) else
      match btq s 0 with _ :: _ => Pull 1 0 | [] => if bfinished ranking s then Loop (Ctl Term_Model.Close) else Loop (Ctl Term_Model.Go) end
  | Term_Model.Work got _ own =>
      match todo (eng (bwho s)) 0, bbatch s 0 with
      | _ :: _, _ => Loop (Do Run)
      | [], x :: _ => Loop (Do (AddEdges (a := ranking) (fst x) []))
      | [], [] => if (did (bwho s) 0 <? got)%N then Loop (Do Pop) else Loop (Ctl Term_Model.Finish)
      end
  | _ => Loop (Ctl Term_Model.Go)
  end.
Fixpoint o_drive (k : nat) (s : ocst) : list oact :=
  match k with
  | O => []
  | S k => if match Term_Model.at_ (trm (bwho (sys s))) 0 with Term_Model.Done => true | _ => false end then []
           else let x := Plain (BThread 0 (o_choose (sys s))) in x :: o_drive k (o_run s [x])
  end.
(** What OnFinish is given. *)
Definition o_view (s : bst ranking) : list Finish_Model.fin :=
  map (fun v => Finish_Model.Fin (fst (prop (eng (bwho s)) v)) (snd (prop (eng (bwho s)) v)) (length (edges (eng (bwho s)) v)) false) [0; 1].
Definition o_s0 : ocst := cstart k_s0.
(** Up to where the query has looked, and the properties are saved. *)
Definition o_before : list oact := map Plain k_upto ++ [Plain BLogger; Stash].
(** The thread goes on, if it is not held. *)
Definition o_mid : list oact := o_drive 60 (o_run o_s0 o_before).
Definition o_q : list (Qc * Qc) := match Finish_Model.finish (o_view (sys (o_run o_s0 (o_before ++ o_mid)))) with Some l => l | None => [] end.
Definition o_finish : list oact := match o_q with [q0; q1] => [Write 0 q0; Write 1 q1] | _ => [] end.
Definition o_restored : list oact := o_before ++ o_mid ++ o_finish ++ [Restore; Plain BLogger; Plain BLogger; Plain BRemitter; Plain BRemitter].
Definition o_rest : list oact := o_drive 3000 (o_run o_s0 o_restored).
End demo.

(** Both vertices should end with 1. *)
Lemma o_exact : exact_ranks DAMP 2 (fun v => [1 - v]) (fun _ => 1%Qc) (fun _ => 1%Qc).
Proof. intros v Hv. destruct v as [|[|v]]; [| |lia]; apply Qc_is_canon; by vm_compute. Qed.

(** With BLOCK_TOP (PageRank's own settings) the thread goes on while the properties are saved: what it takes in
    is lost when they are put back.  The program ends, and its result is wrong. *)
Definition ended (s : bst ranking) : Prop := left (bwho s) 0 /\ brem s = Finished /\ blg s = LWait /\ map (fun v => map fst (edges (eng (bwho s)) v)) [0; 1] = [[1]; [0]].
Definition spoils (s0 : ocst) (pre mid : list oact) (q0 q1 : rprop) (post : list oact) : Prop :=
  let s1 := o_run true s0 (pre ++ Stash :: mid) in let s2 := o_run true s1 ([Write 0 q0; Write 1 q1; Restore] ++ post) in
  Finish_Model.finish (o_view (sys s1)) = Some [q0; q1] /\ stash s2 = None /\ ended (sys s2) /\ forall v, v < 2 -> (k_mass (sys s2) v < Q2Qc (5 # 8))%Qc.
Definition q_eqp (x y : rprop) : bool := q_same (fst x) (fst y) && q_same (snd x) (snd y).
Definition spoils_check (s0 : ocst) (pre mid : list oact) (q0 q1 : rprop) (post : list oact) : bool :=
  let s1 := o_run true s0 (pre ++ Stash :: mid) in let s2 := o_run true s1 ([Write 0 q0; Write 1 q1; Restore] ++ post) in
  match Finish_Model.finish (o_view (sys s1)), stash s2, Term_Model.at_ (trm (bwho (sys s2))) 0, brem (sys s2), blg (sys s2) with
  | Some [p0; p1], None, Term_Model.Done, Finished, LWait =>
      q_eqp p0 q0 && q_eqp p1 q1 && bool_decide (map (fun v => map fst (edges (eng (bwho (sys s2))) v)) [0; 1] = [[1]; [0]]) &&
      Rank_Model.qltb (k_mass (sys s2) 0) (Q2Qc (5 # 8)) && Rank_Model.qltb (k_mass (sys s2) 1) (Q2Qc (5 # 8))
  | _, _, _, _, _ => false
  end.
Lemma q_eqp_eq x y : q_eqp x y = true -> x = y.
Proof.
  unfold q_eqp, q_same. destruct x as [x1 x2], y as [y1 y2]. cbn. destruct (Qc_eq_dec x1 y1) as [->|]; [|done]. by destruct (Qc_eq_dec x2 y2) as [->|].
Qed.
Lemma rank_qltb_lt x y : Rank_Model.qltb x y = true -> (x < y)%Qc.
Proof. unfold Rank_Model.qltb. by destruct (Qclt_le_dec x y). Qed.
Lemma spoils_ok s0 pre mid q0 q1 post : spoils_check s0 pre mid q0 q1 post = true -> spoils s0 pre mid q0 q1 post.
Proof.
  unfold spoils_check, spoils. cbv zeta. set (s1 := o_run true s0 (pre ++ Stash :: mid)). clearbody s1.
  set (s2 := o_run true s1 ([Write 0 q0; Write 1 q1; Restore] ++ post)). clearbody s2.
  destruct (Finish_Model.finish (o_view (sys s1))) as [[|p0 [|p1 [|]]]|]; try discriminate.
  destruct (stash s2); try discriminate. unfold ended, left. destruct (Term_Model.at_ (trm (bwho (sys s2))) 0); try discriminate. destruct (brem (sys s2)); try discriminate. destruct (blg (sys s2)); try discriminate.
  rewrite !andb_true_iff. intros ((((E1 & E2) & E3) & E4) & E5). apply q_eqp_eq in E1 as ->. apply q_eqp_eq in E2 as ->. apply bool_decide_eq_true in E3.
  split_and!; try done. intros v Hv. destruct v as [|[|v]]; [| |lia]; by apply rank_qltb_lt.
Qed.
Definition o_q0 : rprop := match o_q true with q :: _ => q | [] => (0, 0)%Qc end.
Definition o_q1 : rprop := match o_q true with [_; q] => q | _ => (0, 0)%Qc end.
Definition o_pre : list oact := map Plain k_upto ++ [Plain BLogger].
Definition o_post : list oact := [Plain BLogger; Plain BLogger; Plain BRemitter; Plain BRemitter] ++ o_rest true.
Lemma spoils_checked : spoils_check o_s0 o_pre (o_mid true) o_q0 o_q1 o_post = true.
Proof. vm_compute. reflexivity. Qed.
Theorem C74_async_refuted : exact_ranks DAMP 2 (fun v => [1 - v]) (fun _ => 1%Qc) (fun _ => 1%Qc) /\
  exists pre mid q0 q1 post, spoils o_s0 pre mid q0 q1 post.
Proof. split; [exact o_exact|]. exists o_pre, (o_mid true), o_q0, o_q1, o_post. apply spoils_ok. exact spoils_checked. Qed.

(** With BLOCK_ALL the program is not harmed, but the finishing goroutine may read what is there for the comparison, and then finishes what
    is finished: here a query that should give 1/2 to both vertices gives a negative rank. *)
Definition t_upto : list (bactor ranking) :=
  firstn (length k_upto - 6) k_upto ++ k_round ++ repeat BLogger 3 ++ [BThread 0 Take] ++ repeat BLogger 2.
Definition t_pre : list oact := map Plain t_upto ++ [Plain BLogger].
Definition o_copy (s : bst ranking) : list Finish_Model.fin :=
  flat_map (fun v => match copy s v with Some (p, k) => [Finish_Model.Fin (fst p) (snd p) k false] | None => [] end) [0; 1].
Definition twice (s0 : ocst) (pre : list oact) (q0 q1 : rprop) : Prop :=
  let s1 := o_run false s0 pre in let s2 := o_run false s1 [Stash; Write 0 q0; Write 1 q1; Plain (BFinisher 0); Plain (BFinisher 1); Restore] in
  blg (sys s1) = LResume 0 /\ Finish_Model.finish (o_view (sys s1)) = Some [q0; q1] /\ snd q0 = Q2Qc (1 # 2) /\ snd q1 = Q2Qc (1 # 2) /\
  stash s2 = None /\ fin (sys s2) = [] /\ exists r0 r1, Finish_Model.finish (o_copy (sys s2)) = Some [r0; r1] /\ (snd r1 < 0)%Qc.
Definition twice_check (s0 : ocst) (pre : list oact) (q0 q1 : rprop) : bool :=
  let s1 := o_run false s0 pre in let s2 := o_run false s1 [Stash; Write 0 q0; Write 1 q1; Plain (BFinisher 0); Plain (BFinisher 1); Restore] in
  match blg (sys s1), Finish_Model.finish (o_view (sys s1)), stash s2, fin (sys s2), Finish_Model.finish (o_copy (sys s2)) with
  | LResume 0, Some [p0; p1], None, [], Some [r0; r1] => q_eqp p0 q0 && q_eqp p1 q1 && q_same (snd q0) (Q2Qc (1 # 2)) && q_same (snd q1) (Q2Qc (1 # 2)) && Rank_Model.qltb (snd r1) 0%Qc
  | _, _, _, _, _ => false
  end.
Lemma twice_ok s0 pre q0 q1 : twice_check s0 pre q0 q1 = true -> twice s0 pre q0 q1.
Proof.
  unfold twice_check, twice. cbv zeta. set (s1 := o_run false s0 pre). clearbody s1.
  set (s2 := o_run false s1 [Stash; Write 0 q0; Write 1 q1; Plain (BFinisher 0); Plain (BFinisher 1); Restore]). clearbody s2.
  destruct (blg (sys s1)) as [| | | |[|]]; try discriminate. destruct (Finish_Model.finish (o_view (sys s1))) as [[|p0 [|p1 [|]]]|]; try discriminate.
  destruct (stash s2); try discriminate. destruct (fin (sys s2)); try discriminate. destruct (Finish_Model.finish (o_copy (sys s2))) as [[|r0 [|r1 [|]]]|]; try discriminate.
  rewrite !andb_true_iff. intros ((((E1 & E2) & E3) & E4) & E5). apply q_eqp_eq in E1 as ->. apply q_eqp_eq in E2 as ->.
  assert (K : forall x y, q_same x y = true -> x = y) by (intros x y; unfold q_same; by destruct (Qc_eq_dec x y)).
  split_and!; try done; [by apply K|by apply K|]. exists r0, r1. split; [done|]. by apply rank_qltb_lt.
Qed.
Definition t_q : list rprop := match Finish_Model.finish (o_view (sys (o_run false o_s0 t_pre))) with Some l => l | None => [] end.
Definition t_q0 : rprop := match t_q with q :: _ => q | [] => (0, 0)%Qc end.
Definition t_q1 : rprop := match t_q with [_; q] => q | _ => (0, 0)%Qc end.
Lemma twice_checked : twice_check o_s0 t_pre t_q0 t_q1 = true.
Proof. vm_compute. reflexivity. Qed.
Theorem C74_finish_twice_refuted : exists pre q0 q1, twice o_s0 pre q0 q1.
Proof. exists t_pre, t_q0, t_q1. apply twice_ok. exact twice_checked. Qed.

(** And a case where all is well: the same program with BLOCK_ALL compares, goes on and ends; as no vertex kept a flow of more than 1/150, both masses are close to 1. *)
Definition w_pre : list oact := t_pre ++ [Stash; Write 0 t_q0; Write 1 t_q1; Restore; Plain BLogger; Plain BLogger; Plain BRemitter; Plain BRemitter].
Definition w_all : list oact := w_pre ++ o_drive false 3000 (o_run false o_s0 w_pre).
Example C74_case : let s := o_run false o_s0 w_all in
  stash s = None /\ ended (sys s) /\ forallb (fun v => Rank_Model.qltb (Q2Qc (19 # 20)) (k_mass (sys s) v) && Rank_Model.qltb (k_mass (sys s) v) (Q2Qc (21 # 20))) [0; 1] = true.
Proof. cbv zeta. split; [by vm_compute|]. split; [unfold ended, left; split_and!; by vm_compute|by vm_compute]. Qed.

Print Assumptions C74_epoch.
Print Assumptions C74_block.
Print Assumptions C74_end.
Print Assumptions C74_async_refuted.
Print Assumptions C74_finish_twice_refuted.
