(** Triangle counting comes to rest, even while edges still arrive: a vertex sends along an edge when the edge is added and
    when it raises its limit past it, and never again. *)
From stdpp Require Import numbers list_numbers.
From Verif Require Import Base TC_Spec Active_Spec Active_Model Active_Proofs TC_Model TC_Count TC_Static TC_Proofs TC_Props Rest_Spec Rest_Gen.
Open Scope nat_scope.

Section rest.
Context (raw : nat -> N) (owner : nat -> nat) (E : list (nat * nat)) (M nt : nat) (st : bool).
Hypothesis Hown : forall v, owner v < nt.
Hypothesis Hraw : forall u v, u < M -> v < M -> raw u = raw v -> u = v.
Hypothesis Hsmall : forall v, v < M -> (raw v < MASK)%N.
Hypothesis Hends : forall a b, (a, b) ∈ E -> a < M /\ b < M.
Notation n := (length (events E)).
Notation spos := (spos E).
Notation tinv := (tinv raw owner E M nt st).
Notation step := (tstep raw owner E).
Ltac tys := change (e_t tcount) with tedge in *; change (n_t tcount) with tnote in *; change (p_t tcount) with tcp in *.
Ltac tlia := tys; lia.

Definition can (s : tst) (t : nat) (c : tchoice) : bool :=
  match c with
  | TRun => match atodo (base s) t with [] => false | _ => true end
  | TPop => match atodo (base s) t, aqueue (base s) t with [], _ :: _ => true | _, _ => false end
  | TNote _ => match atodo (base s) t with [] => true | _ => false end
  | TIn v => match atodo (base s) t, nth_error (ins E v) (got s v) with [], Some _ => owner v =? t | _, _ => false end
  | TOut v k => match atodo (base s) t, marked E (mark s) (firstn k (skipn (added s v) (outs E v))) with [], Some (_ :: _) => owner v =? t | _, _ => false end
  end.
Lemma cannot s t c : can s t c = false -> step s t c = s.
Proof.
  destruct c as [| |v|v|v k]; cbn [can tstep]; unfold astep.
  - destruct (atodo (base s) t); [by destruct s|done].
  - destruct (atodo (base s) t); [|by destruct s]. destruct (aqueue (base s) t); [by destruct s|done].
  - destruct (atodo (base s) t); [done|by destruct s].
  - destruct (atodo (base s) t); [|done]. destruct (nth_error _ _); [|done]. by intros ->.
  - destruct (atodo (base s) t); [|done]. destruct (marked _ _ _) as [[|]|]; [done| |done]. by intros ->.
Qed.
Lemma outside s t c : tinv s -> nt <= t -> (forall v, c <> TNote v) -> can s t c = false.
Proof.
  intros HI Ht Hc. assert (E1 : atodo (base s) t = []).
  { destruct (atodo (base s) t) as [|o r] eqn:Et; [done|]. destruct (i_mine _ _ _ _ (t_a _ _ _ _ _ _ _ HI) t o); [rewrite Et; apply elem_of_list_here|lia]. }
  assert (E2 : aqueue (base s) t = []).
  { destruct (aqueue (base s) t) as [|[v x] r] eqn:Et; [done|]. pose proof (i_queue _ _ _ _ (t_a _ _ _ _ _ _ _ HI) t v x) as H. rewrite Et in H. specialize (H (elem_of_list_here _ _)). pose proof (Hown v). lia. }
  assert (Ho : forall v, (owner v =? t) = false) by (intros v; apply Nat.eqb_neq; pose proof (Hown v); lia).
  destruct c as [| |v|v|v k]; cbn [can]; rewrite ?E1, ?E2; try done.
  - by destruct (Hc v).
  - rewrite Ho. by destruct (nth_error _ _).
  - rewrite Ho. by destruct (marked _ _ _) as [[|]|].
Qed.

(** What is left to do. *)
Notation len b v := (length (aedges b v)).
Definition opc (b : ast tcount) (o : aop tcount) : nat :=
  match o with Inc _ _ => 5 | APut _ _ => 4 | ADec _ _ => 2 | Handle _ _ _ => 1 | Added v k => 1 + 5 * (len b v - k) end.
Definition lw (b : ast tcount) (l : list (aop tcount)) : nat := sum_list_with (opc b) l.
Definition tw (b : ast tcount) : nat := sumt (fun t => lw b (atodo b t)) nt.
Definition qw (b : ast tcount) : nat := 3 * sumt (fun t => length (aqueue b t)) nt.
Definition gap (b : ast tcount) : nat := sumn (fun v => 5 * (len b v - UA b v)) M.
Definition mu (s : tst) : nat :=
  tw (base s) + qw (base s) + gap (base s) + 12 * sumn (fun v => length (outs E v) - added s v) M + sumn (fun v => length (ins E v) - got s v) M.

Lemma along_len es a b lo hi : length (along es a b lo hi) <= b - a.
Proof.
  unfold along. rewrite <- (seq_length (b - a) a) at 2. induction (seq a (b - a)) as [|e l IH]; [done|]. cbn [flat_map]. rewrite app_length. cbn [length].
  destruct (nth_error es e) as [[d [r pos]]|]; [|cbn; lia]. destruct (flagged r); cbn; lia.
Qed.
Lemma lw_sends b ms l : lw b (sends tcount ms ++ l) = 5 * length ms + lw b l.
Proof.
  unfold lw. rewrite sum_list_with_app. f_equal. induction ms as [|[d x] ms IH]; [done|]. cbn [sends map sum_list_with opc length].
  change (map _ ms) with (sends tcount ms). rewrite IH. lia.
Qed.
Lemma lw_same (b b' : ast tcount) l : aedges b' = aedges b -> lw b' l = lw b l.
Proof. intros H. unfold lw. induction l as [|o l IH]; [done|]. cbn [sum_list_with]. rewrite IH. f_equal. unfold opc. by rewrite H. Qed.
Lemma tw_upd (b b' : ast tcount) t l : t < nt -> atodo b' = upd (atodo b) t l -> aedges b' = aedges b -> tw b' + lw b (atodo b t) = tw b + lw b l.
Proof.
  intros Ht Et Ee. unfold tw.
  pose proof (sumt_change (fun k => lw b' (atodo b' k)) (fun k => lw b (atodo b k)) nt t Ht) as H. cbv beta in H.
  rewrite H.
  - rewrite Et, (lw_same b b') by done. by us.
  - intros k _ Hk. rewrite Et, (lw_same b b') by done. by us.
Qed.
Lemma gap_same (b b' : ast tcount) : aedges b' = aedges b -> (forall v, UA b' v = UA b v) -> gap b' = gap b.
Proof. intros H1 H2. apply sumn_ext. intros v _. by rewrite H1, H2. Qed.
Lemma gap_upd (b b' : ast tcount) v : v < M -> aedges b' = aedges b -> (forall w, w <> v -> UA b' w = UA b w) ->
  gap b' + 5 * (len b v - UA b v) = gap b + 5 * (len b v - UA b' v).
Proof.
  intros Hv H1 H2. pose proof (sumn_change (fun w => 5 * (len b' w - UA b' w)) (fun w => 5 * (len b w - UA b w)) M v Hv) as H. cbv beta in H.
  unfold gap. rewrite H; [by rewrite H1|]. intros k _ Hk. by rewrite H1, H2.
Qed.
Lemma dead s v : tinv s -> M <= v -> len (base s) v = 0.
Proof. intros HI Hv. rewrite (len_edges raw owner E M nt st Hown Hraw Hsmall Hends s v HI). destruct (t_edges _ _ _ _ _ _ _ HI v) as [H _]. rewrite (outs_dead raw owner E M nt Hown Hraw Hsmall Hends v Hv) in H. cbn in H. lia. Qed.
(** A vertex reacts. *)
Lemma reacted s (b' : ast tcount) t v (p : tcp) o rest ms : tinv s -> t < nt -> atodo (base s) t = o :: rest ->
  b' = Ast (aact (base s)) (aqueue (base s)) (upd (aprop (base s)) v (p : p_t tcount)) (aedges (base s)) (upd (atodo (base s)) t (sends tcount ms ++ rest)) (alog (base s)) ->
  5 * length ms + 5 * (len (base s) v - UpdateAt p) < opc (base s) o + 5 * (len (base s) v - UA (base s) v) -> tw b' + gap b' < tw (base s) + gap (base s).
Proof.
  intros HI Ht Et -> Hlt. set (b' := Ast _ _ _ _ _ _).
  pose proof (tw_upd (base s) b' t (sends tcount ms ++ rest) Ht eq_refl eq_refl) as H1. rewrite Et, lw_sends in H1. change (lw (base s) (o :: rest)) with (opc (base s) o + lw (base s) rest) in H1.
  destruct (decide (v < M)) as [Hv|Hv].
  - assert (H3 : UA b' v = UpdateAt p) by (unfold UA, b'; cbn [aprop]; by us).
    pose proof (gap_upd (base s) b' v Hv eq_refl ltac:(intros w Hw; unfold UA, b'; cbn [aprop]; by us)) as H2. rewrite H3 in H2. tlia.
  - assert (H2 : gap b' = gap (base s)). { apply sumn_ext. intros w Hw. unfold UA, b'. cbn [aprop aedges]. assert (w <> v) by lia. by us. }
    rewrite (dead s v HI) in Hlt by lia. tlia.
Qed.
Lemma run_down s t : tinv s -> t < nt -> atodo (base s) t <> [] -> mu (step s t TRun) < mu s.
Proof.
  intros HI Ht Hne. unfold mu. cbn [tstep base added got]. unfold astep. destruct (atodo (base s) t) as [|o rest] eqn:Et; [done|].
  destruct (head_good raw owner E M nt st s t o rest HI Et) as (_ & Hm & Hg).
  assert (Hplain : forall b' l, atodo b' = upd (atodo (base s)) t l -> aedges b' = aedges (base s) -> aprop b' = aprop (base s) ->
    lw (base s) l + qw b' < opc (base s) o + lw (base s) rest + qw (base s) -> tw b' + qw b' + gap b' < tw (base s) + qw (base s) + gap (base s)).
  { intros b' l H1 H2 H3 Hlt. pose proof (tw_upd (base s) b' t l Ht H1 H2) as H. rewrite Et in H. change (lw (base s) (o :: rest)) with (opc (base s) o + lw (base s) rest) in H.
    rewrite (gap_same (base s) b' H2) by (intros v; unfold UA; by rewrite H3). tlia. }
  enough (Hx : tw (aexec tcount owner (base s) t o rest) + qw (aexec tcount owner (base s) t o rest) + gap (aexec tcount owner (base s) t o rest) < tw (base s) + qw (base s) + gap (base s)) by tlia.
  destruct o as [d x|d x|v x|v x k|v k]; cbn [aexec].
  - eapply Hplain; [done|done|done|]. unfold qw. cbn [aqueue opc lw sum_list_with]. unfold lw. tlia.
  - eapply Hplain; [done|done|done|]. unfold qw. cbn [aqueue opc].
    pose proof (sumt_change (fun k => length (upd (aqueue (base s)) (owner d) (aqueue (base s) (owner d) ++ [(d, x)]) k)) (fun k => length (aqueue (base s) k)) nt (owner d) (Hown d)) as H.
    cbv beta in H. rewrite upd_eq, app_length in H. cbn [length] in H. assert (H' := H ltac:(intros k _ Hk; by us)). tlia.
  - eapply Hplain; [done|done|done|]. unfold qw. cbn [aqueue opc lw sum_list_with]. unfold lw. tlia.
  - destruct (areact tcount v (KNote x) k (aprop (base s) v) (aedges (base s) v)) as [p ms] eqn:Ep. apply (react_note raw owner E M nt Hown Hraw Hsmall Hends) in Ep.
    match goal with |- tw ?b + qw ?b + gap ?b < _ => set (b' := b) end.
    assert (Hq : qw b' = qw (base s)) by done. enough (tw b' + gap b' < tw (base s) + gap (base s)) by lia.
    apply (reacted s b' t v p (Handle (a := tcount) v x k) rest ms HI Ht Et eq_refl). pose proof (t_upd _ _ _ _ _ _ _ HI v) as Hu. unfold UA in *. cbn [opc].
    destruct Ep as [(-> & -> & _)|(-> & ->)]; cbn [UpdateAt length]; [tlia|].
    pose proof (along_len (aedges (base s) v) (S (UpdateAt (aprop (base s) v))) (len (base s) v) (UpdateAt (aprop (base s) v)) (fun e => e)). tlia.
  - destruct (areact tcount v (KAdded k) (aact (base s) v) (aprop (base s) v) (aedges (base s) v)) as [p ms] eqn:Ep. apply (react_added raw owner E M nt Hown Hraw Hsmall Hends) in Ep.
    match goal with |- tw ?b + qw ?b + gap ?b < _ => set (b' := b) end.
    assert (Hq : qw b' = qw (base s)) by done. enough (tw b' + gap b' < tw (base s) + gap (base s)) by lia.
    apply (reacted s b' t v p (Added (a := tcount) v k) rest ms HI Ht Et eq_refl). pose proof (t_upd _ _ _ _ _ _ _ HI v) as Hu. cbn in Hg. unfold UA in *. cbn [opc].
    destruct Ep as [(_ & -> & ->)|(-> & ->)]; cbn [UpdateAt]; rewrite ?app_length.
    + pose proof (along_len (aedges (base s) v) k (len (base s) v) 0 (fun e => Nat.min (UpdateAt (aprop (base s) v)) e)). tlia.
    + pose proof (along_len (aedges (base s) v) k (len (base s) v) 0 (fun e => Nat.min (len (base s) v) e)).
      pose proof (along_len (aedges (base s) v) (S (UpdateAt (aprop (base s) v))) k (UpdateAt (aprop (base s) v)) (fun e => e)). tlia.
Qed.
Lemma pop_down s t : tinv s -> t < nt -> can s t TPop = true -> mu (step s t TPop) < mu s.
Proof.
  intros HI Ht. cbn [can]. unfold mu. cbn [tstep base added got]. unfold astep. destruct (atodo (base s) t) eqn:Et; [|done]. destruct (aqueue (base s) t) as [|[v x] q] eqn:Eq; [done|]. intros _.
  match goal with |- tw ?b + _ + _ + _ + _ < _ => set (b' := b) end.
  pose proof (tw_upd (base s) b' t [ADec (a := tcount) v x] Ht eq_refl eq_refl) as H1. rewrite Et in H1. cbn [lw sum_list_with opc] in H1.
  assert (H2 : gap b' = gap (base s)) by (apply gap_same; done).
  assert (H3 : qw b' + 3 = qw (base s)).
  { unfold qw, b'. cbn [aqueue]. pose proof (sumt_change (fun k => length (upd (aqueue (base s)) t q k)) (fun k => length (aqueue (base s) k)) nt t Ht) as H.
    cbv beta in H. rewrite upd_eq, Eq in H. cbn [length] in H. assert (H' := H ltac:(intros k _ Hk; by us)). tlia. }
  unfold lw in H1. cbn in H1. tlia.
Qed.
Lemma in_down s t v : tinv s -> can s t (TIn v) = true -> mu (step s t (TIn v)) < mu s.
Proof.
  intros HI. cbn [can]. unfold tstep. destruct (atodo (base s) t) eqn:Et; [|done]. destruct (nth_error (ins E v) (got s v)) as [i|] eqn:Ei; [|done]. intros Ho. rewrite Ho.
  assert (Hl : got s v < length (ins E v)) by (apply nth_error_Some; by rewrite Ei). apply ins_nth in Ei. destruct Ei as (Hi & Hv & Hp).
  assert (HvM : v < M) by (rewrite <- Hv; by apply (event_in E M Hends)).
  destruct (in_edge raw owner E M nt st Hown Hraw Hsmall Hends s v i HI Hi Hv Hp) as (_ & _ & Hf & _).
  destruct (on_in_edge (aprop (base s) v) (raw (fst (event E i))) (raw v) (got s v) i) as [p r] eqn:Eq. cbn [fst] in Hf.
  assert (Hb : astep tcount owner (base s) t (ATouch (a := tcount) v (raw (event E i).1, raw v, got s v, i)) = Ast (aact (base s)) (aqueue (base s)) (upd (aprop (base s)) v (p : p_t tcount)) (aedges (base s)) (atodo (base s)) (alog (base s))).
  { unfold astep. rewrite Et, Ho. do 2 f_equal. cbn [touch tcount]. by rewrite Eq. }
  rewrite Hb. unfold mu. cbn [base got added]. set (b' := Ast _ _ _ _ _ _).
  assert (H1 : tw b' = tw (base s)) by done. assert (H2 : qw b' = qw (base s)) by done.
  assert (H3 : gap b' = gap (base s)). { apply gap_same; [done|]. intros w. unfold UA, b'. cbn [aprop]. destruct (decide (w = v)) as [->|]; us; [exact Hf|done]. }
  pose proof (sumn_change (fun w => length (ins E w) - upd (got s) v (S (got s v)) w) (fun w => length (ins E w) - got s w) M v HvM) as H. cbv beta in H. us.
  assert (H' := H ltac:(intros k _ Hk; by us)). tlia.
Qed.
Lemma out_down s t v k : tinv s -> t < nt -> can s t (TOut v k) = true -> mu (step s t (TOut v k)) < mu s.
Proof.
  intros HI Ht. cbn [can]. unfold tstep. destruct (atodo (base s) t) eqn:Et; [|done].
  destruct (marked E (mark s) (firstn k (skipn (added s v) (outs E v)))) as [[|y ys]|] eqn:Em; [done| |done]. intros Ho. rewrite Ho. apply Nat.eqb_eq in Ho.
  destruct (marked_spec raw owner E M nt st s _ _ HI Em) as [Hys _].
  assert (Hlz : length (y :: ys) = Nat.min k (length (outs E v) - added s v)) by (rewrite Hys, map_length, firstn_length, skipn_length; done).
  assert (HvM : v < M). { destruct (decide (v < M)) as [|Hv]; [done|]. rewrite (outs_dead raw owner E M nt Hown Hraw Hsmall Hends v) in Hlz by lia. cbn in Hlz. lia. }
  assert (Hb : astep tcount owner (base s) t (AAdd (a := tcount) v (y :: ys)) = Ast (aact (base s)) (aqueue (base s)) (aprop (base s)) (upd (aedges (base s)) v (aedges (base s) v ++ (y :: ys : list (nat * e_t tcount)))) (upd (atodo (base s)) t [Added v (length (aedges (base s) v))]) (alog (base s))).
  { unfold astep. by rewrite Et, Ho, Nat.eqb_refl. }
  rewrite Hb. set (zs := y :: ys) in *. assert (Hz : 0 < length zs) by (cbn; lia). clearbody zs. unfold mu. cbn [base got added]. set (b' := Ast _ _ _ _ _ _).
  assert (H2 : qw b' = qw (base s)) by done.
  assert (Hle : len b' v = len (base s) v + length zs) by (unfold b'; cbn [aedges]; us; by rewrite app_length).
  assert (H1 : tw b' = tw (base s) + 1 + 5 * length zs).
  { unfold tw. pose proof (sumt_change (fun j => lw b' (atodo b' j)) (fun j => lw (base s) (atodo (base s) j)) nt t Ht) as H. cbv beta in H. rewrite Et in H.
    assert (E1 : lw b' (atodo b' t) = 1 + 5 * length zs). { unfold b' at 2. cbn [atodo]. us. cbn [lw sum_list_with opc]. unfold lw. cbn [sum_list_with opc]. rewrite Hle. tlia. }
    rewrite E1 in H. change (lw (base s) []) with 0 in H. rewrite Nat.add_0_r in H. rewrite H; [tlia|]. intros j _ Hj. unfold b' at 2. cbn [atodo]. us.
    assert (Hno : forall o, o ∈ atodo (base s) j -> opc b' o = opc (base s) o).
    { intros o Hin. destruct o as [d x|d x|d x|d x i|w i]; try done. cbn [opc]. unfold b'. cbn [aedges]. destruct (decide (w = v)) as [->|]; us; [|done].
      destruct (i_mine _ _ _ _ (t_a _ _ _ _ _ _ _ HI) j _ Hin) as [_ Hmine]. cbn in Hmine. congruence. }
    clear -Hno. unfold lw. induction (atodo (base s) j) as [|o l IH]; [done|]. cbn [sum_list_with]. rewrite Hno by apply elem_of_list_here. f_equal. apply IH. intros o' Ho'. by apply Hno, elem_of_list_further. }
  assert (H3 : gap b' <= gap (base s) + 5 * length zs).
  { unfold gap. pose proof (sumn_change (fun w => 5 * (len b' w - UA b' w)) (fun w => 5 * (len (base s) w - UA (base s) w)) M v HvM) as H. cbv beta in H.
    rewrite Hle in H. change (UA b') with (UA (base s)) in *. assert (H' := H ltac:(intros w _ Hw; unfold b'; cbn [aedges]; by us)). tlia. }
  pose proof (sumn_change (fun w => length (outs E w) - upd (added s) v (added s v + length zs) w) (fun w => length (outs E w) - added s w) M v HvM) as H. cbv beta in H. us.
  assert (H' := H ltac:(intros w _ Hw; by us)). tlia.
Qed.
Lemma step_down s t c : tinv s -> t < nt -> (forall v, c <> TNote v) -> can s t c = true -> mu (step s t c) < mu s.
Proof.
  intros HI Ht Hc Hcan. destruct c as [| |v|v|v k].
  - apply run_down; [done|done|]. cbn in Hcan. by destruct (atodo (base s) t).
  - by apply pop_down.
  - by destruct (Hc v).
  - by apply in_down.
  - by apply out_down.
Qed.

(** What has been received is marked. *)
Definition seen (s : tst) : Prop := forall i, i < n -> spos i < got s (snd (event E i)) -> mark s i <> None.
Lemma seen_step s t c : tinv s -> seen s -> seen (step s t c).
Proof.
  intros HI Hs. destruct c as [| |v|v|v k]; try exact Hs; cbn [tstep].
  - destruct (atodo (base s) t); [|done]. destruct (nth_error (ins E v) (got s v)) as [i|] eqn:Ei; [|done]. destruct (owner v =? t); [|done].
    destruct (on_in_edge _ _ _ _ _) as [p r]. intros j Hj. cbn [mark got]. intros H. destruct (decide (j = i)) as [->|Hne]; us; [done|]. apply Hs; [done|].
    apply ins_nth in Ei. destruct Ei as (Hi & Hv & Hp). destruct (decide (snd (event E j) = v)) as [Hjv|Hjv]; us; [|done]. rewrite Hjv in *. us.
    assert (spos j <> got s v); [|lia]. rewrite <- Hp. intros Ep. apply Hne. apply (spos_inj raw E M Hraw Hsmall Hends); [congruence|done].
  - destruct (atodo (base s) t); [|done]. destruct (marked _ _ _) as [[|]|]; [done| |done]. by destruct (owner v =? t).
Qed.
Definition rinv (s : tst) : Prop := tinv s /\ seen s.

(** The actions: run, take a notification, receive an edge, add a batch of edges of one of the sizes [ks]. *)
Definition acts (ks : list nat) : list tchoice := TRun :: TPop :: map TIn (seq 0 M) ++ flat_map (fun v => map (TOut v) ks) (seq 0 M).
Lemma acts_note ks c : c ∈ acts ks -> forall v, c <> TNote v.
Proof.
  unfold acts. rewrite !elem_of_cons, elem_of_app. intros [->|[->|[H|H]]] v; try done.
  - apply elem_of_list_fmap in H. destruct H as (? & -> & _). done.
  - apply elem_of_list_In, in_flat_map in H. destruct H as (? & _ & H). apply in_map_iff in H. by destruct H as (? & <- & _).
Qed.
Lemma tc_settles A s : (forall c, c ∈ A -> forall v, c <> TNote v) -> rinv s -> settles (trun raw owner E) A nt (fun s' => rinv s' /\ stuck A nt can s') s.
Proof.
  intros HA. apply (settles_measure step A nt can rinv mu).
  - intros s' t c [H1 H2] Ht _. split; [by apply tinv_step|by apply seen_step].
  - intros s' t c [H1 _] Ht Hc. apply cannot, outside; [done|done|by apply HA].
  - intros s' t c _ _. apply cannot.
  - intros s' t c [H1 _] Ht Hc. apply step_down; [done|done|by apply HA].
Qed.
Lemma stuck_rest A s : TRun ∈ A -> TPop ∈ A -> stuck A nt can s -> at_rest nt s.
Proof.
  intros A1 A2 Hq t Ht. pose proof (Hq t TRun Ht A1) as H1. pose proof (Hq t TPop Ht A2) as H2.
  cbn in H1, H2. destruct (atodo (base s) t); [|done]. by destruct (aqueue (base s) t).
Qed.
Lemma acts_run ks : TRun ∈ acts ks.
Proof. unfold acts. apply elem_of_list_here. Qed.
Lemma acts_pop ks : TPop ∈ acts ks.
Proof. unfold acts. apply elem_of_list_further, elem_of_list_here. Qed.
Lemma stuck_added ks s : rinv s -> stuck (acts ks) nt can s -> (exists k, k ∈ ks /\ 0 < k) -> forall u, u < M -> added s u = length (outs E u).
Proof.
  intros [HI Hs] Hq (k & Hk & Hk0) u Hu.
  assert (Hg : forall v, v < M -> length (ins E v) <= got s v).
  { intros v Hv. pose proof (Hq (owner v) (TIn v) (Hown v)) as H. cbn [can] in H. destruct (stuck_rest (acts ks) s (acts_run ks) (acts_pop ks) Hq (owner v) (Hown v)) as [E1 _]. rewrite E1, Nat.eqb_refl in H.
    destruct (nth_error (ins E v) (got s v)) eqn:En; [|by apply nth_error_None in En]. exfalso. discriminate H. unfold acts.
    rewrite !elem_of_cons, elem_of_app. right. right. left. apply elem_of_list_fmap. exists v. split; [done|]. apply elem_of_list_In, in_seq. lia. }
  destruct (t_edges _ _ _ _ _ _ _ HI u) as [Hle _]. destruct (decide (added s u < length (outs E u))) as [Hlt|]; [|lia]. exfalso.
  pose proof (Hq (owner u) (TOut u k) (Hown u)) as H. cbn [can] in H. destruct (stuck_rest (acts ks) s (acts_run ks) (acts_pop ks) Hq (owner u) (Hown u)) as [E1 _]. rewrite E1, Nat.eqb_refl in H.
  assert (Hin : TOut u k ∈ acts ks).
  { unfold acts. rewrite !elem_of_cons, elem_of_app. right. right. right. apply elem_of_list_In, in_flat_map. exists u. split; [apply in_seq; lia|]. apply in_map. by apply elem_of_list_In. }
  specialize (H Hin). destruct (marked E (mark s) (firstn k (skipn (added s u) (outs E u)))) as [ys|] eqn:Em.
  - destruct (marked_spec raw owner E M nt st s _ _ HI Em) as [Hys _]. apply (f_equal length) in Hys. rewrite map_length, firstn_length, skipn_length in Hys. destruct ys; [cbn in Hys; lia|done].
  - revert Em. apply marked_all. intros i Hi. apply in_firstn, in_skipn in Hi. unfold outs, those in Hi. apply filter_In in Hi. destruct Hi as [Hi _]. apply in_seq in Hi.
    apply Hs; [lia|]. destruct (event_in E M Hends i ltac:(lia)) as [_ HvM]. specialize (Hg _ HvM). enough (spos i < length (ins E (snd (event E i)))) by lia.
    apply nth_error_Some. rewrite (proj2 (ins_nth E (snd (event E i)) (spos i) i)); [done|]. split; [lia|done].
Qed.
End rest.
