(** Proofs about static runs. *)
From Verif Require Import Base Engine_Spec Engine_Model Engine_Proofs Engine_Shape Engine_Props Whole_Model Whole_Proofs Whole_Props QDel_Spec QDel_Model QDel_Lists QDel_Proofs QDel_Props Rest_Spec Rest_Proofs.
From Verif Require Import Full_Spec Full_Proofs Min_Spec Min_Model Min_Proofs Min_Props.
From Verif Require Import Static_Spec Static_Model.
From Verif Require Term_Model.
Open Scope nat_scope.

Section blank.
Context (a : alg) (owner : nat -> nat) (b : nat -> list (cell_t a)) (p : nat -> prop_t a).
Notation est := (est (blank a)).

(** While loading, nothing but edges ever changes. *)
Definition harmless (o : op (blank a)) : Prop :=
  match o with Begin _ _ | Scan _ _ _ _ | Init _ _ => True | Else l => l = [] | _ => False end.
Record untouched (s : est) : Prop := {
  u_box : forall v, box s v = b v;
  u_prop : forall v, prop s v = p v;
  u_act : forall v, act s v = 0;
  u_queue : forall t, queue s t = [];
  u_todo : forall t, Forall harmless (todo s t) }.
Lemma untouched_start es : untouched (estart (blank a) b p es).
Proof. constructor; intros; done || constructor. Qed.
Lemma upd_todo (s : est) t l : (forall u, Forall harmless (todo s u)) -> Forall harmless l -> forall u, Forall harmless (upd (todo s) t l u).
Proof. intros H Hl u. unfold upd. by destruct (u =? t). Qed.
Lemma untouched_step s t c : untouched s -> untouched (estep (blank a) owner s t c).
Proof.
  intros H. pose proof (u_todo _ H t) as Ht. unfold estep. destruct (todo s t) as [|o rest] eqn:Et.
  - destruct c as [| |v es|v gone|v m]; try done.
    + by rewrite (u_queue _ H t).
    + destruct (_ =? _); [|done]. constructor; cbn; try apply H. apply upd_todo; [apply H|by repeat constructor].
    + destruct (_ =? _); [|done]. constructor; cbn; try apply H. apply upd_todo; [apply H|by repeat constructor].
    + destruct (_ =? _); [|done]. constructor; cbn; try apply H. apply upd_todo; [apply H|by repeat constructor].
  - destruct c; try done. apply list.Forall_cons in Ht as [Ho Hr]. destruct o as [| | | |v k|v k i got|l|v m]; try done; cbn [exec_op].
    + constructor; cbn; try apply H. apply upd_todo; [apply H|by constructor].
    + destruct (box s v !! i) as [c|] eqn:Eb; cbn.
      * constructor; cbn; try apply H; [|apply upd_todo; [apply H|by constructor]].
        intros w. unfold upd. destruct (Nat.eqb_spec w v) as [->|]; [|apply H]. rewrite list_insert_id by done. apply H.
      * constructor; cbn; try apply H; [|apply upd_todo; [apply H|by constructor]].
        intros w. unfold upd. destruct (Nat.eqb_spec w v) as [->|]; apply H.
    + cbn in Ho. subst l. constructor; cbn; try apply H. apply upd_todo; [apply H|]. by destruct (_ =? _).
    + constructor; cbn; try apply H; [|by apply upd_todo; [apply H|]].
      intros w. unfold upd. destruct (Nat.eqb_spec w v) as [->|]; apply H.
Qed.
Lemma untouched_run l : forall s, untouched s -> untouched (erun (blank a) owner s l).
Proof. induction l as [|[t c] l IH]; intros s H; [done|]. cbn. by apply IH, untouched_step. Qed.
End blank.

(** Without the logging goroutine, the stream stops at the first query. *)
Section unlogged.
Context (a : alg) (owner : nat -> nat) (swap : bool) (n : nat) (evs : list (nat * change (edge_t a))) (ask : nat -> bool).
Lemma keeps_log s t y : nxt (tstep a owner swap n s t y) = nxt s /\ rem (tstep a owner swap n s t y) = rem s /\ lg (tstep a owner swap n s t y) = lg s.
Proof.
  assert (Hen : forall v del, nxt (enacted a owner swap n s t v del) = nxt s /\ rem (enacted a owner swap n s t v del) = rem s /\ lg (enacted a owner swap n s t v del) = lg s).
  { intros v del. unfold enacted. destruct (enact a s t v del) as [[]|]; [|done]. by destruct (_ && _). }
  unfold tstep. destruct (n <=? t); [done|]. destruct (acked s t); [destruct y; try done; destruct (cmds s t) as [|[]]; done|].
  destruct y as [|[c|c]|k r| |]; try done.
  - destruct (cmds s t); [done|]. by destruct (receiving a s t).
  - destruct c; cbn [loop]; try done; by destruct (_ && _) || destruct (nil _).
  - destruct c; cbn [loop]; try done; try apply Hen. by destruct (nil _).
  - unfold pull. by destruct (may_pull _ _ _ _ _).
  - by destruct (_ && _).
Qed.
Lemma unlogged_step s x : x <> Logger -> lg s = LWait -> lg (qstep a owner swap n evs ask s x) = LWait.
Proof.
  destruct x as [| |t y]; intros H Hl; [|done|].
  - cbn [qstep]. unfold remit. destruct (rem s); try done. by destruct (nth_error evs (nxt s)) as [[]|].
  - cbn [qstep]. destruct (keeps_log s t y) as (_ & _ & E). by rewrite E.
Qed.
Definition unasked (s : qst a) : Prop := forall j, 1 <= j <= nxt s -> ask j = false.
Lemma stops sched : (forall x, x ∈ sched -> x <> Logger) -> forall s, lg s = LWait -> nxt s <= length evs -> rem s = Asked \/ unasked s /\ (rem s = Finished -> nxt s = length evs) ->
  let s' := qrun a owner swap n evs ask s sched in rem s' = Asked \/ unasked s' /\ (rem s' = Finished -> nxt s' = length evs).
Proof.
  induction sched as [|x l IH]; intros Hx s Hl Hn H; [done|]. cbn.
  assert (Hl' : forall y, y ∈ l -> y <> Logger) by (intros y Hy; apply Hx; by apply elem_of_list_further).
  specialize (Hx x ltac:(apply elem_of_list_here)).
  destruct x as [| |t y]; [|done|].
  - assert (lg (remit a owner evs ask s) = LWait) by (unfold remit; destruct (rem s); try done; destruct (nth_error evs (nxt s)) as [[]|]; done).
    apply IH; try done; cbn [qstep]; unfold remit; destruct (rem s) eqn:Er; try done; destruct (nth_error evs (nxt s)) as [[v e]|] eqn:En; cbn; try done.
    + apply nth_error_Some. by rewrite En.
    + destruct H as [?|[Hu _]]; [done|]. destruct (ask (S (nxt s))) eqn:Ea; [by left|right]. split; [|done]. intros j Hj. destruct (decide (j = S (nxt s))) as [->|]; [done|]. apply Hu. cbn in Hj. lia.
    + destruct H as [?|[Hu _]]; [done|]. right. split; [exact Hu|]. intros _. apply nth_error_None in En. lia.
    + by rewrite Er.
    + by rewrite Er.
    + by rewrite Er.
    + by rewrite Er.
  - destruct (keeps_log s t y) as (E1 & E2 & E3). refine (IH Hl' (tstep a owner swap n s t y) _ _ _); unfold unasked; rewrite ?E1, ?E2, ?E3; done.
Qed.
End unlogged.

(** States that agree everywhere run alike. *)
Section agree.
Context (a : alg) (owner : nat -> nat).
Record agree (s s' : est a) : Prop := {
  g_box : forall v, box s v = box s' v; g_act : forall v, act s v = act s' v; g_queue : forall t, queue s t = queue s' t;
  g_prop : forall v, prop s v = prop s' v; g_edges : forall v, edges s v = edges s' v; g_todo : forall t, todo s t = todo s' t;
  g_sent : forall t, sent s t = sent s' t; g_log : elog s = elog s' }.
Lemma upd_ext {A} (f g : nat -> A) i x : (forall j, f j = g j) -> forall j, upd f i x j = upd g i x j.
Proof. intros H j. unfold upd. by destruct (j =? i). Qed.
Lemma agree_step s s' t c : agree s s' -> agree (estep a owner s t c) (estep a owner s' t c).
Proof.
  intros H. unfold estep. rewrite (g_todo _ _ H t). destruct (todo s' t) as [|o rest].
  - destruct c as [| |v es|v gone|v m]; try done.
    + rewrite (g_queue _ _ H t). destruct (queue s' t); [done|]. constructor; cbn; try (apply upd_ext); apply H.
    + destruct (_ =? _); [|done]. rewrite (g_edges _ _ H v). constructor; cbn; try (apply upd_ext); apply H.
    + destruct (_ =? _); [|done]. rewrite (g_edges _ _ H v). constructor; cbn; try (apply upd_ext); apply H.
    + destruct (_ =? _); [|done]. constructor; cbn; try (apply upd_ext); apply H.
  - destruct c; try done. destruct o as [src d m|d|d|v|v k|v k i got|l|v m]; cbn [exec_op].
    + rewrite (g_box _ _ H d), (g_log _ _ H). destruct (merge a m src d (box s' d)) as [b new]. constructor; cbn; try (apply upd_ext); try apply H; done.
    + rewrite (g_act _ _ H d). destruct (_ =? _); constructor; cbn; try (apply upd_ext); apply H.
    + rewrite (g_queue _ _ H), (g_sent _ _ H). constructor; cbn; try (apply upd_ext); apply H.
    + rewrite (g_act _ _ H). constructor; cbn; try (apply upd_ext); apply H.
    + rewrite (g_log _ _ H). constructor; cbn; try (apply upd_ext); try apply H; done.
    + rewrite (g_box _ _ H v). destruct (box s' v !! i) as [c|].
      * destruct (take a c). constructor; cbn; try (apply upd_ext); apply H.
      * rewrite (g_prop _ _ H v), (g_edges _ _ H v). destruct (react a v k (prop s' v) (edges s' v) got) as [[p ms] ms']. constructor; cbn; try (apply upd_ext); apply H.
    + rewrite (g_sent _ _ H t). constructor; cbn; try (apply upd_ext); apply H.
    + rewrite (g_box _ _ H v), (g_log _ _ H). destruct (merge a m v v (box s' v)) as [b new]. constructor; cbn; try (apply upd_ext); try apply H; done.
Qed.
Lemma agree_run l : forall s s', agree s s' -> agree (erun a owner s l) (erun a owner s' l).
Proof. induction l as [|[t c] l IH]; intros s s' H; [done|]. cbn. by apply IH, agree_step. Qed.
End agree.
Arguments agree {a} _ _.
Arguments g_box {_} _ _ _ _. Arguments g_act {_} _ _ _ _. Arguments g_queue {_} _ _ _ _. Arguments g_prop {_} _ _ _ _.
Arguments g_edges {_} _ _ _ _. Arguments g_todo {_} _ _ _ _.

(** Initial mail with limited queues. *)
Section mailed.
Context (a : alg) (owner : nat -> nat) (cap : nat).
Lemma irun_works sched : forall s, irun a owner cap s sched = erun a owner s (iworks a owner cap s sched).
Proof.
  induction sched as [|[t c] l IH]; intros s; [done|]. cbn. unfold erun. rewrite fold_left_app.
  assert (E : fold_left (fun s '(t, c) => estep a owner s t c) (iwork a owner cap s t c) s = istep a owner cap s t c) by (unfold istep, iwork; destruct c; try done; by destruct (blocked _ _ _ _ _)).
  rewrite E. apply IH.
Qed.
Lemma iworks_in sched : forall s t c, (t, c) ∈ iworks a owner cap s sched -> (t, c) ∈ sched /\ (c = Run \/ exists v m, c = SendInit v m).
Proof.
  induction sched as [|[u d] l IH]; intros s t c H; [by apply elem_of_nil in H|]. cbn in H. apply elem_of_app in H as [H|H].
  - unfold iwork in H. destruct d as [| | | |v m]; try (by apply elem_of_nil in H).
    + destruct (blocked _ _ _ _ _); [by apply elem_of_nil in H|]. apply elem_of_list_singleton in H as [= -> ->]. split; [apply elem_of_list_here|by left].
    + apply elem_of_list_singleton in H as [= -> ->]. split; [apply elem_of_list_here|right; eauto].
  - apply IH in H as [H1 H2]. split; [by apply elem_of_list_further|done].
Qed.
Lemma capped_step s t c : (forall u, length (queue s u) <= cap) -> forall u, length (queue (istep a owner cap s t c) u) <= cap.
Proof.
  intros H u. unfold istep. destruct c as [| | | |v m]; try apply H.
  - unfold blocked, estep. destruct (todo s t) as [|o rest]; [apply H|]. destruct o as [src d m|d|d|v|v k|v k i got|l|v m]; cbn [exec_op]; try apply H.
    + destruct (merge a m src d (box s d)). apply H.
    + destruct (_ =? _); apply H.
    + destruct (Nat.leb_spec cap (length (queue s (owner d)))); [apply H|]. cbn. unfold upd. destruct (Nat.eqb_spec u (owner d)); [|apply H]. rewrite app_length. cbn. lia.
    + destruct (box s v !! i); [destruct (take a c); apply H|]. destruct (react a v k (prop s v) (edges s v) got) as [[? ?] ?]. apply H.
    + destruct (merge a m v v (box s v)). apply H.
  - unfold estep. destruct (todo s t); [|apply H]. destruct (_ =? _); apply H.
Qed.
Lemma capped_run l : forall s, (forall u, length (queue s u) <= cap) -> forall u, length (queue (irun a owner cap s l) u) <= cap.
Proof. induction l as [|[t c] l IH]; intros s H; [done|]. cbn. by apply IH, capped_step. Qed.

Lemma roomy N n sched : (forall v, owner v < n) -> (forall t, residents owner N t <= cap) ->
  along_edges a -> (forall t c, (t, c) ∈ sched -> c = Run \/ exists v m, c = SendInit v m) ->
  forall s, wake a owner n s -> low a N s -> irun a owner cap s sched = erun a owner s sched.
Proof.
  intros Hown Hcap Ha. induction sched as [|[t c] l IH]; intros Hl s HW HL; [done|]. cbn.
  assert (Hc : c = Run \/ exists v m, c = SendInit v m) by (apply (Hl t), elem_of_list_here).
  assert (E : istep a owner cap s t c = estep a owner s t c).
  { destruct Hc as [->|(v & m & ->)]; [|done]. cbn. destruct (blocked a owner cap s t) eqn:Eb; [|done]. exfalso. unfold blocked in Eb. destruct (todo s t) as [|o rest] eqn:Et; [done|]. destruct o as [| |d| | | | |]; try done.
    apply Nat.leb_le in Eb.
    assert (Hin : Put d ∈ todo s t) by (rewrite Et; apply elem_of_list_here).
    pose proof (l_todo _ _ _ HL t _ Hin) as Hd. cbn in Hd.
    pose proof (proj1 (w_mine _ _ _ _ HW t _ Hin)) as Htn.
    assert (Hz : d ∉ queue s (owner d)).
    { intros Hq. apply occ_in in Hq. pose proof (w_act _ _ _ _ HW d). pose proof (w_one _ _ _ _ HW d). pose proof (sumt_ge (fun t => tokens a d (todo s t)) n t Htn) as G. cbn in G. rewrite Et in G. cbn in G. rewrite Nat.eqb_refl in G. lia. }
    assert (HN : NoDup (queue s (owner d))).
    { assert (Ho : forall v, v ∈ queue s (owner d) -> occ v (queue s (owner d)) <= 1).
      { intros v Hv. pose proof (Engine_Proofs.w_queue _ _ _ _ HW _ v Hv) as E. pose proof (w_act _ _ _ _ HW v) as H1. pose proof (w_one _ _ _ _ HW v). rewrite E in H1. lia. }
      clear - Ho. revert Ho. generalize (queue s (owner d)) as q. induction q as [|v q IH]; intros Ho; constructor.
      + intros H. specialize (Ho v ltac:(apply elem_of_list_here)). cbn in Ho. rewrite Nat.eqb_refl in Ho. apply occ_in in H. lia.
      + apply IH. intros w Hw. specialize (Ho w ltac:(by apply elem_of_list_further)). cbn in Ho. lia. }
    assert (HR : length (d :: queue s (owner d)) <= residents owner N (owner d)).
    { unfold residents. apply NoDup_incl_length; [apply NoDup_ListNoDup; by constructor|]. intros v Hv. apply filter_In. rewrite in_seq, Nat.eqb_eq. destruct Hv as [<-|Hv]; [lia|].
      apply elem_of_list_In in Hv. pose proof (Engine_Proofs.w_queue _ _ _ _ HW _ v Hv). pose proof (l_queue _ _ _ HL _ v Hv). lia. }
    cbn in HR. specialize (Hcap (owner d)). lia. }
  rewrite E. apply IH; [intros; by eapply Hl, elem_of_list_further|by apply wake_estep|]. apply low_step; [done|done|]. destruct Hc as [->|(v & m & ->)]; done.
Qed.
End mailed.

(** Connected components: what the initial mail of a smallest vertex [u] must lead to. *)
Section root.
Context (owner : nat -> nat) (raw : nat -> N) (es : nat -> list (nat * unit)) (u : nat).
Context (Hroot : forall w, joined es w u -> w <> u -> (raw u < raw w)%N) (Hsmall : (raw u < cc_empty)%N).
Notation est := (est cc).
Notation above w x := (joined es w u -> (raw u < x)%N).
Definition clean_op (o : op cc) : Prop :=
  match o with
  | Merge _ d m => above d (m : N)
  | Scan v k _ got => k = KUpd /\ Forall (fun x : N => above v x) got
  | Begin _ k => k = KUpd
  | Else l => l = []
  | Init v m => (m : N) = raw v
  | Dec _ => False
  | _ => True
  end.
Record clean (s : est) : Prop := {
  c_box : forall w, exists c : N, box s w = [c] /\ above w c;
  c_prop : forall w, above w (prop s w : N);
  c_todo : forall t o, o ∈ todo s t -> clean_op o }.
Definition simple_op (o : op cc) : Prop :=
  match o with
  | Scan v k _ got => k = KUpd /\ (v = u -> Forall (fun x : N => (x <= raw u)%N) got)
  | Begin _ k => k = KUpd
  | Else l => l = []
  | Dec _ => False
  | _ => True
  end.
(** The smallest value has reached [u]. *)
Record lit (s : est) : Prop := {
  l_boxes : forall w, exists c : N, box s w = [c];
  l_box : exists c : N, box s u = [c] /\ (c <= raw u)%N;
  l_ops : forall t o, o ∈ todo s t -> simple_op o;
  l_prop : (prop s u <= raw u)%N \/ (exists k, Begin u k ∈ todo s (owner u)) \/ (exists k i got, Scan u k i got ∈ todo s (owner u)) }.

Lemma joined_trans {E} (g : nat -> list (nat * E)) x y z : joined g x y -> joined g y z -> joined g x z.
Proof. intros H1 H2. induction H2 as [|a b c e H2 IH He]; [done|]. eapply joined_step; [by apply IH|done]. Qed.
Lemma in_upd {B} (f : nat -> list B) t l k o (P : B -> Prop) : (forall t o, o ∈ f t -> P o) -> (forall o, o ∈ l -> P o) -> o ∈ upd f t l k -> P o.
Proof. intros H1 H2. unfold upd. destruct (k =? t); [apply H2|apply H1]. Qed.

Definition pure (c : choice cc) : Prop := c = Run \/ exists v, c = SendInit (a := cc) v (raw v).
Context (n : nat) (Hown : forall v, owner v < n).

Lemma clean_step (s : est) t c gv : (forall w, edges s w = es w) -> wake cc owner n s -> shaped cc owner s -> pure c -> clean s ->
  ((u, raw u) ∈ gv -> Init (a := cc) u (raw u) ∈ todo s (owner u)) ->
  let s' := estep cc owner s t c in
  (clean s' /\ ((u, raw u) ∈ gv ++ given_at owner s t c -> Init (a := cc) u (raw u) ∈ todo s' (owner u))) \/ lit s'.
Proof using All.
  intros He HW HS Hc HC Hg s'. unfold s', estep, given_at. destruct (todo s t) as [|o rest] eqn:Et.
  { left. destruct Hc as [->|(v & ->)]; [by rewrite app_nil_r|]. destruct (Nat.eqb_spec (owner v) t) as [Ev|]; [|by rewrite app_nil_r]. split.
    - constructor; cbn; try apply HC. intros k o. apply in_upd; [apply HC|]. by intros o' ->%elem_of_list_singleton.
    - cbn. rewrite elem_of_app, elem_of_list_singleton. intros [H|[= -> _]]; [|rewrite Ev, upd_eq; apply elem_of_list_here].
      specialize (Hg H). destruct (decide (owner u = t)) as [E|E]; [rewrite E, Et in Hg; by apply elem_of_nil in Hg|by rewrite upd_ne]. }
  destruct Hc as [->|(v & ->)]; [|left; by rewrite app_nil_r]. rewrite app_nil_r.
  pose proof (c_todo _ HC t) as Hops. rewrite Et in Hops.
  pose proof (Hops o ltac:(apply elem_of_list_here)) as Ho.
  assert (Hr : forall o', o' ∈ rest -> clean_op o') by (intros; by apply Hops, elem_of_list_further).
  assert (Hr' : forall o1 o', clean_op o1 -> o' ∈ o1 :: rest -> clean_op o') by (intros o1 o' H1 [->|H]%elem_of_cons; auto).
  assert (Hkeep : forall l, (o <> Init (a := cc) u (raw u)) -> (forall o', o' ∈ rest -> o' ∈ l) -> (u, raw u) ∈ gv -> Init (a := cc) u (raw u) ∈ upd (todo s) t l (owner u)).
  { intros l Hne Hl H. specialize (Hg H). destruct (decide (owner u = t)) as [E|E]; [|by rewrite upd_ne]. rewrite E, Et in Hg. rewrite E, upd_eq. apply elem_of_cons in Hg as [Hg|Hg]; [by destruct Hne|by apply Hl]. }
  assert (Hfur : forall (o1 : op cc) o', o' ∈ rest -> o' ∈ o1 :: rest) by (intros; by apply elem_of_list_further).
  destruct o as [src d m|d|d|v|v k|v k i got|l|v m]; cbn [exec_op].
  - left. destruct (c_box _ HC d) as (c & Eb & Hcb). cbn [merge cc]. rewrite Eb. destruct (N.leb_spec c m) as [Hle|Hle]; cbn [andb].
    + split; [|apply Hkeep; done]. constructor; cbn; try apply HC; [|intros k o'; by apply in_upd; [apply HC|]].
      intros w. unfold upd. destruct (Nat.eqb_spec w d) as [->|]; [by exists c|apply HC].
    + split; [|apply Hkeep; [done|apply Hfur]]. constructor; cbn; try apply HC; [|intros k o'; apply in_upd; [apply HC|intros o1; by apply Hr']].
      intros w. unfold upd. destruct (Nat.eqb_spec w d) as [->|]; [by exists m|apply HC].
  - left. destruct (_ =? _); (split; [|apply Hkeep; [done|by try apply Hfur]]); constructor; cbn; try apply HC; intros k o'; (apply in_upd; [apply HC|]); [intros o1; by apply Hr'|done].
  - left. split; [|apply Hkeep; done]. constructor; cbn; try apply HC. intros k o'. by apply in_upd; [apply HC|].
  - done.
  - left. split; [|apply Hkeep; [done|apply Hfur]]. constructor; cbn; try apply HC. intros k' o'. apply in_upd; [apply HC|intros o1; by apply Hr'].
  - left. destruct Ho as [-> Hgot]. destruct (c_box _ HC v) as (c & Eb & Hcb). destruct (box s v !! i) as [c'|] eqn:Ei; cbn [take cc].
    + assert (Hc' : above v (c' : N)) by (rewrite Eb in Ei; destruct i; [by injection Ei as <-|by destruct i]).
      split; [|apply Hkeep; [done|apply Hfur]]. constructor; cbn; try apply HC.
      * intros w. unfold upd. destruct (Nat.eqb_spec w v) as [->|]; [|apply HC]. exists c. split; [|done]. rewrite list_insert_id; [done|exact Ei].
      * intros k' o'. apply in_upd; [apply HC|intros o1; apply Hr']. split; [done|]. apply Forall_app. split; [done|]. by repeat constructor.
    + cbn [react cc]. set (p := prop s v). set (m := hd p got). set (p' := if (p <=? m)%N then p else m).
      assert (Hp : above v (p' : N)). { unfold p'. destruct (p <=? m)%N; [apply (c_prop _ HC)|]. unfold m. destruct got as [|x got]; [apply (c_prop _ HC)|]. by inversion Hgot. }
      split; [|apply Hkeep; [done|]; intros o' H; rewrite elem_of_app, elem_of_cons; auto]. constructor; cbn; try apply HC.
      * intros w. unfold upd. destruct (Nat.eqb_spec w v) as [->|]; [done|apply HC].
      * intros k' o'. apply in_upd; [apply HC|]. intros o1. rewrite elem_of_app, elem_of_cons. intros [H|[->|H]]; [|done|by apply Hr].
        apply elem_of_list_fmap in H as ([d x] & -> & Hin). change (hd p got) with m in Hin. change (if (p <=? m)%N then p else m) with p' in Hin.
        assert (Hx : x = p' /\ exists e, (d, e) ∈ edges s v). { clear - Hin. destruct (N.leb _ _); [by apply elem_of_nil in Hin|]. apply elem_of_list_fmap in Hin as ([d' e] & E & Hin). injection E as -> ->. split; [done|by exists e]. }
        destruct Hx as [-> [e Hin']]. cbn. intros Hj. apply Hp. apply (joined_trans es v d u); [|done]. rewrite He in Hin'. eapply joined_step; [constructor|exact Hin'].
  - cbn in Ho. subst l. left. split; [|apply Hkeep; [done|by destruct (_ =? _)]]. constructor; cbn; try apply HC. intros k o'. apply in_upd; [apply HC|]. by destruct (_ =? _).
  - cbn in Ho. subst m. destruct (c_box _ HC v) as (c & Eb & Hcb). cbn [merge cc]. rewrite Eb. destruct (decide (v = u)) as [->|Hvu].
    + right. specialize (Hcb ltac:(constructor)). destruct (N.leb_spec c (raw u)) as [|_]; [lia|].
      assert (Er : rest = [] /\ owner u = t). { pose proof (shape_cons _ _ _ _ _ _ (eq_ind _ (shape cc owner t (sent s t)) (HS t) _ Et)) as SC. destruct SC as [(?&?&?)|[(?&?&?&?&?&?)|[(?&?&?&?)|[(?&?&?&?&?&?)|[(?&?&?&?)|(?&?&[]&?)]]]]]; try done. split; [done|]. congruence. }
      destruct Er as [-> Eo]. constructor; cbn.
      * intros w. unfold upd. destruct (Nat.eqb_spec w u) as [->|]; [by eexists|]. destruct (c_box _ HC w) as (x & ? & _). by exists x.
      * exists (raw u). by rewrite upd_eq.
      * intros k o'. destruct (decide (k = t)) as [->|Hk]; [rewrite upd_eq; by intros ->%elem_of_list_singleton|rewrite upd_ne by done].
        intros H. pose proof (c_todo _ HC k o' H) as Q. destruct o' as [| | | | |v' k' i got| |]; try done. destruct Q as [-> _]. split; [done|]. intros ->.
        pose proof (proj2 (w_mine _ _ _ _ HW k _ H)) as M. cbn in M. congruence.
      * right. left. exists KUpd. rewrite Eo, upd_eq. apply elem_of_list_here.
    + left. assert (Hne : Init (a := cc) v (raw v) <> Init (a := cc) u (raw u)) by (intros E; injection E as E _; done). destruct (N.leb_spec c (raw v)) as [Hle|Hle].
      * split; [|by apply Hkeep]. constructor; cbn; try apply HC; [|intros k o'; by apply in_upd; [apply HC|]].
        intros w. unfold upd. destruct (Nat.eqb_spec w v) as [->|]; [by exists c|apply HC].
      * split; [|apply Hkeep; [done|apply Hfur]]. constructor; cbn; try apply HC; [|intros k o'; apply in_upd; [apply HC|intros o1; by apply Hr']].
        intros w. unfold upd. destruct (Nat.eqb_spec w v) as [->|]; [|apply HC]. exists (raw v). split; [done|]. intros Hj. by apply Hroot.
Qed.

Lemma lit_step (s : est) t c : shaped cc owner s -> pure c -> lit s -> lit (estep cc owner s t c).
Proof using All.
  intros HS Hc HL. unfold estep. destruct (todo s t) as [|o rest] eqn:Et.
  { destruct Hc as [->|(v & ->)]; [done|]. destruct (Nat.eqb_spec (owner v) t) as [Ev|]; [|done]. constructor; cbn; try apply HL.
    - intros k o. apply in_upd; [apply HL|]. by intros o' ->%elem_of_list_singleton.
    - destruct (decide (owner u = t)) as [E|E]; [|rewrite upd_ne by done; apply HL]. destruct (l_prop _ HL) as [H|[(k & H)|(k & i & got & H)]]; [by left|rewrite E, Et in H; by apply elem_of_nil in H..]. }
  destruct Hc as [->|(v & ->)]; [|done].
  pose proof (l_ops _ HL t) as Hops. rewrite Et in Hops.
  pose proof (Hops o ltac:(apply elem_of_list_here)) as Ho.
  assert (Hr : forall o', o' ∈ rest -> simple_op o') by (intros; by apply Hops, elem_of_list_further).
  assert (Hr' : forall o1 o', simple_op o1 -> o' ∈ o1 :: rest -> simple_op o') by (intros o1 o' H1 [->|H]%elem_of_cons; auto).
  assert (Hfur : forall (o1 : op cc) o', o' ∈ rest -> o' ∈ o1 :: rest) by (intros; by apply elem_of_list_further).
  assert (Hkeep : forall l, (forall k, o <> Begin (a := cc) u k) -> (forall k i got, o <> Scan (a := cc) u k i got) -> (forall o', o' ∈ rest -> o' ∈ l) ->
    (prop s u <= raw u)%N \/ (exists k, Begin (a := cc) u k ∈ upd (todo s) t l (owner u)) \/ (exists k i got, Scan (a := cc) u k i got ∈ upd (todo s) t l (owner u))).
  { intros l H1 H2 H3. destruct (decide (owner u = t)) as [E|E]; [|rewrite upd_ne by done; apply HL]. rewrite E, upd_eq.
    destruct (l_prop _ HL) as [H|[(k & H)|(k & i & got & H)]]; [by left|right; left|do 2 right]; rewrite E, Et in H; apply elem_of_cons in H as [H|H]; try (by destruct (H1 k)); try (by destruct (H2 k i got)); eauto 6. }
  assert (Hbox : forall d (c x : N), box s d = [c] -> (x <= c)%N -> (forall w, exists c : N, upd (box s) d [x] w = [c]) /\ exists c : N, upd (box s) d [x] u = [c] /\ (c <= raw u)%N).
  { intros d c x Eb Hx. split.
    - intros w. unfold upd. destruct (w =? d); [by exists x|apply HL].
    - destruct (l_box _ HL) as (y & Ey & Hy). unfold upd. destruct (Nat.eqb_spec u d) as [<-|]; [|by exists y]. exists x. split; [done|]. rewrite Ey in Eb. injection Eb as ->. lia. }
  pose proof (shape_cons _ _ _ _ _ _ (eq_ind _ (shape cc owner t (sent s t)) (HS t) _ Et)) as SC.
  destruct o as [src d m|d|d|v|v k|v k i got|l|v m]; cbn [exec_op].
  - destruct (l_boxes _ HL d) as (c & Eb). cbn [merge cc]. rewrite Eb. destruct (N.leb_spec c m) as [Hle|Hle].
    + destruct (Hbox d c c Eb ltac:(lia)) as [B1 B2]. constructor; cbn; [exact B1|exact B2|intros k o'; by apply in_upd; [apply HL|]|by apply Hkeep].
    + destruct (Hbox d c m Eb ltac:(lia)) as [B1 B2]. constructor; cbn; [exact B1|exact B2|intros k o'; apply in_upd; [apply HL|intros o1; by apply Hr']|apply Hkeep; try done; apply Hfur].
  - destruct (_ =? _); constructor; cbn; try apply HL; [|apply Hkeep; try done; apply Hfur| |by apply Hkeep]; intros k o'; (apply in_upd; [apply HL|]); [intros o1; by apply Hr'|done].
  - constructor; cbn; try apply HL; [|by apply Hkeep]. intros k o'. by apply in_upd; [apply HL|].
  - done.
  - cbn in Ho. subst k. constructor; cbn; try apply HL; [intros k' o'; apply in_upd; [apply HL|intros o1; by apply Hr']|].
    destruct (decide (v = u)) as [->|Hvu].
    + do 2 right. exists KUpd, 0, []. assert (Eo : owner u = t). { destruct SC as [(?&?&?)|[(?&?&?&?)|[(?&?&?&?&?&?)|[(?&?&?&?&?&?)|[(?&?&?&?)|(?&?&[]&?)]]]]]; try done. congruence. } rewrite Eo, upd_eq. apply elem_of_list_here.
    + apply Hkeep; [intros k [=]; done|done|apply Hfur].
  - destruct Ho as [-> Hgot]. destruct (l_boxes _ HL v) as (c & Eb).
    assert (Er : rest = [] /\ owner v = t /\ i = length got). { destruct SC as [(?&?&?)|[(?&?&?&?)|[(?&?&?&?&?&?)|[(?&?&?&?&E&?&?&?&?)|[(?&?&?&?)|(?&?&[]&?)]]]]]; try done. injection E as -> _ -> ->. done. }
    destruct Er as (-> & Eo & Ei'). destruct (box s v !! i) as [c'|] eqn:Ei; cbn [take cc].
    + assert (Ec : c' = (c : cell_t cc)) by (rewrite Eb in Ei; destruct i; [by injection Ei|by destruct i]). subst c'.
      assert (Ebs : forall w, upd (box s) v (<[i:=(c : cell_t cc)]> (box s v)) w = box s w). { intros w. unfold upd. destruct (Nat.eqb_spec w v) as [->|]; [|done]. rewrite list_insert_id; [done|exact Ei]. }
      constructor; cbn.
      * intros w. rewrite Ebs. apply HL.
      * rewrite Ebs. apply HL.
      * intros k' o'. apply in_upd; [apply HL|]. intros o1 ->%elem_of_list_singleton. split; [done|]. intros ->. apply Forall_app. split; [by apply Hgot|]. constructor; [|constructor].
        destruct (l_box _ HL) as (y & Ey & Hy). rewrite Eb in Ey. injection Ey as ->. done.
      * destruct (decide (v = u)) as [->|Hvu].
        -- do 2 right. eexists _, _, _. rewrite Eo, upd_eq. apply elem_of_list_here.
        -- apply Hkeep; [done|intros k' i' g' [=]; done|apply Hfur].
    + cbn [react cc]. set (p := prop s v). set (m := hd p got). set (p' := if (p <=? m)%N then p else m). constructor; cbn; try apply HL.
      * intros k' o'. apply in_upd; [apply HL|]. intros o1. rewrite elem_of_app, elem_of_list_singleton. intros [H| -> ]; [|done].
        apply elem_of_list_fmap in H as ([d x] & -> & _). done.
      * destruct (decide (v = u)) as [->|Hvu].
        -- left. rewrite upd_eq. rewrite Eb, Ei' in Ei. destruct got as [|x got]; [done|]. specialize (Hgot eq_refl). inversion Hgot as [|? ? Hx _]; subst. unfold hd. destruct (N.leb_spec p x); lia.
        -- rewrite upd_ne by done. apply Hkeep; [done|intros k' i' g' [=]; done|intros o' H; by apply elem_of_nil in H].
  - cbn in Ho. subst l. constructor; cbn; try apply HL; [|apply Hkeep; try done; by destruct (_ =? _)]. intros k o'. apply in_upd; [apply HL|]. by destruct (_ =? _).
  - destruct (l_boxes _ HL v) as (c & Eb). cbn [merge cc]. rewrite Eb. destruct (N.leb_spec c m) as [Hle|Hle].
    + destruct (Hbox v c c Eb ltac:(lia)) as [B1 B2]. constructor; cbn; [exact B1|exact B2|intros k o'; by apply in_upd; [apply HL|]|by apply Hkeep].
    + destruct (Hbox v c m Eb ltac:(lia)) as [B1 B2]. constructor; cbn; [exact B1|exact B2|intros k o'; apply in_upd; [apply HL|intros o1; by apply Hr']|apply Hkeep; try done; apply Hfur].
Qed.

Lemma edges_step (s : est) t c : pure c -> edges (estep cc owner s t c) = edges s.
Proof.
  intros [->|(v & ->)]; unfold estep; destruct (todo s t) as [|o rest]; try done.
  - destruct o as [src d m|d|d|v|v k|v k i got|l|v m]; cbn [exec_op]; try done.
    + by destruct (merge cc m src d (box s d)).
    + by destruct (_ =? _).
    + destruct (box s v !! i); [done|]. by destruct (react cc v k (prop s v) (edges s v) got) as [[? ?] ?].
    + by destruct (merge cc m v v (box s v)).
  - by destruct (_ =? _).
Qed.
Lemma edges_run l : forall s : est, (forall t c, (t, c) ∈ l -> pure c) -> edges (erun cc owner s l) = edges s.
Proof.
  induction l as [|[t c] l IH]; intros s Hl; [done|]. cbn. etransitivity; [apply IH; intros; by eapply Hl, elem_of_list_further|].
  apply edges_step, (Hl t c), elem_of_list_here.
Qed.
Lemma root_run l : forall (s : est) gv, (forall t c, (t, c) ∈ l -> pure c) -> (forall w, edges s w = es w) -> wake cc owner n s -> shaped cc owner s ->
  (clean s /\ ((u, raw u) ∈ gv -> Init (a := cc) u (raw u) ∈ todo s (owner u))) \/ lit s ->
  let s' := erun cc owner s l in
  (clean s' /\ ((u, raw u) ∈ gv ++ given owner s l -> Init (a := cc) u (raw u) ∈ todo s' (owner u))) \/ lit s'.
Proof using All.
  induction l as [|[t c] l IH]; intros s gv Hl He HW HS H; [cbn; by rewrite app_nil_r|]. cbn [given]. rewrite app_assoc.
  assert (Hc : pure c) by apply (Hl t c), elem_of_list_here.
  refine (IH (estep cc owner s t c) (gv ++ given_at owner s t c) _ _ _ _ _).
  - intros; by eapply Hl, elem_of_list_further.
  - intros w. by rewrite edges_step.
  - by apply wake_estep.
  - apply shaped_estep; [done|]. apply (Engine_Proofs.w_queue _ _ _ _ HW).
  - destruct H as [[H1 H2]|H]; [|right; by apply lit_step]. by apply clean_step.
Qed.

(** A vertex whose mail is below its own label has been notified. *)
Record noted (s : est) : Prop := {
  o_nodec : forall t v, Dec v ∉ todo s t;
  o_init : forall t v m, Init (a := cc) v m ∈ todo s t -> (m : N) = raw v;
  o_box : forall v, exists c : N, box s v = [c] /\ ((c < raw v)%N -> act s v <> 0 \/ exists t, Cas v ∈ todo s t) }.
Lemma noted_step (s : est) t c : pure c -> noted s -> noted (estep cc owner s t c).
Proof.
  intros Hc HN. unfold estep. destruct (todo s t) as [|o rest] eqn:Et.
  { destruct Hc as [->|(v & ->)]; [done|]. destruct (_ =? _); [|done]. constructor; cbn.
    - intros k w. unfold upd. destruct (k =? t); [by intros H%elem_of_list_singleton|apply HN].
    - intros k w m. unfold upd. destruct (k =? t); [intros H%elem_of_list_singleton; by injection H as -> ->|apply HN].
    - intros w. destruct (o_box _ HN w) as (c & Eb & H). exists c. split; [done|]. intros Hlt. destruct (H Hlt) as [?|(k & Hk)]; [by left|right]. exists k.
      destruct (decide (k = t)) as [->|]; [rewrite Et in Hk; by apply elem_of_nil in Hk|by rewrite upd_ne]. }
  destruct Hc as [->|(v & ->)]; [|done].
  assert (Hd : forall new, (forall w, Dec w ∉ new) -> forall k w, Dec w ∉ upd (todo s) t (new ++ rest) k).
  { intros new Hn k w. unfold upd. destruct (k =? t); [|apply HN]. rewrite elem_of_app. intros [H|H]; [by apply (Hn w)|]. apply (o_nodec _ HN t w). rewrite Et. by apply elem_of_list_further. }
  assert (Hi : forall new, (forall w m, Init (a := cc) w m ∉ new) -> forall k w m, Init (a := cc) w m ∈ upd (todo s) t (new ++ rest) k -> (m : N) = raw w).
  { intros new Hn k w m. unfold upd. destruct (k =? t); [|apply HN]. rewrite elem_of_app. intros [H|H]; [by destruct (Hn w m)|]. apply (o_init _ HN t w). rewrite Et. by apply elem_of_list_further. }
  assert (Hk : forall new, forall w, o <> Cas w -> (exists k, Cas w ∈ todo s k) -> exists k, Cas w ∈ upd (todo s) t (new ++ rest) k).
  { intros new w Hne (k & Hk). exists k. destruct (decide (k = t)) as [->|]; [|by rewrite upd_ne]. rewrite Et in Hk. apply elem_of_cons in Hk as [Hk|Hk]; [by destruct Hne|]. rewrite upd_eq. apply elem_of_app. by right. }
  destruct o as [src d m|d|d|v|v k|v k i got|l|v m]; cbn [exec_op].
  - destruct (o_box _ HN d) as (c & Eb & Hcd). cbn [merge cc]. rewrite Eb. destruct (N.leb_spec c m) as [Hle|Hle]; constructor; cbn.
    + apply (Hd []). intros w. apply not_elem_of_nil.
    + apply (Hi []). intros w m'. apply not_elem_of_nil.
    + intros w. destruct (decide (w = d)) as [->|Hwd]; [rewrite upd_eq|rewrite upd_ne by done].
      * exists c. split; [done|]. intros Hlt. destruct (Hcd Hlt) as [?|?]; [by left|right]. by apply (Hk []).
      * destruct (o_box _ HN w) as (c' & Eb' & H'). exists c'. split; [done|]. intros Hlt. destruct (H' Hlt) as [?|?]; [by left|right]. by apply (Hk []).
    + apply (Hd [Cas d]). intros w H%elem_of_list_singleton. done.
    + apply (Hi [Cas d]). intros w m' H%elem_of_list_singleton. done.
    + intros w. destruct (decide (w = d)) as [->|Hwd]; [rewrite upd_eq|rewrite upd_ne by done].
      * exists m. split; [done|]. intros _. right. exists t. rewrite upd_eq. apply elem_of_list_here.
      * destruct (o_box _ HN w) as (c' & Eb' & H'). exists c'. split; [done|]. intros Hlt. destruct (H' Hlt) as [?|?]; [by left|right]. by apply (Hk [Cas d]).
  - destruct (Nat.eqb_spec (act s d) 0) as [Ea|Ea]; constructor; cbn.
    + apply (Hd [Put d]). intros w H%elem_of_list_singleton. done.
    + apply (Hi [Put d]). intros w m' H%elem_of_list_singleton. done.
    + intros w. destruct (o_box _ HN w) as (c' & Eb' & H'). exists c'. split; [done|]. intros Hlt. destruct (decide (w = d)) as [->|Hwd]; [left; by rewrite upd_eq|rewrite upd_ne by done].
      destruct (H' Hlt) as [?|?]; [by left|right]. apply (Hk [Put d]); [congruence|done].
    + apply (Hd []). intros w. apply not_elem_of_nil.
    + apply (Hi []). intros w m'. apply not_elem_of_nil.
    + intros w. destruct (o_box _ HN w) as (c' & Eb' & H'). exists c'. split; [done|]. intros Hlt. destruct (decide (w = d)) as [->|Hwd]; [by left|].
      destruct (H' Hlt) as [?|?]; [by left|right]. apply (Hk []); [congruence|done].
  - constructor; cbn.
    + apply (Hd []). intros w. apply not_elem_of_nil.
    + apply (Hi []). intros w m'. apply not_elem_of_nil.
    + intros w. destruct (o_box _ HN w) as (c' & Eb' & H'). exists c'. split; [done|]. intros Hlt. destruct (H' Hlt) as [?|?]; [by left|right]. by apply (Hk []).
  - destruct (o_nodec _ HN t v). rewrite Et. apply elem_of_list_here.
  - constructor; cbn.
    + apply (Hd [_]). intros w H%elem_of_list_singleton. done.
    + apply (Hi [_]). intros w m' H%elem_of_list_singleton. done.
    + intros w. destruct (o_box _ HN w) as (c' & Eb' & H'). exists c'. split; [done|]. intros Hlt. destruct (H' Hlt) as [?|?]; [by left|right]. by apply (Hk [_]).
  - destruct (box s v !! i) as [c'|] eqn:Ei; cbn [take cc].
    + constructor; cbn.
      * apply (Hd [_]). intros w H%elem_of_list_singleton. done.
      * apply (Hi [_]). intros w m' H%elem_of_list_singleton. done.
      * intros w. assert (Ebs : upd (box s) v (<[i:=(c' : cell_t cc)]> (box s v)) w = box s w). { unfold upd. destruct (Nat.eqb_spec w v) as [->|]; [|done]. rewrite list_insert_id; [done|exact Ei]. }
        destruct (o_box _ HN w) as (c & Eb' & H'). exists c. split; [exact (eq_trans Ebs Eb')|]. intros Hlt. destruct (H' Hlt) as [?|?]; [by left|right]. by apply (Hk [_]).
    + destruct (react cc v k (prop s v) (edges s v) got) as [[p ms] ms']. set (A := map (fun '(d, m) => Merge (a := cc) v d m) ms). set (B := Else (a := cc) (map (fun '(d, m) => (v, d, m)) ms')).
      assert (E : A ++ B :: rest = (A ++ [B]) ++ rest) by (by rewrite <- app_assoc). rewrite E. constructor; cbn.
      * apply Hd. intros w. unfold A. rewrite elem_of_app, elem_of_list_singleton. intros [H|H]; [|done]. apply elem_of_list_fmap in H as ([d x] & H & _). done.
      * apply Hi. intros w m'. unfold A. rewrite elem_of_app, elem_of_list_singleton. intros [H|H]; [|done]. apply elem_of_list_fmap in H as ([d x] & H & _). done.
      * intros w. destruct (o_box _ HN w) as (c & Eb' & H'). exists c. split; [done|]. intros Hlt. destruct (H' Hlt) as [?|?]; [by left|right]. by apply Hk.
  - assert (E : exists new, (if sent s t =? 0 then map (fun '(v, d, m) => Merge (a := cc) v d m) l ++ rest else rest) = new ++ rest /\ forall o', o' ∈ new -> exists v d m, o' = Merge (a := cc) v d m).
    { destruct (_ =? _); [eexists; split; [reflexivity|]|by exists []; split; [|intros o' H; apply elem_of_nil in H]]. intros o' H. apply elem_of_list_fmap in H as ([[v d] x] & -> & _). eauto. }
    destruct E as (new & E & Hnew). rewrite E. constructor; cbn.
    + apply Hd. intros w H. apply Hnew in H as (? & ? & ? & ?). done.
    + apply Hi. intros w m' H. apply Hnew in H as (? & ? & ? & ?). done.
    + intros w. destruct (o_box _ HN w) as (c & Eb' & H'). exists c. split; [done|]. intros Hlt. destruct (H' Hlt) as [?|?]; [by left|right]. by apply Hk.
  - pose proof (o_init _ HN t v m ltac:(rewrite Et; apply elem_of_list_here)) as Em.
    destruct (o_box _ HN v) as (c & Eb & Hcd). cbn [merge cc]. rewrite Eb. destruct (N.leb_spec c m) as [Hle|Hle]; constructor; cbn.
    + apply (Hd []). intros w. apply not_elem_of_nil.
    + apply (Hi []). intros w m'. apply not_elem_of_nil.
    + intros w. destruct (decide (w = v)) as [->|Hwd]; [rewrite upd_eq|rewrite upd_ne by done].
      * exists c. split; [done|]. intros Hlt. destruct (Hcd Hlt) as [?|?]; [by left|right]. by apply (Hk []).
      * destruct (o_box _ HN w) as (c' & Eb' & H'). exists c'. split; [done|]. intros Hlt. destruct (H' Hlt) as [?|?]; [by left|right]. by apply (Hk []).
    + apply (Hd [_]). intros w H%elem_of_list_singleton. done.
    + apply (Hi [_]). intros w m' H%elem_of_list_singleton. done.
    + intros w. destruct (decide (w = v)) as [->|Hwd]; [rewrite upd_eq|rewrite upd_ne by done].
      * exists m. split; [done|]. intros Hlt. exfalso. clear - Em Hlt. rewrite <- Em in Hlt. lia.
      * destruct (o_box _ HN w) as (c' & Eb' & H'). exists c'. split; [done|]. intros Hlt. destruct (H' Hlt) as [?|?]; [by left|right]. by apply (Hk [_]).
Qed.
Lemma noted_run l : forall s : est, (forall t c, (t, c) ∈ l -> pure c) -> noted s -> noted (erun cc owner s l).
Proof. induction l as [|[t c] l IH]; intros s Hl H; [done|]. cbn. apply IH; [intros; by eapply Hl, elem_of_list_further|]. apply noted_step; [apply (Hl t c), elem_of_list_here|done]. Qed.
End root.

(** Loading has only so much to do. *)
Section quietly.
Context (a : alg) (owner : nat -> nat) (n : nat) (Hown : forall v, owner v < n) (b : nat -> list (cell_t a)) (p : nat -> prop_t a).
Definition cost (o : op (blank a)) : nat :=
  match o with Begin v _ => length (b v) + 3 | Scan v _ i _ => length (b v) - i + 2 | _ => 1 end.
Definition costs (l : list (op (blank a))) : nat := list_sum (map cost l).
Lemma costs_cons o l : costs (o :: l) = cost o + costs l.
Proof. reflexivity. Qed.
Definition work_left (s : est (blank a)) : nat := sumt (fun t => costs (todo s t)) n.
Lemma work_step s t o rest l' : t < n -> todo s t = o :: rest -> costs l' < cost o + costs rest ->
  forall s' : est (blank a), todo s' = upd (todo s) t l' -> work_left s' < work_left s.
Proof.
  intros Ht E Hc s' E'. unfold work_left. rewrite E'.
  pose proof (sumt_change (fun k => costs (upd (todo s) t l' k)) (fun k => costs (todo s k)) n t Ht) as H. cbn beta in H.
  rewrite upd_eq, E in H. change (costs (o :: rest)) with (cost o + costs rest) in H.
  assert (forall k, k < n -> k <> t -> costs (upd (todo s) t l' k) = costs (todo s k)) as Hk by (intros k _ Hk; by rewrite upd_ne). specialize (H Hk). lia.
Qed.
Lemma quietly_step s t c : untouched a b p s -> (forall u, n <= u -> todo s u = []) -> can (blank a) s t c = true -> c ∈ acts (blank a) -> work_left (estep (blank a) owner s t c) < work_left s.
Proof.
  intros HU HT Hcan Hc. unfold acts in Hc. rewrite !elem_of_cons, elem_of_nil in Hc. unfold can in Hcan. destruct Hc as [->|[->|[]]].
  - pose proof (u_todo _ _ _ _ HU t) as Hh. unfold estep. destruct (todo s t) as [|o rest] eqn:Et; [done|].
    assert (Ht : t < n) by (destruct (decide (t < n)); [done|]; rewrite HT in Et by lia; done).
    apply list.Forall_cons in Hh as [Ho _]. destruct o as [| | | |v k|v k i got|l|v m]; try done; cbn [exec_op].
    + eapply (work_step s t); [done|exact Et| |reflexivity]. rewrite ?costs_cons; cbn [cost]; lia.
    + destruct (box s v !! i) as [c|] eqn:Eb; cbn [take blank react].
      * eapply (work_step s t); [done|exact Et| |reflexivity]. apply lookup_lt_Some in Eb. rewrite (u_box _ _ _ _ HU) in Eb. rewrite ?costs_cons; cbn [cost]. change (length (b v)) with (@length (cell_t a) (b v)) in *. change (cell_t (blank a)) with (cell_t a) in *. lia.
      * eapply (work_step s t); [done|exact Et| |reflexivity]. cbn [map app]. rewrite ?costs_cons; cbn [cost]; lia.
    + cbn in Ho. subst l. eapply (work_step s t); [done|exact Et| |reflexivity]. destruct (_ =? _); cbn [map app cost]; lia.
    + eapply (work_step s t); [done|exact Et| |reflexivity]. cbn [cost]. lia.
  - rewrite (u_queue _ _ _ _ HU t) in Hcan. by destruct (todo s t).
Qed.
Lemma quietly s : untouched a b p s -> wake (blank a) owner n s -> finite (blank a) owner s.
Proof using Hown.
  intros HU HW. exists (work_left s). intros l. revert s HU HW. induction l as [|[t c] l IH]; intros s HU HW Hl; [cbn; lia|]. cbn [count].
  assert (Hc : c ∈ acts (blank a)) by apply (Hl t c), elem_of_list_here.
  assert (HI : count (blank a) owner (estep (blank a) owner s t c) l <= work_left (estep (blank a) owner s t c)).
  { apply IH; [by apply untouched_step|by apply wake_estep|]. intros t' c' H. by apply (Hl t' c'), elem_of_list_further. }
  destruct (can (blank a) s t c) eqn:Ec; [|rewrite (cannot (blank a) owner s t c Hc Ec) in *; lia].
  assert (HT : forall u, n <= u -> todo s u = []).
  { intros u Hu. destruct (todo s u) as [|o r] eqn:E; [done|]. pose proof (proj1 (w_mine _ _ _ _ HW u o ltac:(rewrite E; apply elem_of_list_here))). lia. }
  pose proof (quietly_step s t c HU HT Ec Hc). lia.
Qed.
End quietly.
