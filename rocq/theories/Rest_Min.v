(** Connected components and shortest paths come to rest: mailboxes only go down, and not for ever. *)
From Verif Require Import Base Engine_Spec Engine_Model Engine_Proofs Engine_Props Min_Model Rest_Spec Rest_Proofs Rest_Work.
Open Scope nat_scope.

Section rest.
Context {V E : Type} (leb : V -> V -> bool) (top : V) (ext : E -> V -> V) (below : bool).
Context (owner : nat -> nat) (n : nat) (Hown : forall v, owner v < n) (N : nat).
(** The values that can occur, the edge data that can occur, and a rank for the former. *)
Context (good : V -> Prop) (okay : E -> Prop) (rank : V -> nat).
Context (Htop : good top) (Hext : forall e x, okay e -> good x -> good (ext e x))
  (Hrank : forall x y, good x -> good y -> leb x y = false -> rank y < rank x).
Notation A := (min_alg V E leb top ext below).
Notation est := (est A).

Definition gop (o : op A) : Prop :=
  match o with
  | Merge _ d m => d < N /\ good m
  | Scan _ _ _ got => Forall good got
  | Else l => Forall (fun '(_, d, m) => d < N /\ good m) l
  | Init v m => v < N /\ good m
  | _ => True
  end.
Record minv (s : est) : Prop := {
  m_threads : threads A n s;
  m_box : forall v, exists c, box s v = [c] /\ good c;
  m_prop : forall v, good (prop s v);
  m_ops : forall t, Forall gop (todo s t);
  m_edges : forall u, Forall (fun '(d, e) => d < N /\ okay e) (edges s u);
  m_low : forall u, N <= u -> edges s u = [] }.
Definition gchoice (c : choice A) : Prop :=
  match c with
  | Run | Pop => True
  | AddEdges v es => v < N /\ Forall (fun '(d, e) => d < N /\ okay e) (es : list (nat * E))
  | DelEdges _ _ => False
  | SendInit v m => v < N /\ good m
  end.

Lemma merge_cell m v d c : merge A m v d [c] = (if leb c m then ([c], false) else ([m], true)).
Proof. done. Qed.
Lemma min_react v k p es got :
  react A v k p es got = (let m := hd p got in let p' := if leb p m then p else m in
    (p', if leb p m then [] else map (fun '(d, e) => (d, ext e p')) es,
     match k with KAdd start => if below && leb top p' then [] else map (fun '(d, e) => (d, ext e p')) (drop start es) | _ => [] end)).
Proof. done. Qed.
Lemma good_sends p (es : list (nat * E)) : good p -> Forall (fun '(d, e) => d < N /\ okay e) es -> Forall (fun '(d, m) => d < N /\ good m) (map (fun '(d, e) => (d, ext e p)) es).
Proof. intros Hp H. apply Forall_fmap. eapply List.Forall_impl; [|exact H]. intros [d e] [H1 H2]. simpl. auto. Qed.
Lemma good_react v k p es got : good p -> Forall good got -> Forall (fun '(d, e) => d < N /\ okay e) es ->
  let '(p', ms, ms') := react A v k p es got in
  good p' /\ Forall (fun '(d, m) => d < N /\ good m) ms /\ Forall (fun '(d, m) => d < N /\ good m) ms' /\ length ms <= length es /\ length ms' <= length es.
Proof.
  intros Hp Hg He. rewrite min_react. cbn zeta.
  assert (Hm : good (hd p got)) by (destruct got; [done|by apply list.Forall_cons in Hg as [? _]]).
  set (p' := if leb p (hd p got) then p else hd p got). assert (Hp' : good p') by (unfold p'; by destruct (leb p _)).
  split_and!; [done| | | |].
  - destruct (leb p _); [constructor|by apply good_sends].
  - destruct k; try constructor. destruct (below && _); [constructor|]. apply good_sends; [done|]. by apply Forall_drop.
  - destruct (leb p _); [simpl; lia|]. by rewrite map_length.
  - destruct k; simpl; try lia. destruct (below && _); simpl; [lia|]. rewrite map_length, drop_length. lia.
Qed.

Lemma minv_estep s t c : minv s -> gchoice c -> minv (estep A owner s t c).
Proof.
  intros Hs Hc. destruct (decide (t < n)) as [Ht|Ht].
  2:{ destruct (m_threads s Hs t ltac:(lia)) as [E1 E2]. unfold estep. rewrite E1. destruct c as [| |v es|v gone|v m]; try done.
      - by rewrite E2.
      - destruct (Nat.eqb_spec (owner v) t) as [E0|]; [|done]. specialize (Hown v). lia.
      - destruct (Nat.eqb_spec (owner v) t) as [E0|]; [|done]. specialize (Hown v). lia. }
  assert (HT : forall l q k, n <= k -> upd (todo s) t l k = [] /\ q k = queue s k -> upd (todo s) t l k = [] /\ q k = []).
  { intros l q k Hk [H1 H2]. split; [done|]. rewrite H2. by apply (m_threads s Hs). }
  assert (HO : forall l, Forall gop l -> forall k, Forall gop (upd (todo s) t l k)).
  { intros l Hl k. destruct (decide (k = t)) as [->|Hne]; us; [done|apply (m_ops s Hs)]. }
  unfold estep. destruct (todo s t) as [|o rest] eqn:Et.
  - destruct c as [| |v es|v gone|v m]; try done.
    + destruct (queue s t) as [|v q] eqn:Eq; [done|]. split; try apply Hs.
      * intros k Hk. cbn. us. by apply (m_threads s Hs).
      * apply HO. by repeat constructor.
    + destruct (Nat.eqb_spec (owner v) t) as [E0|]; [|done]. destruct Hc as [Hv Hes]. split; try apply Hs.
      * intros k Hk. cbn. us. by apply (m_threads s Hs).
      * apply HO. by repeat constructor.
      * intros u. cbn. destruct (decide (u = v)) as [->|Hne]; us; [|apply Hs]. apply Forall_app. split; [apply Hs|done].
      * intros u Hu. cbn. us. by apply (m_low s Hs).
    + destruct (Nat.eqb_spec (owner v) t) as [E0|]; [|done]. split; try apply Hs.
      * intros k Hk. cbn. us. by apply (m_threads s Hs).
      * apply HO. constructor; [exact Hc|constructor].
  - destruct c; try done. pose proof (m_ops s Hs t) as Hop. rewrite Et in Hop. apply list.Forall_cons in Hop as [Ho Hrest].
    unfold exec_op. destruct o as [v d m|d|d|v|v k|v k i got|l|v m].
    + destruct (m_box s Hs d) as (c & Eb & Gc). rewrite Eb, merge_cell. destruct Ho as [Hd Gm].
      destruct (leb c m); (split; try apply Hs; [intros k Hk; cbn; us; by apply (m_threads s Hs)| |apply HO; by repeat constructor]);
        intros w; cbn; (destruct (decide (w = d)) as [->|Hne]; us; [eauto|apply Hs]).
    + destruct (act s d =? 0); (split; try apply Hs; [intros k Hk; cbn; us; by apply (m_threads s Hs)|apply HO; by repeat constructor]).
    + split; try apply Hs; [|by apply HO]. intros k Hk. cbn. pose proof (Hown d). us. by apply (m_threads s Hs).
    + split; try apply Hs; [|by apply HO]. intros k Hk. cbn. us. by apply (m_threads s Hs).
    + split; try apply Hs; [|apply HO; by repeat constructor]. intros k' Hk. cbn. us. by apply (m_threads s Hs).
    + destruct (m_box s Hs v) as (c & Eb & Gc). destruct (box s v !! i) as [c1|] eqn:Ei.
      * assert (i = 0 /\ c1 = c) as [-> ->] by (rewrite Eb in Ei; destruct i; [by injection Ei as ->|done]). split; try apply Hs.
        -- intros k' Hk. cbn. us. by apply (m_threads s Hs).
        -- intros w. cbn. destruct (decide (w = v)) as [->|Hne]; us; [rewrite Eb; eauto|apply Hs].
        -- apply HO. constructor; [|done]. cbn. apply Forall_app. split; [done|by repeat constructor].
      * pose proof (good_react v k (prop s v) (edges s v) got (m_prop s Hs v) Ho (m_edges s Hs v)) as HR.
        destruct (react A v k (prop s v) (edges s v) got) as [[p ms] ms'] eqn:Er. destruct HR as (R1 & R2 & R3 & _).
        split; try apply Hs.
        -- intros k' Hk. cbn. us. by apply (m_threads s Hs).
        -- intros w. cbn. destruct (decide (w = v)) as [->|Hne]; us; [done|apply Hs].
        -- apply HO. apply Forall_app. split; [|constructor; [|done]].
           ++ apply Forall_fmap. eapply List.Forall_impl; [|exact R2]. by intros [d m].
           ++ cbn. apply Forall_fmap. eapply List.Forall_impl; [|exact R3]. by intros [d m].
    + split; try apply Hs; [intros k Hk; cbn; us; by apply (m_threads s Hs)|]. apply HO. destruct (sent s t =? 0); [|done].
      apply Forall_app. split; [|done]. apply Forall_fmap. eapply List.Forall_impl; [|exact Ho]. by intros [[v d] m].
    + destruct (m_box s Hs v) as (c & Eb & Gc). rewrite Eb, merge_cell. destruct Ho as [Hd Gm].
      destruct (leb c m); (split; try apply Hs; [intros k Hk; cbn; us; by apply (m_threads s Hs)| |apply HO; by repeat constructor]);
        intros w; cbn; (destruct (decide (w = v)) as [->|Hne]; us; [eauto|apply Hs]).
Qed.

(** Work, and the height of the mailboxes. *)
Context (M : nat).
Definition height (s : est) : nat := sumt (fun v => rank (hd top (box s v))) N.
Notation rc := (fun _ : kind E => 2 * M + 1).
Notation wi := (1 + wbegin A rc 1 KUpd).
Definition left_over (s : est) : nat := height s * (wq A rc 1 + 2) + work A n 1 rc wi 1 s.
Definition bounded_deg (s : est) : Prop := forall u, length (edges s u) <= M.

Lemma height_same (s s' : est) : (forall v, box s' v = box s v) -> height s' = height s.
Proof. intros H. unfold height. apply sumt_ext. intros v _. by rewrite H. Qed.
Lemma height_merge (s s' : est) (d : nat) (c m : V) : d < N -> box s d = [c] -> good c -> good m -> leb c m = false ->
  box s' d = [m] -> (forall v, v <> d -> box s' v = box s v) -> height s' < height s.
Proof.
  intros Hd Eb Gc Gm Hl Eb' Hne. unfold height.
  pose proof (sumt_change (fun v => rank (hd top (box s' v))) (fun v => rank (hd top (box s v))) N d Hd ltac:(intros; cbn beta; by rewrite Hne)) as H.
  cbn beta in H. rewrite Eb, Eb' in H. cbn in H. pose proof (Hrank c m Gc Gm Hl). lia.
Qed.
Lemma left_step s t c : minv s -> bounded_deg s -> c ∈ acts A -> can A s t c = true -> left_over (estep A owner s t c) < left_over s.
Proof.
  intros Hs HM Hc Hcan. unfold left_over.
  assert (Hlen : forall v, length (box s v) <= 1) by (intros v; destruct (m_box s Hs v) as (x & -> & _); done).
  destruct (work_step A owner n Hown 1 rc wi 1 s t c ltac:(lia) ltac:(lia) (m_threads s Hs) Hlen Hc Hcan) as [H|[H|[H|H]]].
  - assert (Hh : height (estep A owner s t c) <= height s); [|nia].
    unfold acts in Hc. rewrite !elem_of_cons, elem_of_nil in Hc. destruct Hc as [->|[->|[]]]; unfold estep.
    + destruct (todo s t) as [|o rest] eqn:Et; [done|]. pose proof (m_ops s Hs t) as Hop. rewrite Et in Hop. apply list.Forall_cons in Hop as [Ho _].
      unfold exec_op. destruct o as [v d m|d|d|v|v k|v k i got|l|v m]; try (by rewrite (height_same s) by done).
      * destruct (m_box s Hs d) as (x & Eb & Gx). rewrite Eb, merge_cell. destruct Ho as [Hd Gm]. destruct (leb x m) eqn:El.
        -- rewrite (height_same s); [done|]. intros w. cbn. destruct (decide (w = d)) as [->|Hne]; us; done.
        -- apply Nat.lt_le_incl. eapply (height_merge s _ d x m); [done..| |]; cbn; intros; by us.
      * by destruct (act s d =? 0).
      * destruct (m_box s Hs v) as (x & Eb & Gx). destruct (box s v !! i) as [c1|] eqn:Ei.
        -- assert (i = 0 /\ c1 = x) as [-> ->] by (rewrite Eb in Ei; destruct i; [by injection Ei as ->|done]).
           rewrite (height_same s); [done|]. intros w. cbn. destruct (decide (w = v)) as [->|Hne]; us; [by rewrite Eb|done].
        -- destruct (react A v k (prop s v) (edges s v) got) as [[p ms] ms']. by rewrite (height_same s).
      * destruct (m_box s Hs v) as (x & Eb & Gx). rewrite Eb, merge_cell. destruct Ho as [Hd Gm]. destruct (leb x m) eqn:El.
        -- rewrite (height_same s); [done|]. intros w. cbn. destruct (decide (w = v)) as [->|Hne]; us; done.
        -- apply Nat.lt_le_incl. eapply (height_merge s _ v x m); [done..| |]; cbn; intros; by us.
    + destruct (todo s t); [|done]. destruct (queue s t); [done|]. by rewrite (height_same s).
  - destruct H as (v & d & m & rest & Et & -> & Hn & Hw). pose proof (m_ops s Hs t) as Hop. rewrite Et in Hop. apply list.Forall_cons in Hop as [[Hd Gm] _].
    destruct (m_box s Hs d) as (x & Eb & Gx). rewrite Eb, merge_cell in Hn. destruct (leb x m) eqn:El; [done|].
    assert (Hh : height (estep A owner s t Run) < height s).
    { unfold estep. rewrite Et. unfold exec_op. rewrite Eb, merge_cell, El. eapply (height_merge s _ d x m); [done..| |]; cbn; intros; by us. }
    nia.
  - destruct H as (v & m & rest & Et & -> & Hn & Hw). pose proof (m_ops s Hs t) as Hop. rewrite Et in Hop. apply list.Forall_cons in Hop as [[Hd Gm] _].
    destruct (m_box s Hs v) as (x & Eb & Gx). rewrite Eb, merge_cell in Hn. destruct (leb x m) eqn:El; [done|].
    assert (Hh : height (estep A owner s t Run) < height s).
    { unfold estep. rewrite Et. unfold exec_op. rewrite Eb, merge_cell, El. eapply (height_merge s _ v x m); [done..| |]; cbn; intros; by us. }
    nia.
  - destruct H as (v & k & i & got & rest & Et & -> & Hn & Hw). pose proof (m_ops s Hs t) as Hop. rewrite Et in Hop. apply list.Forall_cons in Hop as [Ho _].
    pose proof (good_react v k (prop s v) (edges s v) got (m_prop s Hs v) Ho (m_edges s Hs v)) as HR.
    assert (Hh : height (estep A owner s t Run) = height s).
    { apply height_same. intros w. unfold estep. rewrite Et. unfold exec_op. rewrite Hn. by destruct (react A v k (prop s v) (edges s v) got) as [[p ms] ms']. }
    rewrite Hh. destruct (react A v k (prop s v) (edges s v) got) as [[p ms] ms'] eqn:Er. destruct HR as (_ & _ & _ & R4 & R5). specialize (HM v). change (edge_t A) with E in *. nia.
Qed.
Lemma acts_edges s t c : c ∈ acts A -> edges (estep A owner s t c) = edges s.
Proof.
  unfold acts. rewrite !elem_of_cons, elem_of_nil. intros [->|[->|[]]]; unfold estep.
  - destruct (todo s t) as [|o rest]; [done|]. unfold exec_op. destruct o as [v d m|d|d|v|v k|v k i got|l|v m]; try done.
    + by destruct (merge A m v d (box s d)).
    + by destruct (act s d =? 0).
    + destruct (box s v !! i); [by destruct (take A c)|]. by destruct (react A v k (prop s v) (edges s v) got) as [[p ms] ms'].
    + by destruct (merge A m v v (box s v)).
  - destruct (todo s t); [|done]. by destruct (queue s t).
Qed.
Lemma min_settles_M s : minv s -> bounded_deg s -> finite A owner s /\ settles (erun A owner) (acts A) n idle s.
Proof.
  intros Hs HM. apply (settles_acc A owner n (fun s => minv s /\ bounded_deg s)).
  - intros s' [H _]. apply H.
  - intros s' t c [H1 H2] Hc. split; [apply minv_estep; [done|]|].
    + unfold acts in Hc. rewrite !elem_of_cons, elem_of_nil in Hc. by destruct Hc as [->|[->|[]]].
    + unfold bounded_deg. by rewrite acts_edges.
  - done.
  - assert (G : forall k s, left_over s < k -> Acc (next A owner (fun s => minv s /\ bounded_deg s)) s).
    { induction k as [|k IH]; intros s' Hk; [lia|]. constructor. intros s'' (t & c & [I1 I2] & Hc & Hcan & ->). apply IH.
      pose proof (left_step s' t c I1 I2 Hc Hcan). lia. }
    by apply (G (S (left_over s))), Nat.lt_succ_diag_r.
Qed.
End rest.
