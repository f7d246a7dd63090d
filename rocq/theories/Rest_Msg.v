(** Message-passing minimisation winds down: a vertex sends only when its value has become smaller,
    or for edges that were just added. *)
From Verif Require Import Base Loop_Spec Loop_Model Loop_Proofs Loop_Live Loop_TC Loop_Active.
From Verif Require Import Active_Spec Active_Model Active_Proofs MsgMin_Model.
Open Scope nat_scope.

Section msg.
Context {V E : Type} (leb : V -> V -> bool) (empty : V -> bool) (ext : E -> V -> V).
Context (owner : nat -> nat) (n : nat) (Hown : forall v, owner v < n) (N : nat).
Context (good : V -> Prop) (okay : E -> Prop) (rank : V -> nat).
Context (Hext : forall e x, okay e -> good x -> good (ext e x)) (Hrank : forall x y, good x -> good y -> leb x y = false -> rank y < rank x).
Notation A := (msg_alg V E leb empty ext).

Definition op_ok (o : aop A) : Prop := match o with Inc d x | APut d x | ADec d x | Handle d x _ => d < N /\ good x | Added v _ => v < N end.
Definition change_ok (c : achoice A) : Prop :=
  match c with
  | AAdd v es => v < N /\ forall d e, (d, e) ∈ (es : list (nat * E)) -> d < N /\ okay e
  | ANote v x => v < N /\ good x
  | _ => True
  end.
Record rinv (s : ast A) : Prop := Rinv {
  r_prop : forall v, good (fst (aprop s v : V * bool));
  r_todo : forall t o, o ∈ atodo s t -> op_ok o;
  r_queue : forall t v x, (v, x) ∈ aqueue s t -> v < N /\ good x;
  r_edges : forall u d e, (d, e) ∈ aedges s u -> d < N /\ okay e;
  r_low : forall u, N <= u -> aedges s u = [] }.

Lemma sends_ok (v : V) (l : list (nat * E)) o : good v -> (forall d e, (d, e) ∈ l -> d < N /\ okay e) ->
  o ∈ sends A (map (fun '(d, e) => (d, ext e v)) l) -> op_ok o.
Proof.
  intros Hv Hl Ho. unfold sends in Ho. apply elem_of_list_fmap in Ho as ([d x] & -> & Ho). apply elem_of_list_fmap in Ho as ([d' e] & [= -> ->] & Ho).
  destruct (Hl d' e Ho). split; [done|by apply Hext].
Qed.
(** What a reaction does: the new property and the edges that are sent along. *)
Lemma react_spec v (k : akind (n_t A)) act (p : p_t A) (es : list (nat * e_t A)) : good (fst p) -> (match k with KNote x => good x | _ => True end) ->
  exists p' l, areact A v k act p es = (p', map (fun '(d, e) => (d, ext e (fst p'))) l) /\ (l = [] \/ l = es \/ exists i, l = drop i es) /\ good (fst p') /\
  (match k with
   | KNote _ => 2 * rank (fst p') + (if snd p' then 1 else 0) <= 2 * rank (fst p) + (if snd p then 1 else 0)
       /\ (l = [] \/ 2 * rank (fst p') + (if snd p' then 1 else 0) < 2 * rank (fst p) + (if snd p then 1 else 0))
   | KAdded _ => 2 * rank (fst p') + (if snd p' then 1 else 0) <= 2 * rank (fst p) + (if snd p then 1 else 0)
   end).
Proof.
  intros Hp Hk. destruct p as [val will]. cbn [fst snd] in *. destruct k as [x|i]; cbn [areact msg_alg].
  - destruct (leb val x) eqn:El.
    + destruct ((0 <? act) || negb will) eqn:Eb.
      * exists (val, will), []. cbn. split_and!; auto.
      * apply orb_false_iff in Eb as [_ Eb]. destruct will; [|done]. exists (val, false), es. cbn -[Nat.mul]. split_and!; auto; try lia; right; lia.
    + pose proof (Hrank val x Hp Hk El). destruct ((0 <? act) || negb true) eqn:Eb.
      * exists (x, true), []. cbn -[Nat.mul]. split_and!; auto; destruct will; try lia.
      * exists (x, false), es. cbn -[Nat.mul]. split_and!; auto; destruct will; try lia; right; lia.
  - destruct (empty val).
    + exists (val, will), []. cbn. split_and!; auto.
    + exists (val, false), (if will then es else drop i es). cbn -[Nat.mul]. split_and!; auto; destruct will; try lia; eauto.
Qed.
Lemma react_in (l es : list (nat * E)) : (l = [] \/ l = es \/ exists i, l = drop i es) -> (forall y, y ∈ l -> y ∈ es) /\ length l <= length es.
Proof.
  intros [->|[->|(i & ->)]]; [|done|].
  - split; [intros y H; by apply elem_of_nil in H|cbn; lia].
  - split; [intros y; rewrite <- (take_drop i es) at 2; rewrite elem_of_app; auto|rewrite skipn_length; lia].
Qed.

Lemma rinv_step s t c : rinv s -> change_ok c -> rinv (astep A owner s t c).
Proof.
  intros [H1 H2 H3 H4 H5] Hc. unfold astep. destruct (atodo s t) as [|o r] eqn:Et.
  - destruct c as [| |v es|v x|v u]; try by constructor.
    + destruct (aqueue s t) as [|[v x] q] eqn:Eq; [by constructor|]. constructor; cbn; try done.
      * intros w o. unfold upd. destruct (Nat.eqb_spec w t) as [->|]; [|by apply H2]. intros ->%elem_of_list_singleton. apply (H3 t). rewrite Eq. apply elem_of_list_here.
      * intros w v' x'. unfold upd. destruct (Nat.eqb_spec w t) as [->|]; [|by apply H3]. intros Hin. apply (H3 t). rewrite Eq. by apply elem_of_list_further.
    + destruct (owner v =? t); [|by constructor]. destruct Hc as [Hv Hes]. constructor; cbn; try done.
      * intros w o. unfold upd. destruct (Nat.eqb_spec w t) as [->|]; [|by apply H2]. by intros ->%elem_of_list_singleton.
      * intros u d e. unfold upd. destruct (Nat.eqb_spec u v) as [->|]; [|by apply H4]. rewrite elem_of_app. intros [Hin|Hin]; [by apply (H4 v)|by apply Hes].
      * intros u Hu. unfold upd. destruct (Nat.eqb_spec u v) as [->|]; [lia|by apply H5].
    + constructor; cbn; try done. intros w o. unfold upd. destruct (Nat.eqb_spec w t) as [->|]; [|by apply H2]. by intros ->%elem_of_list_singleton.
    + destruct (owner v =? t); [|by constructor]. constructor; cbn; try done. intros w. unfold upd. destruct (Nat.eqb_spec w v) as [->|]; apply H1.
  - assert (Ho : op_ok o) by (apply (H2 t); rewrite Et; apply elem_of_list_here).
    assert (Hr : forall o', o' ∈ r -> op_ok o') by (intros o' Hin; apply (H2 t); rewrite Et; by apply elem_of_list_further).
    destruct c; try by constructor. unfold aexec. destruct o as [d x|d x|v x|v x k|v st].
    + constructor; cbn; try done. intros w o. unfold upd. destruct (Nat.eqb_spec w t) as [->|]; [|by apply H2]. intros [->|Hin]%elem_of_cons; [done|by apply Hr].
    + constructor; cbn; try done.
      * intros w o. unfold upd. destruct (Nat.eqb_spec w t) as [->|]; [by apply Hr|by apply H2].
      * intros w v' x'. unfold upd. destruct (Nat.eqb_spec w (owner d)) as [->|]; [|by apply H3]. rewrite elem_of_app. intros [Hin|[= -> ->]%elem_of_list_singleton]; [by apply (H3 (owner d))|done].
    + constructor; cbn; try done. intros w o. unfold upd. destruct (Nat.eqb_spec w t) as [->|]; [|by apply H2]. intros [->|Hin]%elem_of_cons; [done|by apply Hr].
    + destruct (react_spec v (KNote x) k (aprop s v) (aedges s v) (H1 v) (proj2 Ho)) as (p' & l & Er & Hl & Hg & _). rewrite Er. apply react_in in Hl as [Hl _].
      constructor; cbn; try done.
      * intros w. unfold upd. destruct (Nat.eqb_spec w v) as [->|]; [done|apply H1].
      * intros w o. unfold upd. destruct (Nat.eqb_spec w t) as [->|]; [|by apply H2]. rewrite elem_of_app. intros [Hin|Hin]; [|by apply Hr].
        apply (sends_ok (fst p') l); try done. intros d e Hd. by apply (H4 v), Hl.
    + destruct (react_spec v (KAdded st) (aact s v) (aprop s v) (aedges s v) (H1 v) I) as (p' & l & Er & Hl & Hg & _). rewrite Er. apply react_in in Hl as [Hl _].
      constructor; cbn; try done.
      * intros w. unfold upd. destruct (Nat.eqb_spec w v) as [->|]; [done|apply H1].
      * intros w o. unfold upd. destruct (Nat.eqb_spec w t) as [->|]; [|by apply H2]. rewrite elem_of_app. intros [Hin|Hin]; [|by apply Hr].
        apply (sends_ok (fst p') l); try done. intros d e Hd. by apply (H4 v), Hl.
Qed.
Lemma rinv_start p es : (forall v, good (fst (p v : V * bool))) -> (forall u d e, (d, e) ∈ es u -> d < N /\ okay e) -> (forall u, N <= u -> es u = []) -> rinv (astart A p es).
Proof. intros Hp He Hl. constructor; cbn; try done; [intros t o H; by apply elem_of_nil in H|intros t v x H; by apply elem_of_nil in H]. Qed.

(** The measure; [D] bounds the number of edges of a vertex. *)
Context (D : nat).
Definition wt (o : aop A) : nat := match o with Inc _ _ => 5 | APut _ _ => 4 | ADec _ _ => 2 | Handle _ _ _ => 1 | Added _ _ => 5 * D + 1 end.
Fixpoint wts (l : list (aop A)) : nat := match l with [] => 0 | o :: l => wt o + wts l end.
Definition pot (p : V * bool) : nat := (2 * rank (fst p) + (if snd p then 1 else 0)) * (5 * D + 2).
Definition load (s : ast A) (t : nat) : nat := 3 * length (aqueue s t) + wts (atodo s t).
Definition mu (s : ast A) : nat := sumt (fun v => pot (aprop s v)) N + sumt (load s) n.

Lemma wts_app l l' : wts (l ++ l') = wts l + wts l'.
Proof. induction l; cbn; lia. Qed.
Lemma wts_sends l : wts (sends A l) = 5 * length l.
Proof. induction l as [|[d x] l IH]; [done|]. change (5 + wts (sends A l) = 5 * S (length l)). lia. Qed.
Lemma load_ext s s' u : aqueue s' u = aqueue s u -> atodo s' u = atodo s u -> load s' u = load s u.
Proof. intros E1 E2. unfold load. by rewrite E1, E2. Qed.

Lemma pot_le (p p' : V * bool) : 2 * rank (fst p') + (if snd p' then 1 else 0) <= 2 * rank (fst p) + (if snd p then 1 else 0) -> pot p' <= pot p.
Proof. intros H. unfold pot. by apply Nat.mul_le_mono_r. Qed.
Lemma pot_lt (p p' : V * bool) : 2 * rank (fst p') + (if snd p' then 1 else 0) < 2 * rank (fst p) + (if snd p then 1 else 0) -> pot p' + 5 * D + 2 <= pot p.
Proof.
  intros H. unfold pot. revert H. generalize (2 * rank (fst p') + (if snd p' then 1 else 0)) (2 * rank (fst p) + (if snd p then 1 else 0)). intros x y H.
  pose proof (Nat.mul_le_mono_r (S x) y (5 * D + 2) H). rewrite Nat.mul_succ_l in *. lia.
Qed.
Lemma step_down s t c : rinv s -> (forall u, length (aedges s u) <= D) -> t < n -> able (act_machine A owner) s t c = true ->
  (forall u, length (aedges (astep A owner s t c) u) <= D) /\ mu (astep A owner s t c) < mu s.
Proof.
  intros HR HD Ht Ha. unfold able in Ha. cbn in Ha. unfold act_busy, act_len, act_kind in Ha. destruct c; try done.
  - destruct (atodo s t) as [|o r] eqn:Et; [done|]. unfold astep. rewrite Et.
    assert (Ho : op_ok o) by (apply (r_todo _ HR t); rewrite Et; apply elem_of_list_here).
    destruct o as [d x|d x|v x|v x k|v st]; unfold aexec.
    + split; [done|]. unfold mu. cbn [aprop].
      match goal with |- context [sumt (load ?s') n] => set (s1 := s') end.
      assert (Hs : sumt (load s1) n + load s t = sumt (load s) n + load s1 t).
      { apply sumt_change; [done|]. intros u _ Hne. apply load_ext; [done|]. unfold s1. cbn. by rewrite upd_ne. }
      assert (L0 : load s t = 3 * length (aqueue s t) + (5 + wts r)) by (unfold load; by rewrite Et).
      assert (L1 : load s1 t = 3 * length (aqueue s t) + (4 + wts r)) by (unfold load, s1; cbn [atodo aqueue]; by rewrite upd_eq). lia.
    + split; [done|]. unfold mu. cbn [aprop].
      set (sm := Ast (aact s) (aqueue s) (aprop s) (aedges s) (upd (atodo s) t r) (alog s) : ast A).
      match goal with |- context [sumt (load ?s') n] => set (s1 := s') end.
      assert (Hs : sumt (load sm) n + load s t = sumt (load s) n + load sm t).
      { apply sumt_change; [done|]. intros u _ Hne. apply load_ext; [done|]. unfold sm. cbn. by rewrite upd_ne. }
      assert (Hs2 : sumt (load s1) n + load sm (owner d) = sumt (load sm) n + load s1 (owner d)).
      { apply sumt_change; [apply Hown|]. intros u _ Hne. apply load_ext; [|done]. unfold s1, sm. cbn. by rewrite upd_ne. }
      assert (L0 : load s t = 3 * length (aqueue s t) + (4 + wts r)) by (unfold load; by rewrite Et).
      assert (L1 : load sm t = 3 * length (aqueue s t) + wts r) by (unfold load, sm; cbn [atodo aqueue]; by rewrite upd_eq).
      assert (L2 : load s1 (owner d) = load sm (owner d) + 3) by (unfold load, s1, sm; cbn [atodo aqueue]; rewrite upd_eq, app_length; cbn [length]; lia). lia.
    + split; [done|]. unfold mu. cbn [aprop].
      match goal with |- context [sumt (load ?s') n] => set (s1 := s') end.
      assert (Hs : sumt (load s1) n + load s t = sumt (load s) n + load s1 t).
      { apply sumt_change; [done|]. intros u _ Hne. apply load_ext; [done|]. unfold s1. cbn. by rewrite upd_ne. }
      assert (L0 : load s t = 3 * length (aqueue s t) + (2 + wts r)) by (unfold load; by rewrite Et).
      assert (L1 : load s1 t = 3 * length (aqueue s t) + (1 + wts r)) by (unfold load, s1; cbn [atodo aqueue]; by rewrite upd_eq). lia.
    + destruct (react_spec v (KNote x) k (aprop s v) (aedges s v) (r_prop _ HR v) (proj2 Ho)) as (p' & l & Er & Hl & _ & Hd1 & Hd2). rewrite Er. apply react_in in Hl as [_ Hl].
      split; [done|]. unfold mu. cbn [aprop].
      match goal with |- context [sumt (load ?s') n] => set (s1 := s') end.
      assert (Hs : sumt (load s1) n + load s t = sumt (load s) n + load s1 t).
      { apply sumt_change; [done|]. intros u _ Hne. apply load_ext; [done|]. unfold s1. cbn. by rewrite upd_ne. }
      assert (Hp : sumt (fun w => pot (upd (aprop s) v p' w)) N + pot (aprop s v) = sumt (fun w => pot (aprop s w)) N + pot p').
      { pose proof (sumt_change (fun w => pot (upd (aprop s) v p' w)) (fun w => pot (aprop s w)) N v (proj1 Ho)) as Q. cbn beta in Q. rewrite upd_eq in Q. apply Q.
        intros w _ Hne. by rewrite upd_ne. }
      assert (L0 : load s t = 3 * length (aqueue s t) + (1 + wts r)) by (unfold load; by rewrite Et).
      assert (L1 : load s1 t = 3 * length (aqueue s t) + (5 * length l + wts r)) by (unfold load, s1; cbn [atodo aqueue]; by rewrite upd_eq, wts_app, wts_sends, map_length).
      assert (Hl2 : length l <= D) by (etransitivity; [exact Hl|exact (HD v)]). destruct Hd2 as [->|Hd2].
      * cbn [length] in L1. pose proof (pot_le _ _ Hd1). lia.
      * pose proof (pot_lt _ _ Hd2). lia.
    + destruct (react_spec v (KAdded st) (aact s v) (aprop s v) (aedges s v) (r_prop _ HR v) I) as (p' & l & Er & Hl & _ & Hd1). rewrite Er. apply react_in in Hl as [_ Hl].
      split; [done|]. unfold mu. cbn [aprop].
      match goal with |- context [sumt (load ?s') n] => set (s1 := s') end.
      assert (Hs : sumt (load s1) n + load s t = sumt (load s) n + load s1 t).
      { apply sumt_change; [done|]. intros u _ Hne. apply load_ext; [done|]. unfold s1. cbn. by rewrite upd_ne. }
      assert (Hp : sumt (fun w => pot (upd (aprop s) v p' w)) N + pot (aprop s v) = sumt (fun w => pot (aprop s w)) N + pot p').
      { pose proof (sumt_change (fun w => pot (upd (aprop s) v p' w)) (fun w => pot (aprop s w)) N v Ho) as Q. cbn beta in Q. rewrite upd_eq in Q. apply Q.
        intros w _ Hne. by rewrite upd_ne. }
      assert (L0 : load s t = 3 * length (aqueue s t) + (5 * D + 1 + wts r)) by (unfold load; by rewrite Et).
      assert (L1 : load s1 t = 3 * length (aqueue s t) + (5 * length l + wts r)) by (unfold load, s1; cbn [atodo aqueue]; by rewrite upd_eq, wts_app, wts_sends, map_length).
      assert (Hl2 : length l <= D) by (etransitivity; [exact Hl|exact (HD v)]). pose proof (pot_le _ _ Hd1). lia.
  - destruct (atodo s t) as [|o r] eqn:Et; [|done]. destruct (aqueue s t) as [|[v x] q] eqn:Eq; [done|]. unfold astep. rewrite Et, Eq. split; [done|].
    unfold mu. cbn [aprop]. match goal with |- context [sumt (load ?s') n] => set (s1 := s') end.
    assert (Hs : sumt (load s1) n + load s t = sumt (load s) n + load s1 t).
    { apply sumt_change; [done|]. intros u _ Hne. apply load_ext; unfold s1; cbn; by rewrite upd_ne. }
    assert (L0 : load s t = 3 * (1 + length q)) by (unfold load; rewrite Et, Eq; cbn; lia).
    assert (L1 : load s1 t = 3 * length q + 2) by (unfold load, s1; cbn [atodo aqueue]; rewrite !upd_eq; cbn; lia). lia.
Qed.
End msg.
