(** C71: message-passing shortest paths come to rest under every fair schedule, and the program ends
    with the shortest path lengths. *)
From Verif Require Import Base QcUtil Engine_Spec Engine_Model Engine_Proofs Engine_Props Min_Spec Min_Model Min_Props Rest_Spec Rest_Gen Rest_Props.
From Verif Require Import Loop_Spec Loop_Model Loop_Proofs Loop_Live Loop_TC Loop_Active Loop_Props Rest_Msg.
From Verif Require Import Active_Spec Active_Model Active_Proofs MsgMin_Model MsgMin_Proofs MsgMin_Props.
From Verif Require Term_Model Term_Proofs.
From Coq Require Import QArith Qcanon.
Open Scope nat_scope.

(** Everything happens among the vertices below [N]; edges satisfy [okay], initial notifications [good]. *)
Definition msg_among {rnd top} (N : nat) (okay good : Qc -> Prop) (c : achoice (ssspm rnd top)) : Prop :=
  match c with
  | AAdd v es => v < N /\ forall d e, (d, e) ∈ (es : list (nat * Qc)) -> d < N /\ okay e
  | ANote v x => v < N /\ good x
  | _ => True
  end.
Definition msg_acts rnd top : list (achoice (ssspm rnd top)) := [ARun; APop].

Section msg.
Context (rnd : Qc -> Qc) (top : Qc) (owner : nat -> nat) (n N : nat) (good okay : Qc -> Prop) (rank : Qc -> nat).
Context (Hown : forall v, owner v < n) (Ht : good top) (Hx : forall w x, okay w -> good x -> good (rnd (x + w)%Qc))
  (Hr : forall x y, good x -> good y -> (y < x)%Qc -> rank y < rank x).
Notation A := (ssspm rnd top).
Notation RI := (rinv qle (fun x => Qc_eq_bool x top) (fun w x => rnd (x + w)%Qc) N good okay).
Notation AM := (act_machine A owner).

Lemma rank_leb (x y : Qc) : good x -> good y -> qle x y = false -> rank y < rank x.
Proof. intros Gx Gy H. apply Hr; try done. apply Qcnot_le_lt. intros Hle. apply qle_iff in Hle. congruence. Qed.
Lemma ri_step (s : ast A) t (c : achoice A) : RI s -> msg_among N okay good c -> RI (astep A owner s t c).
Proof. intros HI Hc. apply (rinv_step _ _ _ owner n Hown N good okay rank Hx rank_leb s t c HI). exact Hc. Qed.
Lemma ri_start es : among N okay es -> RI (ssspm_start rnd top es).
Proof. intros He. apply (rinv_start _ _ _ N good okay); [done|intros u d e H; by apply (He u)|intros u Hu; by apply (He u)]. Qed.
Lemma ri_run (s : ast A) l : RI s -> (forall t c, (t, c) ∈ l -> msg_among N okay good c) -> RI (arun A owner s l).
Proof.
  revert s. induction l as [|[t c] l IH]; intros s HI Hl; [done|]. unfold arun. cbn [fold_left]. fold (arun A owner (astep A owner s t c) l).
  apply IH; [|intros t' c' H; by apply (Hl t' c'), elem_of_list_further]. apply ri_step; [done|]. apply (Hl t c), elem_of_list_here.
Qed.
Lemma able_among (s : ast A) t c : able AM s t c = true -> msg_among N okay good c.
Proof. unfold able. cbn. by destruct c. Qed.
Lemma degree (s : ast A) : RI s -> exists D, forall u, length (aedges s u) <= D.
Proof.
  intros HI. destruct (max_exists (fun u => length (aedges s u)) N) as (D & HD). exists D. intros u. destruct (decide (u < N)) as [Hu|Hu]; [exact (HD u Hu)|].
  assert (aedges s u = []) as -> by (apply (r_low _ _ _ _ _ _ _ HI); lia). cbn. lia.
Qed.
Lemma msg_winds (s : ast A) : RI s -> winds_down (astep A owner) n (able AM) s.
Proof.
  intros HI. destruct (degree s HI) as (D & HD).
  exists (fun s => RI s /\ forall u, length (aedges s u) <= D), (mu qle (fun x => Qc_eq_bool x top) (fun w x => rnd (x + w)%Qc) n N rank D). split; [done|].
  intros s' t c [HI' HD'] Hlt Ha.
  destruct (step_down qle (fun x => Qc_eq_bool x top) (fun w x => rnd (x + w)%Qc) owner n Hown N good okay rank Hx rank_leb D s' t c HI' HD' Hlt Ha) as [H1 H2].
  split; [split; [|done]|done]. apply ri_step; [done|by apply (able_among s' t)].
Qed.

Lemma acts_noted (s : ast A) l : (forall t c, (t, c) ∈ l -> match c with ARun | APop => True | _ => False end) -> noted owner s l = [] /\ aedges (arun A owner s l) = aedges s.
Proof.
  revert s. induction l as [|[t c] l IH]; intros s Hl; [done|]. pose proof (Hl t c ltac:(apply elem_of_list_here)) as Hc.
  destruct (IH (astep A owner s t c)) as [I1 I2]; [intros t' c' H; by apply (Hl t' c'), elem_of_list_further|]. cbn [noted]. rewrite I1.
  split; [|unfold arun in *; cbn [fold_left]; rewrite I2].
  - unfold noted_at. destruct (atodo s t); [|done]. by destruct c.
  - unfold astep. destruct (atodo s t) as [|o r], c; try done; [by repeat case_match|]. unfold aexec. destruct o; try done; by destruct (areact _ _ _ _ _ _).
Qed.
Lemma noted_app (s : ast A) l l' : noted owner s (l ++ l') = noted owner s l ++ noted owner (arun A owner s l) l'.
Proof. revert s. induction l as [|[t c] l IH]; intros s; [done|]. cbn [noted app]. rewrite IH, app_assoc. done. Qed.
Lemma notes_threads (l : list (nat * achoice A)) : (forall t c, (t, c) ∈ l -> t < n) -> notes_by_threads A n l.
Proof. intros H t v x Hin. by apply (H t _ Hin). Qed.

(** At rest after a number of rounds, whatever has happened before. *)
Theorem C71_rest es sched : among N okay es -> (forall t c, (t, c) ∈ sched -> t < n /\ msg_among N okay good c) ->
  settles (arun A owner) (msg_acts rnd top) n aidle (arun A owner (ssspm_start rnd top es) sched).
Proof.
  intros Hes Hs. set (s := arun A owner (ssspm_start rnd top es) sched).
  assert (HI : RI s). { apply ri_run; [by apply ri_start|]. intros t c Hin. by apply (Hs t c). }
  assert (HA : ainv A owner n s). { apply ainv_arun; [done|apply notes_threads; intros t c Hin; by apply (Hs t c)|apply ainv_start]. }
  destruct (degree s HI) as (D & HD).
  set (inv := fun s => (ainv A owner n s /\ RI s) /\ forall u, length (aedges s u) <= D).
  set (can := able AM).
  assert (Hnot : forall s t c, c ∈ msg_acts rnd top -> can s t c = false -> astep A owner s t c = s).
  { intros s' t c Hc Hn. unfold can, able in Hn. cbn in Hn. unfold act_busy, act_len in Hn. unfold msg_acts in Hc. rewrite !elem_of_cons, elem_of_nil in Hc.
    destruct Hc as [->|[->|[]]]; cbn in Hn; unfold astep; destruct (atodo s' t); try done. by destruct (aqueue s' t). }
  assert (Hidle : forall s' t c, ainv A owner n s' -> n <= t -> c ∈ msg_acts rnd top -> can s' t c = false).
  { intros s' t c HA' Hle Hc. unfold can, able. cbn. unfold act_busy, act_len. destruct (atodo s' t) as [|o r] eqn:Et.
    2: { destruct (i_mine _ _ _ _ HA' t o); [rewrite Et; apply elem_of_list_here|lia]. }
    destruct (aqueue s' t) as [|[v x] q] eqn:Eq; [by destruct c|]. pose proof (i_queue _ _ _ _ HA' t v x ltac:(rewrite Eq; apply elem_of_list_here)). pose proof (Hown v). lia. }
  assert (Hst : forall s' t c, inv s' -> t < n -> c ∈ msg_acts rnd top -> inv (astep A owner s' t c) /\ (can s' t c = true ->
    mu qle (fun x => Qc_eq_bool x top) (fun w x => rnd (x + w)%Qc) n N rank D (astep A owner s' t c) < mu qle (fun x => Qc_eq_bool x top) (fun w x => rnd (x + w)%Qc) n N rank D s')).
  { intros s' t c [[HA' HI'] HD'] Hlt Hc. destruct (can s' t c) eqn:Ec.
    - destruct (step_down qle (fun x => Qc_eq_bool x top) (fun w x => rnd (x + w)%Qc) owner n Hown N good okay rank Hx rank_leb D s' t c HI' HD' Hlt Ec) as [H1 H2].
      split; [|done]. split; [split; [by apply ainv_astep|]|done]. apply ri_step; [done|by apply (able_among s' t)].
    - rewrite Hnot by done. split; [by split_and!|done]. }
  destruct (settles_measure (astep A owner) (msg_acts rnd top) n can inv (mu qle (fun x => Qc_eq_bool x top) (fun w x => rnd (x + w)%Qc) n N rank D)) with (s := s) as (bound & Hb).
  - intros s' t c H1 H2 H3. by apply Hst.
  - intros s' t c [[H1 _] _] H2 H3. apply Hnot; [done|by apply Hidle].
  - intros s' t c _ H2 H3. by apply Hnot.
  - intros s' t c H1 H2 H3. by apply Hst.
  - by split_and!.
  - exists bound. intros rounds HF Hl. destruct (Hb rounds HF Hl) as [[[HA' _] _] Hstuck]. change (grun (astep A owner) s (concat rounds)) with (arun A owner s (concat rounds)) in *.
    set (s' := arun A owner s (concat rounds)) in *.
    assert (Hall : forall t c, c ∈ msg_acts rnd top -> can s' t c = false) by (intros t c Hc; destruct (decide (t < n)); [by apply Hstuck|apply Hidle; [done|lia|done]]).
    assert (Ht1 : forall t, atodo s' t = []).
    { intros t. pose proof (Hall t ARun ltac:(apply elem_of_list_here)) as H1. unfold can, able in H1. cbn in H1. unfold act_busy in H1. by destruct (atodo s' t). }
    split; [done|]. intros t. pose proof (Hall t APop ltac:(apply elem_of_list_further, elem_of_list_here)) as H1. unfold can, able in H1. cbn in H1. unfold act_busy, act_len in H1.
    rewrite Ht1 in H1. by destruct (aqueue s' t).
Qed.

(** The program. *)
Theorem C71_program es before own sent0 swap sched : among N okay es -> (forall w, okay w -> (0 <= w)%Qc) ->
  (forall x y, x <= y -> rnd x <= rnd y)%Qc -> (top <= rnd top)%Qc ->
  (forall t c, (t, c) ∈ before -> t < n /\ msg_among N okay good c) ->
  (forall t c, (t, Do (m := AM) c) ∈ sched -> msg_among (rnd := rnd) (top := top) N okay good c) ->
  let start := ssspm_start rnd top es in let e := arun A owner start before in fresh (m := AM) n e sent0 ->
  let s0 := wstart AM e own sent0 in let s := wrun AM swap n s0 sched in
  let init := noted owner start (before ++ eworks AM swap n s0 sched) in
  ((forall t, t < n -> left s t) -> complete n s = true /\ forall v, best Qcle top (walk (fun w x => rnd (x + w)%Qc) init (aedges (eng s)) v) (dist (rnd := rnd) (top := top) (eng s) v)) /\
  (closed AM n s ->
  exists bound, forall rounds, Forall (fair_round AM n ARun APop) rounds -> bound <= length rounds ->
    swap = true \/ Term_Proofs.tidy swap n (trm s0) (lworks AM swap n s0 (sched ++ concat rounds)) ->
    let s' := wrun AM swap n s (concat rounds) in
    (forall t, t < n -> left s' t) /\ complete n s' = true /\ aedges (eng s') = aedges (eng s) /\
    forall v, best Qcle top (walk (fun w x => rnd (x + w)%Qc) init (aedges (eng s)) v) (dist (rnd := rnd) (top := top) (eng s') v)).
Proof.
  intros Hes Hpos Hmono Htop Hb1 Hb2 start e Hf s0 s init. pose proof (act_lawful A owner n Hown) as L.
  assert (HW0 : winv AM n s0) by (apply winv_start; apply Hf).
  assert (Hw : forall l, (forall t c, (t, Do (m := AM) c) ∈ l -> msg_among (rnd := rnd) (top := top) N okay good c) -> forall t c, (t, c) ∈ before ++ eworks AM swap n s0 l -> t < n /\ msg_among (rnd := rnd) (top := top) N okay good c).
  { intros l Hl t c [Hin|Hin]%elem_of_app; [by apply Hb1|]. split; [by apply (eworks_below AM swap n L _ _ _ _ HW0 Hin)|]. apply (Hl t). exact (eworks_in AM swap n s0 l t c Hin). }
  assert (Er : forall l, eng (wrun AM swap n s0 l) = arun A owner start (before ++ eworks AM swap n s0 l)).
  { intros l. rewrite eng_run. unfold s0 at 1. cbn [eng wstart]. unfold e, arun, runs. by rewrite fold_left_app. }
  assert (Hres : forall l, (forall t c, (t, Do (m := AM) c) ∈ l -> msg_among (rnd := rnd) (top := top) N okay good c) -> (forall t, t < n -> left (wrun AM swap n s0 l) t) -> complete n (wrun AM swap n s0 l) = true /\
    forall v, best Qcle top (walk (fun w x => rnd (x + w)%Qc) (noted owner start (before ++ eworks AM swap n s0 l)) (aedges (eng (wrun AM swap n s0 l))) v) (dist (rnd := rnd) (top := top) (eng (wrun AM swap n s0 l)) v)).
  { intros l Hl Hlv. destruct (C70_whole AM swap n L e own sent0 l [] Hf Hlv) as (_ & HI & HCm & _). fold s0 in HI, HCm. split; [done|].
    pose proof (C37_rounded rnd top owner n es (before ++ eworks AM swap n s0 l) Hown) as T. cbv zeta in T. fold start in T. rewrite <- Er in T. apply T; try done.
    - apply notes_threads. intros t c Hin. by apply (Hw l Hl t c).
    - split; [intros u v w Hin; apply Hpos; exact (proj2 (proj2 (Hes u) v w Hin))|]. intros t u l0 v w Hin Hin2. apply Hpos. destruct (Hw l Hl t _ Hin) as [_ [_ Hc]]. by apply (Hc v w).
    - split; intros t; destruct (HI t) as [H1 H2]; cbn in H1, H2; unfold act_busy in H1; unfold act_len in H2; [by destruct (atodo _ t)|by apply length_zero_iff_nil]. }
  split; [by apply Hres|]. intros HC.
  assert (HRI : RI (eng s)). { unfold s. rewrite Er. apply ri_run; [by apply ri_start|]. intros t c Hin. by apply (Hw sched Hb2 t c). }
  destruct (C70_ends AM swap n L e own sent0 sched ARun APop Hf eq_refl eq_refl HC (msg_winds _ HRI)) as (bound & Hbd).
  exists bound. intros rounds HF Hlen Htd s'. destruct (Hbd rounds HF Hlen Htd) as (H1 & H2 & _ & H4 & H5). fold s0 in H1, H2, H4. fold s in H1, H2, H4. fold s' in H1, H2, H4.
  assert (Es : s' = wrun AM swap n s0 (sched ++ concat rounds)) by (unfold s', s; by rewrite wrun_app).
  assert (Hpl : forall t c, (t, c) ∈ eworks AM swap n s (concat rounds) -> match c with ARun | APop => True | _ => False end).
  { intros t c Hin. specialize (H5 t c Hin). by destruct c. }
  destruct (acts_noted (eng s) _ Hpl) as [N1 N2].
  assert (Ee : aedges (eng s') = aedges (eng s)) by (rewrite H4; exact N2).
  split_and!; [exact H1|exact H2|exact Ee|]. intros v.
  destruct (Hres (sched ++ concat rounds)) as [_ Hv].
  - intros t c Hin. apply elem_of_app in Hin as [Hin|Hin]; [by apply (Hb2 t)|]. apply elem_of_list_In, in_concat in Hin as (r & Hrr & Hin). rewrite list.Forall_forall in HF.
    specialize (HF r ltac:(by apply elem_of_list_In)). pose proof (proj1 HF t (Do c) ltac:(by apply elem_of_list_In)) as Hp. by destruct c.
  - rewrite <- Es. exact H1.
  - specialize (Hv v). rewrite <- Es, Ee in Hv.
    assert (Ei : noted owner start (before ++ eworks AM swap n s0 (sched ++ concat rounds)) = init).
    { rewrite eworks_app, app_assoc, noted_app. fold s. change (noted owner start (before ++ eworks AM swap n s0 sched)) with init. pose proof (Er sched) as Es0. fold s in Es0. change (arun A owner start (before ++ eworks AM swap n s0 sched)) with (arun A owner start (before ++ eworks AM swap n s0 sched) : m_st AM). rewrite <- Es0. rewrite N1. apply app_nil_r. }
    rewrite Ei in Hv. exact Hv.
Qed.
End msg.

(** As the code has it, there are only finitely many values. *)
Theorem C71_rest_rounded rnd top owner n N (vals : list Qc) es sched : (forall v, owner v < n) -> top ∈ vals -> (forall x, rnd x ∈ vals) ->
  among N (fun _ => True) es -> (forall t c, (t, c) ∈ sched -> t < n /\ msg_among N (fun _ => True) (fun x => x ∈ vals) c) ->
  settles (arun (ssspm rnd top) owner) (msg_acts rnd top) n aidle (arun (ssspm rnd top) owner (ssspm_start rnd top es) sched).
Proof.
  intros Hown Ht Hx Hes Hs. apply (C71_rest rnd top owner n N (fun x => x ∈ vals) (fun _ => True) (lower vals)); try done. intros x y _ Gy. by apply lower_lt.
Qed.

(** With exact sums, on a grid: the program ends with the shortest path lengths. *)
Theorem C71_shortest_paths top q owner n N swap es before own sent0 sched : (forall v, owner v < n) -> on_grid q top -> among N (on_grid q) es ->
  let A := ssspm (fun x => x) top in let AM := act_machine A owner in let start := ssspm_start (fun x => x) top es in
  (forall t c, (t, c) ∈ before -> t < n /\ msg_among (rnd := fun x => x) (top := top) N (on_grid q) (on_grid q) c) ->
  (forall t c, (t, Do (m := AM) c) ∈ sched -> msg_among (rnd := fun x => x) (top := top) N (on_grid q) (on_grid q) c) ->
  let e := arun A owner start before in fresh (m := AM) n e sent0 ->
  let s0 := wstart AM e own sent0 in let s := wrun AM swap n s0 sched in
  let init := noted owner start (before ++ eworks AM swap n s0 sched) in
  closed AM n s ->
  exists bound, forall rounds, Forall (fair_round AM n ARun APop) rounds -> bound <= length rounds ->
    swap = true \/ Term_Proofs.tidy swap n (trm s0) (lworks AM swap n s0 (sched ++ concat rounds)) ->
    let s' := wrun AM swap n s (concat rounds) in let d v := dist (rnd := fun x => x) (top := top) (eng s') v in
    (forall t, t < n -> left s' t) /\ complete n s' = true /\ aedges (eng s') = aedges (eng s) /\
    forall v, (forall u x y, (u, x) ∈ init -> path (aedges (eng s)) u v y -> d v <= x + y)%Qc /\
    ((exists u x y, (u, x) ∈ init /\ path (aedges (eng s)) u v y /\ d v = (x + y)%Qc) \/ d v = top).
Proof.
  intros Hown Ht Hes A AM start Hb1 Hb2 e Hf s0 s init HC.
  destruct (C71_program (fun x => x) top owner n N (on_grid q) (on_grid q) (grid_rank q) Hown Ht) with (es := es) (before := before) (own := own) (sent0 := sent0) (swap := swap) (sched := sched) as [_ Hp]; try done.
  { intros w x Hw Hx. by apply grid_plus. }
  { intros x y. apply grid_lt. }
  { intros w (k & ->). unfold Qcle. cbn [Q2Qc this]. rewrite !Qred_correct. unfold Qle. cbn. lia. }
  destruct (Hp HC) as (bound & Hb). exists bound. intros rounds HF Hlen Htd s' d. destruct (Hb rounds HF Hlen Htd) as (H1 & H2 & H3 & H4).
  split_and!; [exact H1|exact H2|exact H3|]. intros v. destruct (H4 v) as (Hr & Hl & Hm). clear H1 H2 H3 H4 Hb Hp.
  change (ssspm_start (fun x => x) top es) with start in Hr, Hm. change (arun (ssspm (fun x => x) top) owner start before) with e in Hr, Hm, Hl.
  change (act_machine (ssspm (fun x => x) top) owner) with AM in Hr, Hm, Hl. change (wstart AM e own sent0) with s0 in Hr, Hm, Hl. change (wrun AM swap n s0 sched) with s in Hr, Hm, Hl.
  change (noted owner start (before ++ eworks AM swap n s0 sched)) with init in Hr, Hm. change (wrun AM swap n s (concat rounds)) with s' in Hr, Hm, Hl. change (dist (eng s') v) with (d v) in Hr, Hm, Hl.
  split.
  - intros u x y Hi Hp. apply Hm. clear Hr Hm Hl. induction Hp as [v|u v w ew y Hp IH He].
    + rewrite Qcplus_0_r. by apply walk_given.
    + rewrite Qcplus_assoc. apply (walk_edge (fun (w : Qc) x => (x + w)%Qc) init (aedges (eng s)) v w ew (x + y)%Qc); [by apply IH|done].
  - destruct Hr as [Hr|Hr]; [left|right; by apply Qcle_antisym]. clear Hl Hm. revert Hr. generalize (d v). intros p Hp. induction Hp as [v x Hg|u v ew x Hp IH He].
    + exists v, x, 0%Qc. split_and!; [done|constructor|]. by rewrite Qcplus_0_r.
    + destruct IH as (u' & x' & y & Hi & Hp' & ->). exists u', x', (y + ew)%Qc. split_and!; [done|by eapply path_snoc|]. by rewrite Qcplus_assoc.
Qed.

(** A diamond with a slow direct edge, on two threads; vertex 3 first hears 9, then 4.  The source's
    notification is sent before the loops; the threads then take turns as in the code. *)
Notation case_alg := (ssspm (fun x => x) (Z1 1000)).
Notation case_am := (act_machine case_alg (fun v => v mod 2)).
Definition diamond (u : nat) : list (nat * Qc) :=
  match u with O => [(3, Z1 9); (1, Z1 1); (2, Z1 5)] | 1 => [(2, Z1 1)] | 2 => [(3, Z1 2)] | _ => [] end.
Definition diamond0 : ast case_alg := arun case_alg (fun v => v mod 2) (ssspm_start (fun x => x) (Z1 1000) diamond) [(0, ANote (a := case_alg) 0 (Z1 0)); (0, ARun); (0, ARun)].
Definition diamond_turns : list (nat * wchoice case_am) := map (pair 0) (turns case_am ARun APop) ++ map (pair 1) (turns case_am ARun APop).
Definition diamond_at (k : nat) : wst case_am :=
  wrun case_am false 2 (wstart case_am diamond0 (fun _ => false) (fun t => match t with O => 1 | _ => 0 end%N)) (concat (repeat diamond_turns k)).
Example C71_case :
  fresh (m := case_am) 2 diamond0 (fun t => match t with O => 1 | _ => 0 end%N) /\ fair_round case_am 2 ARun APop diamond_turns /\
  map (fun v => this (dist (rnd := fun x => x) (top := Z1 1000) (eng (diamond_at 18)) v)) [0; 1; 2; 3; 4] = map (fun z => this (Z1 z)) [0; 1; 5; 9; 1000]%Z /\
  map (fun v => this (dist (rnd := fun x => x) (top := Z1 1000) (eng (diamond_at 100)) v)) [0; 1; 2; 3; 4] = map (fun z => this (Z1 z)) [0; 1; 2; 4; 1000]%Z /\
  map (Term_Model.at_ (trm (diamond_at 100))) [0; 1] = [Term_Model.Done; Term_Model.Done] /\ complete 2 (diamond_at 100) = true.
Proof.
  split; [|split].
  - split_and!; [intros [|[|t]]; vm_compute; done| |vm_compute; done]. intros [|[|t]] Ht; [lia|lia|]. vm_compute. done.
  - split.
    + intros t x. unfold diamond_turns. rewrite elem_of_app, !elem_of_list_fmap. intros [(y & [= -> ->] & H)|(y & [= -> ->] & H)];
        unfold turns in H; rewrite !elem_of_cons, elem_of_nil in H; destruct H as [->|[->|[->|[->|[]]]]]; done.
    + intros t x Ht Hx. unfold diamond_turns. rewrite elem_of_app, !elem_of_list_fmap. destruct t as [|[|t]]; [left|right|lia]; by exists x.
  - vm_compute. repeat split; done.
Qed.
Print Assumptions C71_rest.
Print Assumptions C71_program.
Print Assumptions C71_rest_rounded.
Print Assumptions C71_shortest_paths.
