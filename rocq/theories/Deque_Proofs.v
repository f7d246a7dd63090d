From Verif Require Import Base Deque_Spec Deque_Model.

Section proofs.
  Context {T : Type} (zero : T).
  Notation deque := (deque T).
  Implicit Types (d : deque) (u s : list (list T)) (b : list T).

  (** Shape of a deque in terms of slice lengths only. *)
  Definition lens u : list nat := map length u.
  Record shape d : Prop := {
    sh_ne : used d <> [];
    sh_tp : tp d <= List.last (lens (used d)) 0;
    sh_hlp : hlp d + 1 = List.hd 0 (lens (used d));
    sh_hp : hp d <= hlp d;
    sh_two : 2 <= length (used d) -> 1 <= tp d;
    sh_big : Forall (fun n => 64 <= n) (lens (used d) ++ lens (spare d)) \/
             exists n, lens (used d) = [n] /\ spare d = [] /\ 4 <= n;
    sh_init : inited d = true }.
  Definition rel (n : nat) d : Prop :=
    hp d + n = list_sum (removelast (lens (used d))) + tp d.
  Definition inv d : Prop :=
    d = dq_init \/ (shape d /\ rel (dlen d) d).
  Definition abs d : list T := take (dlen d) (drop (hp d) (concat (used d))).

  (** ** List lemmas *)
  Lemma concat_len u : length (concat u) = list_sum (lens u).
  Proof. induction u as [|b u IH]; simpl; [done|]. by rewrite app_length, IH. Qed.
  Lemma last_snoc {A} (l : list A) x z : List.last (l ++ [x]) z = x.
  Proof. apply last_last. Qed.
  Lemma list_sum_app l r : list_sum (l ++ r) = list_sum l + list_sum r.
  Proof. induction l; simpl; lia. Qed.
  Lemma lens_app u s : lens (u ++ s) = lens u ++ lens s.
  Proof. apply map_app. Qed.
  Lemma removelast_snoc {A} (l : list A) x : removelast (l ++ [x]) = l.
  Proof. rewrite removelast_app by done. simpl. by rewrite app_nil_r. Qed.
  Lemma lens_removelast u : lens (removelast u) = removelast (lens u).
  Proof.
    destruct u as [|x u'] using rev_ind; [done|].
    rewrite removelast_snoc. unfold lens. rewrite map_app. simpl. by rewrite removelast_snoc.
  Qed.
  Lemma set_tail_snoc u t b : set_tail (u ++ [t]) b = u ++ [b].
  Proof. unfold set_tail. destruct (u ++ [t]) eqn:E; [by destruct u|]. rewrite <- E. by rewrite removelast_snoc. Qed.
  Lemma snoc_inv {A} (l : list A) : l <> [] -> exists l' x, l = l' ++ [x].
  Proof. destruct l using rev_ind; [done|]. eauto. Qed.

  Lemma take_drop_push {A} (C : list A) h n v : h + n < length C ->
    take (S n) (drop h (<[h + n := v]> C)) = take n (drop h C) ++ [v].
  Proof.
    intros H. rewrite (take_S_r _ n v).
    - f_equal. apply list_eq. intros k. destruct (decide (k < n)).
      + rewrite !lookup_take, !lookup_drop by done. rewrite list_lookup_insert_ne by lia. done.
      + by rewrite !lookup_take_ge by lia.
    - rewrite lookup_drop. apply list_lookup_insert. lia.
  Qed.
  Lemma take_drop_unshift {A} (C : list A) h n v : h < length C ->
    take (S n) (drop h (<[h := v]> C)) = v :: take n (drop (S h) C).
  Proof.
    intros H. rewrite (drop_S _ v) by (by apply list_lookup_insert). simpl. f_equal. f_equal.
    apply drop_insert_gt. lia.
  Qed.
  Lemma concat_head_insert (h : list T) r i v : i < length h ->
    concat (<[i := v]> h :: r) = <[i := v]> (concat (h :: r)).
  Proof. intros H. simpl. by rewrite insert_app_l. Qed.
  Lemma concat_tail_insert u (t : list T) i v :
    concat (u ++ [<[i := v]> t]) = <[length (concat u) + i := v]> (concat (u ++ [t])).
  Proof. rewrite !concat_app. simpl. rewrite !app_nil_r. symmetry. apply insert_app_r. Qed.

  (** Two deques with the same slice lengths and indices. *)
  Lemma shape_lens d d' : shape d -> lens (used d') = lens (used d) -> lens (spare d') = lens (spare d) ->
    hp d' = hp d -> hlp d' = hlp d -> tp d' = tp d -> inited d' = inited d -> shape d'.
  Proof.
    intros [H1 H2 H3 H4 H5 H6 H7] E1 E2 E3 E4 E5 E6.
    assert (length (used d') = length (used d)) as El.
    { apply (f_equal length) in E1. unfold lens in E1. by rewrite !map_length in E1. }
    split; rewrite ?E1, ?E2, ?E3, ?E4, ?E5, ?E6, ?El; try done.
    - intros E. rewrite E in El. simpl in El. destruct (used d); [done|simpl in El; lia].
    - destruct H6 as [H6|(n & A & B & C)]; [by left|right]. exists n. split; [done|]. split; [|done].
      rewrite B in E2. by destruct (spare d').
  Qed.
  Lemma lens_set_head u b : length b = List.hd 0 (lens u) -> lens (set_head u b) = lens u.
  Proof. destruct u; simpl; [done|]. by intros ->. Qed.
  Lemma lens_set_tail u t b : length b = length t -> lens (set_tail (u ++ [t]) b) = lens (u ++ [t]).
  Proof. intros H. rewrite set_tail_snoc, !lens_app. simpl. by rewrite H. Qed.
  Lemma head_v_len d : used d <> [] -> length (head_v d) = List.hd 0 (lens (used d)).
  Proof. unfold head_v. by destruct (used d). Qed.

  (** ** The two writes *)
  Lemma pf_write_ok d v : shape d -> rel (S (dlen d)) d ->
    exists d', pf_write d v = Some d' /\ inv d' /\
      abs d' = v :: take (dlen d) (drop (S (hp d)) (concat (used d))).
  Proof.
    intros Hs Hr. pose proof (head_v_len d (sh_ne _ Hs)) as Hl.
    pose proof (sh_hlp _ Hs). pose proof (sh_hp _ Hs).
    unfold pf_write, set_at. destruct (Nat.ltb_spec (hp d) (length (head_v d))); [|lia].
    eexists. split; [done|].
    assert (El : lens (set_head (used d) (<[hp d:=v]> (head_v d))) = lens (used d)).
    { apply lens_set_head. by rewrite insert_length. }
    split.
    - right. split.
      + apply (shape_lens d); try done.
      + unfold rel in *. cbn [hp used tp dlen]. rewrite El. lia.
    - unfold abs. cbn [hp used dlen]. pose proof (sh_ne _ Hs). unfold head_v in *.
      destruct (used d) as [|h r]; [done|]. cbn [set_head]. rewrite concat_head_insert by done.
      apply take_drop_unshift. simpl. rewrite app_length. lia.
  Qed.

  (** For a deque about to get an element at slot [i] of the tail. *)
  Lemma pb_write_ok d i v u t : used d = u ++ [t] -> i < length t ->
    shape (Dq (used d) (spare d) (hp d) (hlp d) (S i) (dlen d) (spareLinks d) (inited d)) ->
    hp d + dlen d = list_sum (lens u) + i ->
    exists d', pb_write d i v = Some d' /\ inv d' /\
      abs d' = take (dlen d) (drop (hp d) (concat (used d))) ++ [v].
  Proof.
    intros Hu Hi Hs Hr. unfold pb_write, set_at, tail_v. rewrite Hu, last_snoc.
    destruct (Nat.ltb_spec i (length t)); [|lia]. eexists. split; [done|].
    assert (El : lens (set_tail (used d) (<[i:=v]> t)) = lens (used d)).
    { rewrite Hu. apply lens_set_tail. by rewrite insert_length. }
    rewrite <- Hu. split.
    - right. split.
      + eapply shape_lens; [exact Hs|done..].
      + unfold rel in *. cbn [hp used tp dlen]. rewrite El, Hu, lens_app. simpl.
        rewrite removelast_snoc. lia.
    - unfold abs. cbn [hp used dlen]. rewrite Hu, set_tail_snoc, concat_tail_insert, concat_len.
      rewrite <- Hr. apply take_drop_push. rewrite Hr, concat_app, app_length, concat_len. simpl.
      rewrite app_nil_r. lia.
  Qed.

  Lemma abs_nil_dlen d : dlen d = 0 -> abs d = [].
  Proof. intros H. unfold abs. by rewrite H. Qed.

  (** When empty there is a single used node. *)
  Lemma sum_split u : u <> [] -> list_sum (lens u) = list_sum (removelast (lens u)) + List.last (lens u) 0.
  Proof.
    intros H. destruct (snoc_inv u H) as (l & x & ->). rewrite lens_app, list_sum_app. simpl.
    rewrite removelast_snoc, last_snoc. lia.
  Qed.
  Lemma hd_le_removelast u : 2 <= length u -> List.hd 0 (lens u) <= list_sum (removelast (lens u)).
  Proof. destruct u as [|a [|b u]]; simpl; intros; lia. Qed.
  Lemma empty_single d : shape d -> rel (dlen d) d -> dlen d = 0 -> exists h, used d = [h].
  Proof.
    intros Hs Hr H0. destruct (used d) as [|a [|b u]] eqn:E.
    - by apply sh_ne in Hs.
    - eauto.
    - exfalso. pose proof (hd_le_removelast (used d)) as H. rewrite E in H at 1. simpl in H.
      specialize (H ltac:(lia)). pose proof (sh_two _ Hs) as H2. rewrite E in H2. simpl in H2.
      pose proof (sh_hlp _ Hs). pose proof (sh_hp _ Hs). unfold rel in Hr. lia.
  Qed.

  Lemma drop_app_len {A} (l r : list A) n : n = length l -> drop n (l ++ r) = r.
  Proof. intros ->. apply drop_app. Qed.

  Lemma big_of d n : shape d -> In n (lens (used d) ++ lens (spare d)) -> 4 <= n.
  Proof.
    intros Hs Hin. destruct (sh_big _ Hs) as [H|(m & A & B & C)].
    - rewrite List.Forall_forall in H. apply H in Hin. lia.
    - rewrite A, B in Hin. simpl in Hin. lia.
  Qed.
  Lemma big_multi d : shape d -> 2 <= length (used d ++ spare d) ->
    Forall (fun n => 64 <= n) (lens (used d) ++ lens (spare d)).
  Proof.
    intros Hs Hl. destruct (sh_big _ Hs) as [H|(m & A & B & C)]; [done|].
    rewrite B, app_nil_r in Hl. apply (f_equal length) in A. unfold lens in A. rewrite map_length in A.
    simpl in A. lia.
  Qed.

  Lemma push_front_ok d v : inv d ->
    exists d', push_front zero d v = Some d' /\ inv d' /\ abs d' = v :: abs d.
  Proof.
    intros [-> | [Hs Hr]].
    { eexists. split; [reflexivity|]. split; [|done]. right. split.
      - split; simpl; try done; try lia. right. exists 4. split; [done|]. split; [done|lia].
      - unfold rel, firstSliceSize. simpl. lia. }
    unfold push_front. destruct (used d) as [|h rest] eqn:Eu; [by apply sh_ne in Hs|].
    rewrite <- Eu.
    pose proof (sh_tp _ Hs) as Htp. pose proof (sh_hlp _ Hs) as Hhlp. pose proof (sh_hp _ Hs) as Hhp.
    pose proof (sh_init _ Hs) as Hin. pose proof (sh_two _ Hs) as Htwo. unfold rel in Hr.
    destruct (Nat.ltb_spec 0 (hp d)) as [Hhp0|Hhp0].
    { (* room in the head slice *)
      destruct (pf_write_ok (Dq (used d) (spare d) (hp d - 1) (hlp d) (tp d) (dlen d) (spareLinks d) (inited d)) v)
        as (d' & -> & Hi & Ha).
      - split; cbn [used spare hp hlp tp inited]; try done; try lia; apply Hs.
      - unfold rel. cbn [used hp tp dlen]. lia.
      - exists d'. split; [done|]. split; [done|]. rewrite Ha. unfold abs. cbn [used hp dlen].
        by replace (S (hp d - 1)) with (hp d) by lia. }
    assert (Hhp' : hp d = 0) by lia.
    destruct (Nat.eqb_spec (length (spare d)) 0) as [Hsp|Hsp]; cbn [negb].
    2:{ (* a spare node before the head *)
      assert (Hne : spare d <> []) by (intros E; rewrite E in Hsp; done).
      assert (Hb : Forall (fun n => 64 <= n) (lens (used d) ++ lens (spare d))).
      { apply big_multi; [done|]. rewrite app_length, Eu. simpl. lia. }
      destruct (snoc_inv (spare d) Hne) as (sp & x & Esp). rewrite Esp, last_snoc, removelast_snoc.
      rewrite Esp, lens_app in Hb. simpl in Hb.
      apply Forall_app in Hb as [Hb1 Hb2]. apply Forall_app in Hb2 as [Hb2 Hb3]. apply Forall_inv in Hb3.
      destruct (Nat.eqb_spec (dlen d) 0) as [H0|H0].
      - destruct (empty_single d Hs Hr H0) as (h' & Eh). rewrite Eh in *. injection Eu as -> <-.
        destruct (pf_write_ok (Dq [x] ([h] ++ sp) (length x - 1) (length x - 1) (length x) (dlen d)
                     (spareLinks d - 1) (inited d)) v) as (d' & -> & Hi & Ha).
        + split; cbn [used spare hp hlp tp inited lens map List.last List.hd length]; try done; try lia.
          left. rewrite lens_app in *. simpl in *. constructor; [done|]. apply Forall_inv in Hb1.
          by constructor.
        + unfold rel. cbn [used hp tp dlen lens map removelast list_sum]. simpl. lia.
        + exists d'. split; [done|]. split; [done|]. rewrite Ha, (abs_nil_dlen d) by done.
          cbn [dlen]. by rewrite H0.
      - destruct (pf_write_ok (Dq (x :: used d) sp (length x - 1) (length x - 1) (tp d) (dlen d)
                     (spareLinks d - 1) (inited d)) v) as (d' & -> & Hi & Ha).
        + split; cbn [used spare hp hlp tp inited lens map List.hd length]; try done; try lia.
          * rewrite Eu in *. done.
          * intros _. rewrite Eu in *. cbn [length lens map List.last removelast list_sum] in *.
            destruct rest; simpl in *; [lia|]. apply Htwo. lia.
          * left. simpl. constructor; [done|]. apply Forall_app. done.
        + unfold rel. cbn [used hp tp dlen lens map]. fold (lens (used d)).
          rewrite Eu in *. cbn [lens map removelast] in *. fold (lens rest) in *.
          destruct (lens rest) eqn:El; cbn [list_sum fold_right] in *; lia.
        + exists d'. split; [done|]. split; [done|]. rewrite Ha. f_equal. unfold abs. cbn [used hp dlen].
          f_equal. simpl. replace (S (length x - 1)) with (length x) by lia. rewrite drop_app, Hhp'. done. }
    destruct (spare d) as [|] eqn:Esp; [|done].
    destruct (Nat.ltb_spec (length h) maxFirstSliceSize) as [Hsm|Hsm].
    { (* the small first slice grows *)
      destruct (sh_big _ Hs) as [Hb|(n & A & B & C)].
      { rewrite Eu in Hb. simpl in Hb. apply Forall_inv in Hb. unfold maxFirstSliceSize in Hsm. lia. }
      rewrite Eu in A. simpl in A. injection A as Hn Hrest. destruct rest; [|done].
      unfold sliceGrowthFactor. set (l := length h) in *.
      replace (hp d + (l * 4 - l)) with (l * 4 - l) by lia.
      replace (take (l * 4 - (l * 4 - l)) h) with h.
      2:{ symmetry. apply take_ge. unfold l. lia. }
      assert (drop (l * 4 - l + l) (make zero (l * 4)) = []) as ->.
      { apply drop_ge. unfold make. rewrite replicate_length. lia. }
      rewrite app_nil_r. unfold make. rewrite take_replicate. replace ((l * 4 - l) `min` (l * 4)) with (l * 4 - l) by lia.
      set (nb := replicate (l * 4 - l) zero ++ h).
      assert (Hnb : length nb = l * 4) by (unfold nb; rewrite app_length, replicate_length; unfold l; lia).
      rewrite Eu in Htp, Hhlp, Hr. simpl in Htp, Hhlp, Hr. fold l in Htp, Hhlp.
      destruct (pf_write_ok (Dq [nb] [] (l * 4 - l - 1) (l * 4 - 1) (tp d + (l * 4 - l)) (dlen d)
                  (spareLinks d) (inited d)) v) as (d' & -> & Hi & Ha).
      - split; cbn [used spare hp hlp tp inited lens map List.last List.hd length]; try done; rewrite ?Hnb; try lia.
        right. exists (l * 4). split; [done|]. split; [done|]. lia.
      - unfold rel. cbn. lia.
      - exists d'. split; [done|]. split; [done|]. rewrite Ha. f_equal. unfold abs. cbn [used hp dlen].
        rewrite Hhp', Eu. simpl. rewrite !app_nil_r. unfold nb. f_equal.
        apply drop_app_len. rewrite replicate_length. lia. }
    assert (Hbig : Forall (fun n => 64 <= n) (lens (used d))).
    { destruct (sh_big _ Hs) as [Hb|(n & A & B & C)]; [by apply Forall_app in Hb as [Hb _]|].
      rewrite A. rewrite Eu in A. simpl in A. injection A as <- _. unfold maxFirstSliceSize in Hsm. by constructor. }
    destruct (Nat.eqb_spec (dlen d) 0) as [H0|H0].
    - destruct (empty_single d Hs Hr H0) as (h' & Eh). rewrite Eh in *. injection Eu as -> <-. simpl.
      destruct (pf_write_ok (Dq [h] [] (length h - 1) (length h - 1) (length h) (dlen d)
                     (spareLinks d) (inited d)) v) as (d' & -> & Hi & Ha).
      + simpl in Hbig. apply Forall_inv in Hbig.
        split; cbn [used spare hp hlp tp inited lens map List.last List.hd length]; try done; try lia.
        left. simpl. by constructor.
      + simpl in Hbig. apply Forall_inv in Hbig. unfold rel. cbn. lia.
      + exists d'. split; [done|]. split; [done|]. rewrite Ha, (abs_nil_dlen d) by done.
        cbn [dlen]. by rewrite H0.
    - set (nb := make zero maxInternalSliceSize).
      assert (Hnb : length nb = 256) by apply replicate_length.
      destruct (pf_write_ok (Dq (nb :: used d) [] 255 255 (tp d) (dlen d)
                     (spareLinks d) (inited d)) v) as (d' & Ed & Hi & Ha).
      + split; cbn [used spare hp hlp tp inited lens map List.hd length]; try done; rewrite ?Hnb; try lia.
        * rewrite Eu in *. done.
        * intros _. rewrite Eu in *. cbn [length lens map List.last removelast list_sum] in *.
          destruct rest; simpl in *; [lia|]. apply Htwo. lia.
        * left. simpl. rewrite app_nil_r. constructor; [lia|]. done.
      + unfold rel. cbn [used hp tp dlen lens map]. fold (lens (used d)).
        rewrite Eu in *. cbn [lens map removelast] in *. fold (lens rest) in *.
        destruct (lens rest) eqn:El; cbn [list_sum fold_right] in *; rewrite ?Hnb; lia.
      + exists d'. split; [exact Ed|]. split; [done|]. rewrite Ha. f_equal. unfold abs. cbn [used hp dlen].
        f_equal. cbn [concat]. rewrite Hhp'. apply drop_app_len. done.
  Qed.

  (** The branches of the PushBack family. *)
  Lemma pb_first_ok v : exists d', pb_first zero dq_init v = Some d' /\ inv d' /\ abs d' = [v].
  Proof.
    eexists. split; [reflexivity|]. split; [|done]. right. split.
    - split; simpl; try done; try lia. right. exists 4. split; [done|]. split; [done|lia].
    - unfold rel. simpl. lia.
  Qed.
  Section live.
    Context (d : deque) (Hs : shape d) (Hr : rel (dlen d) d).
    Lemma live_snoc : exists u t, used d = u ++ [t].
    Proof. apply snoc_inv, Hs. Qed.
    Lemma tail_len u t : used d = u ++ [t] -> tail_v d = t /\ List.last (lens (used d)) 0 = length t /\
      removelast (lens (used d)) = lens u.
    Proof.
      intros E. unfold tail_v. rewrite E, lens_app. simpl. by rewrite !last_snoc, removelast_snoc.
    Qed.
    Lemma pb_room_ok v : tp d < length (tail_v d) ->
      exists d', pb_write d (tp d) v = Some d' /\ inv d' /\ abs d' = abs d ++ [v].
    Proof.
      intros H. destruct live_snoc as (u & t & E). destruct (tail_len _ _ E) as (E1 & E2 & E3).
      rewrite E1 in H. apply (pb_write_ok d (tp d) v u t); [done|done| |].
      - destruct Hs. split; cbn [used spare hp hlp tp inited]; try done; lia.
      - unfold rel in Hr. by rewrite E3 in Hr.
    Qed.
    Lemma pb_grow_ok v : length (tail_v d) <= tp d -> tp d < 64 ->
      exists d', pb_grow zero d v = Some d' /\ inv d' /\ abs d' = abs d ++ [v].
    Proof.
      intros H H64. destruct live_snoc as (u & t & E). destruct (tail_len _ _ E) as (E1 & E2 & E3).
      pose proof (sh_tp _ Hs) as Htp. rewrite E1 in H. rewrite E2 in Htp.
      assert (u = [] /\ spare d = [] /\ 4 <= length t) as (-> & Esp & H4).
      { destruct (sh_big _ Hs) as [Hb|(n & A & B & C)].
        - rewrite E, lens_app in Hb. simpl in Hb. rewrite List.Forall_forall in Hb.
          specialize (Hb (length t)). rewrite !in_app_iff in Hb. simpl in Hb. specialize (Hb ltac:(tauto)). lia.
        - rewrite E in A. rewrite lens_app in A. destruct u as [|? [|]]; simpl in A; try done.
          injection A as <-. done. }
      unfold pb_grow, sliceGrowthFactor. rewrite E1, E. simpl in E. cbn [app].
      set (nv := t ++ make zero (length t * 4 - length t)).
      assert (Hnv : length nv = length t * 4) by (unfold nv, make; rewrite app_length, replicate_length; lia).
      unfold rel in Hr. rewrite E3 in Hr. simpl in Hr.
      change (set_tail [t] nv) with [nv].
      destruct (pb_write_ok (Dq [nv] (spare d) (hp d) (length nv - 1) (tp d) (dlen d) (spareLinks d) (inited d))
                  (tp d) v [] nv) as (d' & Ed & Hi & Ha); [done|lia| | |].
      - destruct Hs as [S1 S2 S3 S4 S5 S6 S7]. rewrite E in S3. simpl in S3.
        split; cbn [used spare hp hlp tp inited lens map List.last List.hd length]; try done; try lia.
        right. exists (length nv). split; [done|]. split; [done|]. lia.
      - cbn [hp dlen]. simpl. lia.
      - exists d'. split; [done|]. split; [done|]. rewrite Ha. f_equal. unfold abs. cbn [used hp dlen].
        rewrite E. simpl. rewrite !app_nil_r. unfold nv.
        rewrite drop_app_le by lia. rewrite take_app_le; [done|]. rewrite drop_length. lia.
    Qed.
    Lemma pb_next_ok v x sp k : length (tail_v d) <= tp d -> 64 <= length x ->
      Forall (fun n => 64 <= n) (lens (used d)) -> Forall (fun n => 64 <= n) (lens sp) ->
      exists d', pb_write (Dq (used d ++ [x]) sp (hp d) (hlp d) (tp d) (dlen d) k (inited d)) 0 v = Some d'
        /\ inv d' /\ abs d' = abs d ++ [v].
    Proof.
      intros H Hx Hu Hsp. destruct live_snoc as (u & t & E). destruct (tail_len _ _ E) as (E1 & E2 & E3).
      pose proof (sh_tp _ Hs) as Htp. rewrite E1 in H. rewrite E2 in Htp.
      unfold rel in Hr. rewrite E3 in Hr.
      assert (Hsum : list_sum (lens (used d)) = list_sum (lens u) + length t).
      { rewrite E, lens_app, list_sum_app. simpl. lia. }
      destruct (pb_write_ok (Dq (used d ++ [x]) sp (hp d) (hlp d) (tp d) (dlen d) k (inited d)) 0 v (used d) x)
        as (d' & Ed & Hi & Ha); [done|lia| | |].
      - destruct Hs as [S1 S2 S3 S4 S5 S6 S7].
        split; cbn [used spare hp hlp tp inited]; try done; try lia.
        + by destruct (used d).
        + rewrite lens_app. simpl. rewrite last_snoc. lia.
        + rewrite S3. by destruct (used d).
        + left. rewrite lens_app. simpl. apply Forall_app. split; [|done]. apply Forall_app. split; [done|].
          by constructor.
      - cbn [hp dlen]. lia.
      - exists d'. split; [done|]. split; [done|]. rewrite Ha. f_equal. unfold abs. cbn [used hp dlen].
        rewrite concat_app.
        assert (hp d + dlen d = length (concat (used d))) by (rewrite concat_len; lia).
        rewrite drop_app_le by lia. rewrite take_app_le; [done|]. rewrite drop_length. lia.
    Qed.
    Lemma all_big : length (tail_v d) <= tp d -> 64 <= tp d ->
      Forall (fun n => 64 <= n) (lens (used d)) /\ Forall (fun n => 64 <= n) (lens (spare d)).
    Proof.
      intros H H64. destruct live_snoc as (u & t & E). destruct (tail_len _ _ E) as (E1 & E2 & E3).
      pose proof (sh_tp _ Hs) as Htp. rewrite E1 in H. rewrite E2 in Htp.
      destruct (sh_big _ Hs) as [Hb|(n & A & B & C)]; [by apply Forall_app in Hb|].
      rewrite A, B. split; [|constructor]. rewrite A in E2. simpl in E2. constructor; [lia|constructor].
    Qed.
    Lemma pb_spare_ok v : length (tail_v d) <= tp d -> spare d <> [] ->
      exists d', pb_spare d v = Some d' /\ inv d' /\ abs d' = abs d ++ [v].
    Proof.
      intros H Hne. unfold pb_spare. destruct (spare d) as [|x sp] eqn:E; [done|].
      assert (Hb : Forall (fun n => 64 <= n) (lens (used d) ++ lens (spare d))).
      { apply big_multi; [done|]. rewrite app_length, E. simpl. pose proof (sh_ne _ Hs).
        destruct (used d); [done|]. simpl. lia. }
      apply Forall_app in Hb as [Hb1 Hb2]. rewrite E in Hb2. simpl in Hb2.
      apply pb_next_ok; try done. by apply Forall_inv in Hb2. by apply Forall_inv_tail in Hb2.
    Qed.
    Lemma pb_new_ok v : length (tail_v d) <= tp d -> 64 <= tp d ->
      exists d', pb_new zero d v = Some d' /\ inv d' /\ abs d' = abs d ++ [v].
    Proof.
      intros H H64. destruct (all_big H H64) as [H1 H2]. unfold pb_new. apply pb_next_ok; try done.
      unfold make. rewrite replicate_length. unfold maxInternalSliceSize. lia.
    Qed.
  End live.

  Lemma used_nz d : shape d -> (length (used d) =? 0) = false.
  Proof. intros Hs. apply Nat.eqb_neq. pose proof (sh_ne _ Hs). destruct (used d); done. Qed.
  Lemma spare_ne d : negb (length (spare d) =? 0) = true -> spare d <> [].
  Proof. by destruct (spare d). Qed.

  Lemma push_back_ok d v : inv d ->
    exists d', push_back zero d v = Some d' /\ inv d' /\ abs d' = abs d ++ [v].
  Proof.
    intros [-> | [Hs Hr]]; [apply pb_first_ok|]. unfold push_back. rewrite used_nz by done.
    destruct (Nat.ltb_spec (tp d) (length (tail_v d))); [by apply pb_room_ok|].
    destruct (Nat.ltb_spec (tp d) maxFirstSliceSize); [by apply pb_grow_ok|].
    destruct (negb _) eqn:E; [apply pb_spare_ok; try done; by apply spare_ne|by apply pb_new_ok].
  Qed.
  Lemma fast_slow_ok d v : inv d ->
    exists d', fast_slow_push_back zero d v = Some d' /\ inv d' /\ abs d' = abs d ++ [v].
  Proof.
    intros [-> | [Hs Hr]]; [apply pb_first_ok|]. unfold fast_slow_push_back, fast_push_back, slow_push_back.
    rewrite used_nz by done.
    destruct (Nat.ltb_spec (tp d) (length (tail_v d))).
    { destruct (pb_room_ok d Hs Hr v) as (d' & -> & ?); [done|]. by exists d'. }
    destruct (negb _) eqn:E.
    { destruct (pb_spare_ok d Hs Hr v) as (d' & -> & ?); [done|by apply spare_ne|]. by exists d'. }
    destruct (Nat.ltb_spec (tp d) maxFirstSliceSize); [by apply pb_grow_ok|by apply pb_new_ok].
  Qed.

  Lemma lookup_concat_head d : shape d -> head_v d !! hp d = concat (used d) !! hp d.
  Proof.
    intros Hs. pose proof (sh_hlp _ Hs). pose proof (sh_hp _ Hs). pose proof (sh_ne _ Hs). unfold head_v in *.
    destruct (used d) as [|h r]; [done|]. simpl in *. symmetry. apply lookup_app_l. lia.
  Qed.
  Lemma span_le d : shape d -> rel (dlen d) d -> hp d + dlen d <= length (concat (used d)).
  Proof.
    intros Hs Hr. rewrite concat_len, sum_split by apply Hs. pose proof (sh_tp _ Hs). unfold rel in Hr. lia.
  Qed.

  Lemma pop_front_ok d : inv d ->
    exists d', pop_front zero d = Some (List.hd_error (abs d), d') /\ inv d' /\ abs d' = List.tl (abs d).
  Proof.
    intros [-> | [Hs Hr]].
    { eexists. split; [reflexivity|]. split; [by left|done]. }
    unfold pop_front, try_pop_front. destruct (Nat.eqb_spec (dlen d) 0) as [H0|H0].
    { rewrite (sh_init _ Hs), (abs_nil_dlen d) by done. exists d. split; [done|]. split; [by right|].
      by apply abs_nil_dlen. }
    pose proof (span_le d Hs Hr) as Hsp.
    destruct (lookup_lt_is_Some_2 (concat (used d)) (hp d)) as [v Hv]; [lia|].
    rewrite lookup_concat_head, Hv, (sh_init _ Hs) by done.
    assert (Ha : abs d = v :: take (dlen d - 1) (drop (S (hp d)) (concat (used d)))).
    { unfold abs. rewrite (drop_S _ v) by done. destruct (dlen d) as [|n]; [done|]. simpl.
      by rewrite Nat.sub_0_r. }
    rewrite Ha. simpl. set (u' := set_head (used d) (<[hp d:=zero]> (head_v d))).
    assert (El : lens u' = lens (used d)).
    { apply lens_set_head. rewrite insert_length. apply head_v_len, Hs. }
    assert (Hc : drop (S (hp d)) (concat u') = drop (S (hp d)) (concat (used d))).
    { unfold u'. pose proof (sh_hlp _ Hs). pose proof (sh_hp _ Hs). pose proof (sh_ne _ Hs). unfold head_v in *.
      destruct (used d) as [|h r]; [done|]. cbn [set_head]. cbn [lens map List.hd] in *.
      rewrite concat_head_insert by lia.
      apply drop_insert_gt. lia. }
    assert (Hlu : length u' = length (used d)).
    { apply (f_equal length) in El. unfold lens in El. by rewrite !map_length in El. }
    rewrite <- Hc. clear Hc Ha Hv Hsp.
    destruct Hs as [S1 S2 S3 S4 S5 S6 S7]. unfold rel in Hr. rewrite <- El in *. rewrite <- Hlu in S5.
    unfold update_pop_front. cbn [hp hlp used tp dlen spare spareLinks inited].
    destruct (Nat.ltb_spec (hp d) (hlp d)) as [Hlt|Hge].
    { eexists. split; [reflexivity|]. split.
      - right. split.
        + split; cbn [hp hlp used tp dlen spare inited]; try done; try lia.
          by destruct u', (used d).
        + unfold rel. cbn [hp used tp dlen]. lia.
      - unfold abs. cbn [hp used dlen]. by rewrite Nat.add_1_r. }
    destruct u' as [|h [|h2 rest]] eqn:Eu.
    { destruct (used d); done. }
    { eexists. split; [reflexivity|]. simpl in S2, S3, Hr. assert (dlen d = 1) by lia.
      split.
      - right. split.
        + split; cbn [hp hlp used tp dlen spare inited lens map List.last List.hd length]; try done; lia.
        + unfold rel. simpl. lia.
      - unfold abs. cbn [hp used dlen]. rewrite H. done. }
    simpl in S3. assert (Hhp : S (hp d) = length h) by lia.
    assert (Hb : Forall (fun n => 64 <= n) (lens (h :: h2 :: rest) ++ lens (spare d))).
    { destruct S6 as [Hb|(n & A & B)]; [done|]. done. }
    assert (Hinv : forall sp k, Forall (fun n => 64 <= n) (lens sp) ->
      let d' := Dq (h2 :: rest) sp 0 (length h2 - 1) (tp d) (dlen d - 1) k true in
      inv d' /\ abs d' = take (dlen d - 1) (drop (S (hp d)) (concat (h :: h2 :: rest)))).
    { intros sp k Hspare. cbn zeta. simpl in Hb. apply Forall_inv in Hb as Hh. apply Forall_inv_tail in Hb.
      apply Forall_inv in Hb as Hh2. split.
      - right. split.
        + split; cbn [hp hlp used tp dlen spare inited]; try done; try lia.
          * simpl in S2. simpl. lia.
          * simpl. intros. apply S5. simpl. lia.
          * left. simpl. constructor; [done|]. apply Forall_inv_tail in Hb. apply Forall_app in Hb as [Hb _].
            by apply Forall_app.
        + unfold rel. cbn [hp used tp dlen]. cbn [lens map] in Hr |- *. fold (lens rest) in *.
          cbn [removelast] in Hr. destruct (lens rest) eqn:Er.
          * simpl in Hr |- *. lia.
          * cbn [removelast] in Hr |- *. cbn [list_sum fold_right] in Hr |- *. lia.
      - unfold abs. cbn [hp used dlen]. rewrite drop_0. f_equal. simpl. rewrite Hhp.
        by rewrite drop_app. }
    assert (Hsp : Forall (fun n => 64 <= n) (lens (spare d))) by (by apply Forall_app in Hb as [_ ?]).
    destruct (_ <=? _)%Z; eexists; (split; [reflexivity|]); apply Hinv; [done|].
    rewrite lens_app. apply Forall_app. split; [done|]. simpl in Hb |- *. apply Forall_inv in Hb. by constructor.
  Qed.

  Lemma last_opt_snoc (l : list T) x : last_opt (l ++ [x]) = Some x.
  Proof. unfold last_opt. by rewrite rev_app_distr. Qed.

  (** The last element, by position. *)
  Lemma abs_snoc d : shape d -> rel (dlen d) d -> dlen d <> 0 ->
    exists u t v, used d = u ++ [t] /\ 1 <= tp d /\ t !! (tp d - 1) = Some v /\
      abs d = take (dlen d - 1) (drop (hp d) (concat (used d))) ++ [v] /\
      hp d + (dlen d - 1) = list_sum (lens u) + (tp d - 1).
  Proof.
    intros Hs Hr H0. pose proof (span_le d Hs Hr) as Hsp.
    destruct (snoc_inv _ (sh_ne _ Hs)) as (u & t & E).
    pose proof (sh_tp _ Hs) as Htp. unfold rel in Hr. rewrite E in Htp, Hr. rewrite lens_app in Htp, Hr. simpl in Htp, Hr.
    rewrite last_snoc in Htp. rewrite removelast_snoc in Hr.
    assert (H1 : 1 <= tp d).
    { destruct (decide (2 <= length (used d))) as [H2|H2]; [by apply Hs|].
      rewrite E, app_length in H2. simpl in H2. destruct u; simpl in *; lia. }
    destruct (lookup_lt_is_Some_2 t (tp d - 1)) as [v Hv]; [lia|].
    exists u, t, v. split; [done|]. split; [done|]. split; [done|].
    assert (Hpos : hp d + (dlen d - 1) = list_sum (lens u) + (tp d - 1)) by lia.
    split; [|done]. unfold abs. replace (dlen d) with (S (dlen d - 1)) at 1 by lia. apply take_S_r.
    rewrite lookup_drop, Hpos, E, concat_app, <- concat_len. rewrite lookup_app_r by lia. simpl.
    rewrite app_nil_r. by replace (length (concat u) + (tp d - 1) - length (concat u)) with (tp d - 1) by lia.
  Qed.

  Lemma take_drop_insert_end {A} (C : list A) h n i v : h + n <= i ->
    take n (drop h (<[i := v]> C)) = take n (drop h C).
  Proof.
    intros H. apply list_eq. intros k. destruct (decide (k < n)).
    - rewrite !lookup_take, !lookup_drop by done. apply list_lookup_insert_ne. lia.
    - by rewrite !lookup_take_ge by lia.
  Qed.

  Lemma pop_back_ok d : inv d ->
    exists d', pop_back zero d = Some (last_opt (abs d), d') /\ inv d' /\ abs d' = removelast (abs d).
  Proof.
    intros [-> | [Hs Hr]].
    { eexists. split; [reflexivity|]. split; [by left|done]. }
    unfold pop_back. destruct (Nat.eqb_spec (dlen d) 0) as [H0|H0].
    { rewrite (sh_init _ Hs), (abs_nil_dlen d) by done. exists d. split; [done|]. split; [by right|].
      by apply abs_nil_dlen. }
    pose proof (span_le d Hs Hr) as Hsp.
    destruct (abs_snoc d Hs Hr H0) as (u & t & v & E & Htp & Hv & Ha & Hpos).
    rewrite Ha, last_opt_snoc, removelast_snoc.
    destruct (Nat.eqb_spec (tp d) 0); [lia|]. destruct (tail_len d u t E) as (E1 & E2 & E3).
    rewrite E1, Hv, (sh_init _ Hs). simpl. rewrite E, set_tail_snoc.
    set (t' := <[tp d - 1:=zero]> t). assert (Ht' : length t' = length t) by apply insert_length.
    assert (Hc : take (dlen d - 1) (drop (hp d) (concat (u ++ [t]))) = take (dlen d - 1) (drop (hp d) (concat (u ++ [t'])))).
    { unfold t'. rewrite concat_tail_insert. symmetry. apply take_drop_insert_end.
      rewrite Hpos, concat_len. done. }
    rewrite Hc. clear Ha Hc Hsp.
    destruct Hs as [S1 S2 S3 S4 S5 S6 S7]. rewrite E in *. rewrite E2 in S2.
    assert (El : lens (u ++ [t']) = lens (u ++ [t])) by (rewrite !lens_app; simpl; by rewrite Ht').
    destruct ((0 <? tp d - 1) || (length (u ++ [t]) =? 1)) eqn:Ec.
    { eexists. split; [reflexivity|]. split; [|done]. right. split.
      - split; cbn [hp hlp used tp dlen spare inited]; rewrite ?El; try done.
        + by destruct u.
        + rewrite E2. lia.
        + rewrite app_length in *. simpl in *. apply orb_true_iff in Ec as [Ec|Ec]; lia.
      - unfold rel. cbn [hp used tp dlen]. rewrite lens_app. simpl. rewrite removelast_snoc. lia. }
    apply orb_false_iff in Ec as [Ec1 Ec2].
    assert (Htp1 : tp d = 1) by lia. rewrite app_length in Ec2. simpl in Ec2.
    assert (Hun : u <> []) by (intros ->; done).
    rewrite !removelast_snoc.
    destruct (snoc_inv u Hun) as (u2 & t2 & Eu). rewrite Eu, last_snoc.
    assert (Hb : Forall (fun n => 64 <= n) (lens (u ++ [t]) ++ lens (spare d))).
    { destruct S6 as [Hb|(n0 & A & _)]; [done|]. apply (f_equal length) in A. unfold lens in A.
      rewrite map_length, app_length, Eu, app_length in A. simpl in A. lia. }
    rewrite lens_app in Hb. apply Forall_app in Hb as [Hb Hbs]. apply Forall_app in Hb as [Hbu Hbt].
    simpl in Hbt. apply Forall_inv in Hbt.
    assert (Hinv : forall sp k, Forall (fun n => 64 <= n) (lens sp) ->
      let d' := Dq (u2 ++ [t2]) sp (hp d) (hlp d) (length t2) (dlen d - 1) k true in
      inv d' /\ abs d' = take (dlen d - 1) (drop (hp d) (concat (u ++ [t'])))).
    { intros sp k Hspare. cbn zeta. rewrite <- Eu. split.
      - right. split.
        + split; cbn [hp hlp used tp dlen spare inited]; try done.
          * rewrite Eu, lens_app. simpl. rewrite last_snoc. done.
          * rewrite S3. by destruct u.
          * intros _. rewrite Eu, lens_app in Hbu. apply Forall_app in Hbu as [_ Hbu]. simpl in Hbu.
            apply Forall_inv in Hbu. lia.
          * left. by apply Forall_app.
        + unfold rel. cbn [hp used tp dlen]. rewrite Hpos, Htp1, Eu, !lens_app, list_sum_app. simpl.
          rewrite removelast_snoc. lia.
      - unfold abs. cbn [hp used dlen]. rewrite concat_app.
        assert (hp d + (dlen d - 1) = length (concat u)) by (rewrite concat_len; lia).
        rewrite drop_app_le by lia. rewrite take_app_le; [done|]. rewrite drop_length. lia. }
    rewrite <- Eu in Hinv |- *.
    destruct (_ <=? _)%Z; eexists; (split; [reflexivity|]); apply Hinv; [done|].
    simpl. constructor; [lia|done].
  Qed.

  Lemma abs_len d : inv d -> length (abs d) = dlen d.
  Proof.
    intros [-> | [Hs Hr]]; [done|]. pose proof (span_le d Hs Hr). unfold abs.
    rewrite take_length, drop_length. lia.
  Qed.
  Lemma front_ok d : inv d -> front d = Some (List.hd_error (abs d)).
  Proof.
    intros Hi. pose proof (abs_len d Hi) as Hl. destruct Hi as [-> | [Hs Hr]]; [done|].
    unfold front. destruct (Nat.eqb_spec (dlen d) 0) as [H0|H0].
    { by rewrite (sh_init _ Hs), (abs_nil_dlen d). }
    pose proof (span_le d Hs Hr). rewrite lookup_concat_head by done.
    destruct (lookup_lt_is_Some_2 (concat (used d)) (hp d)) as [v Hv]; [lia|].
    rewrite Hv. unfold abs. rewrite (drop_S _ v) by done. by destruct (dlen d).
  Qed.
  Lemma back_ok d : inv d -> back d = Some (last_opt (abs d)).
  Proof.
    intros [-> | [Hs Hr]]; [done|]. unfold back. destruct (Nat.eqb_spec (dlen d) 0) as [H0|H0].
    { by rewrite (sh_init _ Hs), (abs_nil_dlen d). }
    destruct (abs_snoc d Hs Hr H0) as (u & t & v & E & Htp & Hv & Ha & Hpos).
    rewrite Ha, last_opt_snoc. destruct (Nat.eqb_spec (tp d) 0); [lia|].
    destruct (tail_len d u t E) as (-> & _). by rewrite Hv.
  Qed.

  Lemma exec_ok d o : inv d ->
    exists d', dq_exec zero d o = Some (d', snd (dq_spec (abs d) o)) /\ inv d' /\ abs d' = fst (dq_spec (abs d) o).
  Proof.
    intros Hi.
    assert (Hpf : exists d', option_map (fun r => (snd r, res_of (fst r))) (pop_front zero d) =
        Some (d', snd (dq_spec (abs d) PopFront)) /\ inv d' /\ abs d' = fst (dq_spec (abs d) PopFront)).
    { destruct (pop_front_ok d Hi) as (d' & -> & H & E). exists d'. simpl. rewrite E.
      by destruct (abs d). }
    destruct o; cbn [dq_exec].
    - destruct (push_front_ok d v Hi) as (d' & -> & H & E). by exists d'.
    - destruct (push_back_ok d v Hi) as (d' & -> & H & E). by exists d'.
    - destruct (fast_slow_ok d v Hi) as (d' & -> & H & E). by exists d'.
    - done.
    - done.
    - destruct (pop_back_ok d Hi) as (d' & -> & H & E). exists d'. simpl. rewrite E.
      unfold last_opt. destruct (rev (abs d)) eqn:Er; simpl; [|done].
      apply (f_equal (@rev T)) in Er. rewrite rev_involutive in Er. by rewrite Er.
    - rewrite (front_ok d Hi). exists d. simpl. by destruct (abs d).
    - rewrite (back_ok d Hi). exists d. simpl. unfold last_opt. destruct (rev (abs d)) eqn:Er; simpl; [|done].
      apply (f_equal (@rev T)) in Er. rewrite rev_involutive in Er. by rewrite Er.
    - exists d. simpl. by rewrite abs_len.
  Qed.
  Lemma run_ok d os : inv d -> exists d', dq_run zero d os = Some (d', dq_spec_run (abs d) os) /\ inv d'.
  Proof.
    revert d. induction os as [|o os IH]; intros d Hi; simpl; [by exists d|].
    destruct (exec_ok d o Hi) as (d1 & -> & H1 & E1). destruct (IH d1 H1) as (d2 & -> & H2).
    exists d2. split; [|done]. rewrite E1. by destruct (dq_spec (abs d) o).
  Qed.

  (** ** The number of spare nodes *)
  Definition spare_ok d : Prop := Z.of_nat (length (spare d)) = spareLinks d /\ (spareLinks d <= 5)%Z.
  Lemma pb_write_spare d i v d' : pb_write d i v = Some d' -> spare_ok d -> spare_ok d'.
  Proof. unfold pb_write. destruct set_at; [|done]. by intros [= <-]. Qed.
  Lemma pb_spare_spare d v d' : pb_spare d v = Some d' -> spare_ok d -> spare_ok d'.
  Proof.
    unfold pb_spare. destruct (spare d) as [|x sp] eqn:E; [done|]. intros H [H1 H2].
    eapply pb_write_spare; [exact H|]. split; simpl; rewrite E in H1; simpl in H1; lia.
  Qed.
  Lemma pb_first_spare d v d' : inv d -> (length (used d) =? 0) = true ->
    pb_first zero d v = Some d' -> spare_ok d -> spare_ok d'.
  Proof.
    intros [-> | [Hs _]] H; [|by rewrite used_nz in H]. intros E _. by eapply pb_write_spare.
  Qed.
  Lemma update_pop_front_spare d d' : update_pop_front d = Some d' -> spare_ok d -> spare_ok d'.
  Proof.
    unfold update_pop_front, maxSpareLinks. intros H [H1 H2].
    destruct (_ <? _); [by injection H as <-|]. destruct (used d) as [|h [|]]; [by injection H as <-..|].
    destruct (Z.leb_spec 5 (spareLinks d)); injection H as <-; split; simpl; rewrite ?app_length; simpl; lia.
  Qed.
  Lemma pop_front_spare d r d' : pop_front zero d = Some (r, d') -> spare_ok d -> spare_ok d'.
  Proof.
    unfold pop_front, try_pop_front. intros H Hs.
    destruct (_ =? _).
    { destruct (inited d); [|done]. by injection H as _ <-. }
    destruct (_ !! _); [|done]. destruct (inited d); [|done].
    destruct (update_pop_front _) as [d1|] eqn:E; [|done]. injection H as _ <-.
    by eapply update_pop_front_spare; [exact E|].
  Qed.
  Lemma pop_back_spare d r d' : pop_back zero d = Some (r, d') -> spare_ok d -> spare_ok d'.
  Proof.
    unfold pop_back, maxSpareLinks. intros H [H1 H2].
    destruct (_ =? _).
    { destruct (inited d); [|done]. by injection H as _ <-. }
    destruct (_ =? _); [done|]. destruct (_ !! _); [|done]. destruct (negb _); [done|].
    destruct (_ || _); [by injection H as _ <-|].
    destruct (Z.leb_spec 5 (spareLinks d)); injection H as _ <-; split; simpl; lia.
  Qed.
  Definition no_push_front (o : dq_op T) : Prop := match o with PushFront _ => False | _ => True end.
  Lemma exec_spare d o d' r : inv d -> dq_exec zero d o = Some (d', r) -> no_push_front o -> spare_ok d -> spare_ok d'.
  Proof.
    intros Hinv H Hn Hs.
    assert (Hpf : option_map (fun r => (snd r, res_of (fst r))) (pop_front zero d) = Some (d', r) -> spare_ok d').
    { destruct (pop_front zero d) as [[? ?]|] eqn:E; [|done]. intros [= <- _]. by eapply pop_front_spare. }
    destruct o; cbn [dq_exec] in H.
    - done.
    - destruct (push_back zero d v) as [d1|] eqn:E; [|done]. injection H as <- _.
      unfold push_back in E.
      destruct (length (used d) =? 0) eqn:E0; [by eapply pb_first_spare|].
      destruct (_ <? _); [by eapply pb_write_spare|]. destruct (_ <? _); [by eapply pb_write_spare|].
      destruct (negb _); [by eapply pb_spare_spare|]. by eapply pb_write_spare.
    - destruct (fast_slow_push_back zero d v) as [d1|] eqn:E; [|done]. injection H as <- _.
      unfold fast_slow_push_back, fast_push_back, slow_push_back in E.
      destruct (length (used d) =? 0) eqn:E0; [by eapply pb_first_spare|].
      destruct (_ <? _).
      { destruct (pb_write d (tp d) v) as [d2|] eqn:E2; [|done]. injection E as <-. by eapply pb_write_spare. }
      destruct (negb _).
      { destruct (pb_spare d v) as [d2|] eqn:E2; [|done]. injection E as <-. by eapply pb_spare_spare. }
      destruct (_ <? _); by eapply pb_write_spare.
    - auto.
    - auto.
    - destruct (pop_back zero d) as [[? ?]|] eqn:E; [|done]. injection H as <- _. by eapply pop_back_spare.
    - destruct (front d); [|done]. by injection H as <- _.
    - destruct (back d); [|done]. by injection H as <- _.
    - by injection H as <- _.
  Qed.
  Lemma run_spare d os d' rs : inv d -> dq_run zero d os = Some (d', rs) -> Forall no_push_front os ->
    spare_ok d -> spare_ok d'.
  Proof.
    revert d rs. induction os as [|o os IH]; intros d rs Hinv H Hn Hs; simpl in H; [by injection H as <- _|].
    apply Forall_cons_iff in Hn as [Hn1 Hn2].
    destruct (dq_exec zero d o) as [[d1 r]|] eqn:E; [|done].
    destruct (dq_run zero d1 os) as [[d2 rs2]|] eqn:E2; [|done]. injection H as <- _.
    eapply IH; [|exact E2|done|by eapply exec_spare].
    destruct (exec_ok d o Hinv) as (d3 & E3 & H3 & _). rewrite E in E3. by injection E3 as <- _.
  Qed.
End proofs.
