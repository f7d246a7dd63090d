(** What the list of things a thread has to do can look like. *)
From Verif Require Import Base Engine_Spec Engine_Model Engine_Proofs.

Section shape.
Context (a : alg) (owner : nat -> nat).

(** Operations while vertex [v] is sending. *)
Definition sop (v : nat) (o : op a) : Prop := match o with Merge s _ _ => s = v | Cas _ | Put _ => True | _ => False end.
Definition tag (v : nat) (l : list (nat * msg_t a)) : list (nat * nat * msg_t a) := map (fun '(d, m) => (v, d, m)) l.
Definition merges (v : nat) (l : list (nat * msg_t a)) : list (op a) := map (fun '(d, m) => Merge v d m) l.

Inductive shape (t : nat) : nat -> list (op a) -> Prop :=
| sh_nil k : shape t k []
| sh_dec v : owner v = t -> shape t 0 [Dec v; Begin v KUpd]
| sh_init v m : owner v = t -> shape t 0 [Init v m]
| sh_begin v k : owner v = t -> shape t 0 [Begin v k]
| sh_scan v k i got : owner v = t -> i = length got -> shape t 0 [Scan v k i got]
| sh_send v k l x : owner v = t -> Forall (sop v) l -> shape t k (l ++ [Else (tag v x)])
| sh_last v k l : owner v = t -> Forall (sop v) l -> shape t k l.

Definition shaped (s : est a) : Prop := forall t, shape t (sent s t) (todo s t).

Lemma shaped_start b p es : shaped (estart a b p es).
Proof. intros t. constructor. Qed.

Lemma sop_merges v l : Forall (sop v) (merges v l).
Proof. unfold merges. apply Forall_fmap. apply List.Forall_forall. by intros [d m] _. Qed.
Lemma map_tag v x : map (fun '(v, d, m) => Merge v d m) (tag v x) = merges v x.
Proof. unfold tag, merges. rewrite map_map. apply map_ext. by intros [d m]. Qed.

(** A sending thread's next operation and the rest. *)
Lemma shape_cons t k o rest : shape t k (o :: rest) ->
  (exists v, o = Dec v /\ rest = [Begin v KUpd] /\ owner v = t /\ k = 0) \/
  (exists v m, o = Init v m /\ rest = [] /\ owner v = t /\ k = 0) \/
  (exists v kd, o = Begin v kd /\ rest = [] /\ owner v = t /\ k = 0) \/
  (exists v kd i got, o = Scan v kd i got /\ rest = [] /\ owner v = t /\ k = 0 /\ i = length got) \/
  (exists v x, o = Else (tag v x) /\ rest = [] /\ owner v = t) \/
  (exists v, owner v = t /\ sop v o /\
     ((exists l x, rest = l ++ [Else (tag v x)] /\ Forall (sop v) l) \/ Forall (sop v) rest)).
Proof.
  intros H. inversion H as [|v ? E|v m ?|v kd ?|v kd i got ?|v k' l x ? Hl E|v k' l ? Hl E]; subst.
  - left. eauto.
  - right; left. by exists v, m.
  - do 2 right; left. by exists v, kd.
  - do 3 right; left. by exists v, kd, (length got), got.
  - rename H1 into E. destruct l as [|o' l]; simpl in E; injection E as E1 E2; subst.
    + do 4 right; left. by exists v, x.
    + do 5 right. inversion Hl; subst. exists v. split_and!; [done..|]. left. eauto.
  - do 5 right. inversion Hl; subst. exists v. eauto.
Qed.

Lemma shaped_estep s t c : shaped s -> (forall t v, v ∈ queue s t -> owner v = t) -> shaped (estep a owner s t c).
Proof.
  intros HS Hq. unfold estep. destruct (todo s t) as [|o rest] eqn:Ht0.
  - destruct c as [| |v es|v gone|v m]; try done.
    + destruct (queue s t) as [|v q] eqn:Hqt; [done|].
      assert (owner v = t) by (apply Hq; rewrite Hqt; apply elem_of_list_here).
      intros k. cbn. destruct (decide (k = t)) as [->|Hne]; us; [by constructor|apply HS].
    + destruct (Nat.eqb_spec (owner v) t) as [Hv|]; [|done]. intros k. cbn. destruct (decide (k = t)) as [->|Hne]; us; [by constructor|apply HS].
    + destruct (Nat.eqb_spec (owner v) t) as [Hv|]; [|done]. intros k. cbn. destruct (decide (k = t)) as [->|Hne]; us; [by constructor|apply HS].
    + destruct (Nat.eqb_spec (owner v) t) as [Hv|]; [|done]. intros k. cbn. destruct (decide (k = t)) as [->|Hne]; us; [by constructor|apply HS].
  - destruct c; try done. intros k. pose proof (HS t) as Hsh. rewrite Ht0 in Hsh.
    destruct (decide (k = t)) as [->|Hne].
    2:{ pose proof (HS k) as Hk. destruct o as [src d m|d|d|v|v kd|v kd i got|l|v m]; cbn [exec_op].
      - destruct (merge a m src d (box s d)) as [b new]. cbn. by us.
      - destruct (act s d =? 0)%nat; cbn; by us.
      - cbn. by us.
      - cbn. by us.
      - cbn. by us.
      - destruct (box s v !! i); [destruct (take a c)|destruct (react a v kd (prop s v) (edges s v) got) as [[? ?] ?]]; cbn; by us.
      - cbn. by us.
      - destruct (merge a m v v (box s v)) as [b new]. cbn. by us. }
    destruct (shape_cons _ _ _ _ Hsh) as [(v & -> & -> & Hv & Hk)|[(v & m & -> & -> & Hv & Hk)|[(v & kd & -> & -> & Hv & Hk)|[(v & kd & i & got & -> & -> & Hv & Hk & Hi)|
      [(v & x & -> & -> & Hv)|(v & Hv & Ho & Hr)]]]]]; cbn [exec_op].
    + cbn. us. rewrite Hk. by constructor.
    + destruct (merge a m v v (box s v)) as [b new]. cbn. us. rewrite Hk. destruct new; by constructor.
    + cbn. us. rewrite Hk. by constructor.
    + destruct (box s v !! i).
      * destruct (take a c) as [c' x]. cbn. us. rewrite Hk. constructor; [done|]. rewrite app_length. simpl. lia.
      * destruct (react a v kd (prop s v) (edges s v) got) as [[p ms] ms']. cbn. us. fold (merges v ms). fold (tag v ms').
        apply sh_send; [done|]. apply sop_merges.
    + cbn. us. destruct (sent s t =? 0)%nat; [|by constructor]. rewrite map_tag, app_nil_r. apply (sh_last t v); [done|]. apply sop_merges.
    + assert (Hadd : forall j l0, Forall (sop v) l0 -> shape t j (l0 ++ rest)).
      { intros j l0 Hl0. destruct Hr as [(l & x & -> & Hl)|Hl].
        - rewrite app_assoc. apply sh_send; [done|]. by apply Forall_app.
        - apply (sh_last t v); [done|]. by apply Forall_app. }
      destruct o as [src d m|d|d|?|? ?|? ? ? ?|?|? ?]; try done; cbn [exec_op].
      * destruct (merge a m src d (box s d)) as [b new]. cbn. us. destruct new; [apply (Hadd _ [Cas d])|apply (Hadd _ [])]; by repeat constructor.
      * destruct (act s d =? 0)%nat; cbn; us; [apply (Hadd _ [Put d])|apply (Hadd _ [])]; by repeat constructor.
      * cbn. us. apply (Hadd _ []). by constructor.
Qed.
End shape.
