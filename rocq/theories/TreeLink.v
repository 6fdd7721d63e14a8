(** The linked list of leaves: following links past deleted leaves. *)
From stdpp Require Import prelude list.
From Verif Require Import LeafModel TreeModel TreeHeap.

Section facts.
Context {K V : Type}.
Implicit Types (h : heap K V) (p q : option nat) (ids : list nat) (i j : nat).

(** From the link [p], the first leaf that is not deleted is [q]. *)
Inductive lands h : option nat -> option nat -> Prop :=
| lands_end : lands h None None
| lands_at i c : h !! i = Some c -> c_tag c <> TSecond -> lands h (Some i) (Some i)
| lands_skip i c q : h !! i = Some c -> c_tag c = TSecond -> lands h (c_next c) q -> lands h (Some i) q.

(** The same with the deleted leaves passed. *)
Fixpoint path h ids p q : Prop :=
  match ids with
  | [] => match p with None => q = None | Some i => q = Some i /\ exists c, h !! i = Some c /\ c_tag c <> TSecond end
  | i :: ids' => p = Some i /\ exists c, h !! i = Some c /\ c_tag c = TSecond /\ path h ids' (c_next c) q
  end.
Lemma lands_path h p q : lands h p q -> exists ids, path h ids p q.
Proof.
  induction 1 as [|i c H Tg|i c q H Tg _ [ids IH]]; [exists []; done|exists []; cbn; eauto|].
  exists (i :: ids). cbn. eauto.
Qed.
Lemma path_fun h ids : forall ids' p q q', path h ids p q -> path h ids' p q' -> ids = ids'.
Proof.
  induction ids as [|i ids IH]; intros [|i' ids'] p q q'; cbn.
  - done.
  - intros P (-> & c & H & Tg & _). destruct P as [_ (c' & H' & Tg')]. congruence.
  - intros (-> & c & H & Tg & _) P. destruct P as [_ (c' & H' & Tg')]. congruence.
  - intros (-> & c & H & Tg & P) (E & c' & H' & _ & P'). injection E as <-. rewrite H in H'. injection H' as <-.
    f_equal. by eapply IH.
Qed.
Lemma path_suffix h ids1 i ids2 : forall p q, path h (ids1 ++ i :: ids2) p q -> path h (i :: ids2) (Some i) q.
Proof.
  induction ids1 as [|j ids1 IH]; intros p q; [cbn; intros (-> & H); eauto|]. intros (_ & c & _ & _ & P). by eapply IH.
Qed.
Lemma path_nodup h ids : forall p q, path h ids p q -> NoDup ids.
Proof.
  induction ids as [|i ids IH]; intros p q P; [constructor|]. constructor.
  - intros Hi. apply elem_of_list_split in Hi as (ids1 & ids2 & ->).
    assert (path h (i :: ids1 ++ i :: ids2) (Some i) q) as P' by (destruct P as [-> P]; by split).
    pose proof (path_suffix h (i :: ids1) i ids2 _ _ P') as P2. pose proof (path_fun h _ _ _ _ _ P' P2) as E.
    apply (f_equal length) in E. cbn in E. rewrite app_length in E. cbn in E. lia.
  - destruct P as (_ & c & _ & _ & P). by eapply IH.
Qed.
Lemma path_bound h ids : forall p q, path h ids p q -> forall i, i ∈ ids -> i < length h.
Proof.
  induction ids as [|j ids IH]; intros p q P i Hi; [by apply elem_of_nil in Hi|]. destruct P as (_ & c & H & _ & P).
  apply elem_of_cons in Hi as [->|Hi]; [by eapply lookup_lt_Some|by eapply IH].
Qed.
Lemma nodup_bound ids n : NoDup ids -> (forall i, i ∈ ids -> i < n) -> length ids <= n.
Proof.
  intros N B. rewrite <-(seq_length n 0). apply submseteq_length, NoDup_submseteq; [done|].
  intros i Hi. apply elem_of_seq. specialize (B i Hi). lia.
Qed.
Lemma skip_path h ids : forall fuel p q, path h ids p q -> length ids < fuel -> skip_deleted fuel h p = q.
Proof.
  induction ids as [|i ids IH]; intros [|f] p q P L; cbn in L; try lia; cbn.
  - destruct p as [i|]; [|done]. destruct P as [-> (c & H & Tg)]. rewrite H. by destruct (c_tag c).
  - destruct P as (-> & c & H & Tg & P). rewrite H, Tg. apply IH; [done|lia].
Qed.
Lemma lands_skip_deleted h p q : lands h p q -> skip_deleted (S (length h)) h p = q.
Proof.
  intros H. apply lands_path in H as [ids P]. apply (skip_path h ids); [done|]. apply Nat.lt_succ_r.
  apply nodup_bound; [by eapply path_nodup|]. by eapply path_bound.
Qed.

(** Following the link of a leaf. *)
Definition goes h i q : Prop := exists c, h !! i = Some c /\ lands h (c_next c) q.
Lemma goes_next h i q : goes h i q -> next_ptr h i = q.
Proof. intros (c & H & L). unfold next_ptr. rewrite H. by apply lands_skip_deleted. Qed.

(** Every leaf of the list leads to the following one, the last one to [q]. *)
Fixpoint seg h ids q : Prop :=
  match ids with
  | [] => True
  | i :: ids' => goes h i (match ids' with [] => q | j :: _ => Some j end) /\ seg h ids' q
  end.
Definition hd_or ids q : option nat := match ids with [] => q | i :: _ => Some i end.
Lemma seg_cons h i ids q : seg h (i :: ids) q <-> goes h i (hd_or ids q) /\ seg h ids q.
Proof. done. Qed.
Lemma hd_or_app ids ids' q : hd_or (ids ++ ids') q = hd_or ids (hd_or ids' q).
Proof. by destruct ids. Qed.
Lemma seg_app h ids ids' q : seg h (ids ++ ids') q <-> seg h ids (hd_or ids' q) /\ seg h ids' q.
Proof.
  induction ids as [|i ids IH]; [cbn; tauto|]. rewrite <-app_comm_cons, !seg_cons, IH, hd_or_app. tauto.
Qed.
Lemma seg_next h ids1 i ids2 q : seg h (ids1 ++ i :: ids2) q -> next_ptr h i = hd_or ids2 q.
Proof. rewrite seg_app, seg_cons. intros (_ & G & _). by apply goes_next. Qed.

(** Heap changes that keep links. *)
Lemma lands_mono h h' p q : lands h p q ->
  (forall i c, h !! i = Some c -> c_tag c = TSecond -> exists c', h' !! i = Some c' /\ c_tag c' = TSecond /\ c_next c' = c_next c) ->
  (forall i c, q = Some i -> h !! i = Some c -> c_tag c <> TSecond -> exists c', h' !! i = Some c' /\ c_tag c' <> TSecond) ->
  lands h' p q.
Proof.
  induction 1 as [|i c H Tg|i c q H Tg _ IH]; intros Del Live.
  - constructor.
  - destruct (Live i c) as (c' & H' & Tg'); [done..|]. by eapply lands_at.
  - destruct (Del i c H Tg) as (c' & H' & Tg' & E). eapply lands_skip; [done..|]. rewrite E. auto.
Qed.
(** [h'] keeps the link of [i], everything deleted, and the life of [q]. *)
Definition keeps_del h h' : Prop :=
  forall i c, h !! i = Some c -> c_tag c = TSecond -> exists c', h' !! i = Some c' /\ c_tag c' = TSecond /\ c_next c' = c_next c.
Definition keeps_live h h' q : Prop :=
  forall i c, q = Some i -> h !! i = Some c -> c_tag c <> TSecond -> exists c', h' !! i = Some c' /\ c_tag c' <> TSecond.
Definition keeps_next h h' i : Prop := forall c, h !! i = Some c -> exists c', h' !! i = Some c' /\ c_next c' = c_next c.
Lemma goes_mono h h' i q : goes h i q -> keeps_next h h' i -> keeps_del h h' -> keeps_live h h' q -> goes h' i q.
Proof.
  intros (c & H & L) N D Li. destruct (N c H) as (c' & H' & E). exists c'. split; [done|]. rewrite E. by eapply lands_mono.
Qed.
Lemma seg_mono h h' ids q : seg h ids q -> keeps_del h h' -> (forall i, i ∈ ids -> keeps_next h h' i) ->
  (forall i, i ∈ ids -> keeps_live h h' (Some i)) -> keeps_live h h' q -> seg h' ids q.
Proof.
  induction ids as [|i ids IH]; intros S D N Li Lq; [done|]. apply seg_cons in S as [G S]. apply seg_cons. split.
  - eapply goes_mono; eauto. { apply N. by left. } destruct ids as [|j ids]; [done|]. apply Li. right. by left.
  - apply IH; auto; intros j Hj; [apply N|apply Li]; by right.
Qed.
Lemma keeps_live_none h h' : keeps_live h h' None.
Proof. intros i c H. done. Qed.

(** [set_leaf] touches no link. *)
Lemma set_leaf_cell h i l j c : h !! j = Some c ->
  exists c', set_leaf h i l !! j = Some c' /\ c_tag c' = c_tag c /\ c_next c' = c_next c.
Proof.
  intros H. destruct (decide (i = j)) as [->|N].
  - rewrite (set_leaf_lookup _ _ _ _ H). eauto.
  - rewrite set_leaf_ne by done. eauto.
Qed.
Lemma set_leaf_del h i l : keeps_del h (set_leaf h i l).
Proof. intros j c H Tg. destruct (set_leaf_cell h i l j c H) as (c' & H' & E1 & E2). exists c'. repeat split; congruence. Qed.
Lemma set_leaf_next h i l j : keeps_next h (set_leaf h i l) j.
Proof. intros c H. destruct (set_leaf_cell h i l j c H) as (c' & H' & E1 & E2). by exists c'. Qed.
Lemma set_leaf_live h i l q : keeps_live h (set_leaf h i l) q.
Proof. intros j c _ H Tg. destruct (set_leaf_cell h i l j c H) as (c' & H' & E1 & E2). exists c'. split; congruence. Qed.
Lemma seg_set_leaf h i l ids q : seg h ids q -> seg (set_leaf h i l) ids q.
Proof. intros S. apply (seg_mono h); [done|apply set_leaf_del|intros; apply set_leaf_next|intros; apply set_leaf_live|apply set_leaf_live]. Qed.

(** [set_link] on a leaf that is not deleted. *)
Lemma set_link_lookup h i c n t : h !! i = Some c -> set_link h i n t !! i = Some (Cell (c_leaf c) n t).
Proof. intros H. unfold set_link. rewrite H. apply list_lookup_insert. by eapply lookup_lt_Some. Qed.
Lemma set_link_ne h i j n t : i <> j -> set_link h i n t !! j = h !! j.
Proof. intros N. unfold set_link. destruct (h !! i); [|done]. by apply list_lookup_insert_ne. Qed.
Lemma set_link_keeps_del h i c n t : h !! i = Some c -> c_tag c <> TSecond -> keeps_del h (set_link h i n t).
Proof.
  intros H Tg j d Hj Td. assert (i <> j) by congruence. exists d. by rewrite set_link_ne.
Qed.
Lemma set_link_keeps_next h i j n t : i <> j -> keeps_next h (set_link h i n t) j.
Proof. intros N c H. exists c. by rewrite set_link_ne. Qed.
Lemma set_link_keeps_live h i n t q : t <> TSecond -> keeps_live h (set_link h i n t) q.
Proof.
  intros Ht j c _ H Tg. destruct (decide (i = j)) as [->|N].
  - rewrite (set_link_lookup _ _ _ _ _ H). eexists. split; [done|]. done.
  - exists c. by rewrite set_link_ne.
Qed.
Lemma seg_set_link h i c n t ids q : h !! i = Some c -> c_tag c <> TSecond -> t <> TSecond -> i ∉ ids ->
  seg h ids q -> seg (set_link h i n t) ids q.
Proof.
  intros H Tg Ht Hi S. apply (seg_mono h); [done|by eapply set_link_keeps_del| | |].
  - intros j Hj. apply set_link_keeps_next. by intros ->.
  - intros j Hj. by apply set_link_keeps_live.
  - by apply set_link_keeps_live.
Qed.

(** Deleting the leaf [i]: what led to it now leads to what it leads to. *)
Lemma delete_self_lookup h i c : h !! i = Some c -> delete_self h i !! i = Some (Cell (c_leaf c) (c_next c) TSecond).
Proof. intros H. unfold delete_self. rewrite H. by apply set_link_lookup. Qed.
Lemma delete_self_ne h i j : i <> j -> delete_self h i !! j = h !! j.
Proof. intros N. unfold delete_self. destruct (h !! i); [|done]. by apply set_link_ne. Qed.
Lemma delete_self_del h i : keeps_del h (delete_self h i).
Proof.
  intros j c H Tg. destruct (decide (i = j)) as [->|N].
  - rewrite (delete_self_lookup _ _ _ H). eexists. split; [done|]. done.
  - exists c. by rewrite delete_self_ne.
Qed.
Lemma delete_self_next h i j : keeps_next h (delete_self h i) j.
Proof.
  intros c H. destruct (decide (i = j)) as [->|N].
  - rewrite (delete_self_lookup _ _ _ H). by eexists.
  - exists c. by rewrite delete_self_ne.
Qed.
Lemma delete_self_live h i q : q <> Some i -> keeps_live h (delete_self h i) q.
Proof. intros N j c -> H Tg. exists c. rewrite delete_self_ne; [done|]. congruence. Qed.
Lemma lands_redirect h i p q : lands h p (Some i) -> goes h i q -> q <> Some i -> lands (delete_self h i) p q.
Proof.
  intros L G Nq. remember (Some i) as z eqn:Ez. induction L as [|j c H Tg|j c z H Tg _ IH].
  - done.
  - injection Ez as ->. destruct G as (c' & H' & L). rewrite H in H'. injection H' as <-.
    eapply lands_skip; [by apply delete_self_lookup|done|]. cbn.
    eapply lands_mono; [done|apply delete_self_del|by apply delete_self_live].
  - destruct (delete_self_del h i j c H Tg) as (c' & H' & Tg' & E). eapply lands_skip; [done..|]. rewrite E. auto.
Qed.
Lemma seg_delete h ids1 i ids2 q : NoDup (ids1 ++ i :: ids2) -> q <> Some i -> (forall j, q = Some j -> j ∉ ids1 ++ i :: ids2) ->
  seg h (ids1 ++ i :: ids2) q -> seg (delete_self h i) (ids1 ++ ids2) q.
Proof.
  intros N Nq Dq S. rewrite seg_app, seg_cons in S. destruct S as (S1 & G & S2). cbn [hd_or] in S1.
  apply NoDup_app in N as (N1 & N2 & N3). apply NoDup_cons in N3 as [N3 N4].
  assert (hd_or ids2 q <> Some i) as Nh.
  { destruct ids2 as [|j ids2]; [done|]. cbn. intros [= ->]. apply N3. by left. }
  apply seg_app. split.
  - clear S2 N4 Dq. revert N1 N2 S1. induction ids1 as [|a ids1 IH]; intros N1 N2 S1; [done|].
    apply NoDup_cons in N1 as [Na N1]. rewrite seg_cons in S1. destruct S1 as [G1 S1]. apply seg_cons. split.
    + destruct ids1 as [|b ids1]; cbn [hd_or] in *.
      * destruct G1 as (ca & Ha & L). destruct (delete_self_next h i a ca Ha) as (c' & H' & E). exists c'. split; [done|].
        rewrite E. by apply lands_redirect.
      * eapply goes_mono; [done|apply delete_self_next|apply delete_self_del|]. apply delete_self_live. intros [= ->].
        apply (N2 i); [right; by left|by left].
    + apply IH; [done| |done]. intros x Hx. apply N2. by right.
  - eapply seg_mono; [done|apply delete_self_del|intros; apply delete_self_next| |].
    + intros j Hj. apply delete_self_live. intros [= ->]. done.
    + by apply delete_self_live.
Qed.
End facts.
