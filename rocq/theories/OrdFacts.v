(** Ascending lists as ordered maps. *)
From stdpp Require Import prelude list sorting.
From Verif Require Import LeafModel LeafSpec.

Section ord.
Context {K V : Type} (cmp : K -> K -> comparison) (T : total_order cmp).
Implicit Types (es : list (K * V)) (k : K) (v : V).

Lemma cmp_refl k : cmp k k = Eq.
Proof. by apply T. Qed.
Lemma cmp_eq a b : cmp a b = Eq -> a = b.
Proof. apply T. Qed.
Lemma cmp_gt a b : cmp a b = Gt <-> cmp b a = Lt.
Proof. by apply order_gt. Qed.
Lemma cmp_lt_neq a b : cmp a b = Lt -> a <> b.
Proof. intros H ->. rewrite cmp_refl in H. done. Qed.
Lemma cmp_asym a b : cmp a b = Lt -> cmp b a <> Lt.
Proof. intros H. apply cmp_gt in H. congruence. Qed.
Lemma cmp_trans a b c : cmp a b = Lt -> cmp b c = Lt -> cmp a c = Lt.
Proof. apply T. Qed.
Lemma cmp_le_lt a b c : cmp a b <> Gt -> cmp b c = Lt -> cmp a c = Lt.
Proof. intros H1 H2. destruct (cmp a b) eqn:E; [|by eapply cmp_trans|done]. by apply cmp_eq in E as ->. Qed.
Lemma cmp_lt_le a b c : cmp a b = Lt -> cmp b c <> Gt -> cmp a c = Lt.
Proof. intros H1 H2. destruct (cmp b c) eqn:E; [|by eapply cmp_trans|done]. by apply cmp_eq in E as ->. Qed.
Lemma cmp_le_trans a b c : cmp a b <> Gt -> cmp b c <> Gt -> cmp a c <> Gt.
Proof.
  intros H1 H2. destruct (cmp a b) eqn:E; [by apply cmp_eq in E as ->| |done].
  rewrite (cmp_lt_le _ _ _ E H2). done.
Qed.

Lemma asc_nil : ascending cmp (V:=V) [].
Proof. constructor. Qed.
Lemma asc_cons e es : ascending cmp (e :: es) <-> ascending cmp es /\ forall x, x ∈ es -> cmp e.1 x.1 = Lt.
Proof.
  unfold ascending. split.
  - intros H. inversion H; subst. split; [done|]. by apply Forall_forall.
  - intros [H1 H2]. constructor; [done|]. by apply Forall_forall.
Qed.
Lemma asc_app es es' : ascending cmp (es ++ es') <->
  ascending cmp es /\ ascending cmp es' /\ forall x y, x ∈ es -> y ∈ es' -> cmp x.1 y.1 = Lt.
Proof.
  induction es as [|e es IH]; simpl.
  - split; [intros H; split; [constructor|split; [done|]]; intros x y Hx; by apply elem_of_nil in Hx|tauto].
  - rewrite !asc_cons, IH. split.
    + intros [(H1 & H2 & H3) H4]. split; [split; [done|]; intros; apply H4, elem_of_app; by left|].
      split; [done|]. intros x y Hx Hy. apply elem_of_cons in Hx as [->|Hx]; [apply H4, elem_of_app; by right|eauto].
    + intros ((H1 & H2) & H3 & H4). split; [split; [done|split; [done|]]|].
      * intros x y Hx Hy. apply H4; [by apply elem_of_cons; right|done].
      * intros x Hx. apply elem_of_app in Hx as [Hx|Hx]; [eauto|]. apply H4; [by apply elem_of_cons; left|done].
Qed.
Lemma asc_nodup es : ascending cmp es -> NoDup es.*1.
Proof.
  induction es as [|e es IH]; simpl; intros H; [constructor|]. apply asc_cons in H as [H1 H2].
  constructor; [|auto]. intros Hin. apply elem_of_list_fmap in Hin as (x & Hx & Hin).
  apply (cmp_lt_neq _ _ (H2 x Hin)). done.
Qed.
Lemma asc_ext es es' : ascending cmp es -> ascending cmp es' -> (forall e, e ∈ es <-> e ∈ es') -> es = es'.
Proof.
  revert es'. induction es as [|e es IH]; intros [|e' es'] H H' E.
  - done.
  - exfalso. assert (e' ∈ @nil (K * V)) as X by (apply E, elem_of_cons; by left). by apply elem_of_nil in X.
  - exfalso. assert (e ∈ @nil (K * V)) as X by (apply E, elem_of_cons; by left). by apply elem_of_nil in X.
  - apply asc_cons in H as [H1 H2]. apply asc_cons in H' as [H1' H2'].
    assert (e = e') as <-.
    { assert (e ∈ e' :: es') as X by (apply E, elem_of_cons; by left).
      assert (e' ∈ e :: es) as Y by (apply E, elem_of_cons; by left).
      apply elem_of_cons in X as [->|X]; [done|]. apply elem_of_cons in Y as [->|Y]; [done|].
      exfalso. by apply (cmp_asym _ _ (H2 _ Y)), H2'. }
    f_equal. apply IH; auto. intros x. split; intros Hx.
    + assert (x ∈ e :: es') as X by (apply E, elem_of_cons; by right).
      apply elem_of_cons in X as [->|X]; [|done]. exfalso. by apply (cmp_lt_neq _ _ (H2 _ Hx)).
    + assert (x ∈ e :: es) as X by (apply E, elem_of_cons; by right).
      apply elem_of_cons in X as [->|X]; [|done]. exfalso. by apply (cmp_lt_neq _ _ (H2' _ Hx)).
Qed.

Lemma oget_some es k v : ascending cmp es -> oget cmp es k = Some v <-> (k, v) ∈ es.
Proof.
  unfold oget. induction es as [|e es IH]; intros H.
  - split; [done|]. intros X. by apply elem_of_nil in X.
  - apply asc_cons in H as [H1 H2]. simpl. rewrite elem_of_cons. destruct (cmp k e.1) eqn:C.
    + apply cmp_eq in C. simpl. split.
      * intros [= <-]. left. rewrite C. by destruct e.
      * intros [<-|X]; [done|]. exfalso. apply (cmp_lt_neq _ _ (H2 _ X)). done.
    + rewrite (IH H1). split; [by right|]. intros [<-|X]; [by rewrite cmp_refl in C|done].
    + rewrite (IH H1). split; [by right|]. intros [<-|X]; [by rewrite cmp_refl in C|done].
Qed.
Lemma oget_none es k : ascending cmp es -> oget cmp es k = None <-> k ∉ es.*1.
Proof.
  intros A. split.
  - intros H X. apply elem_of_list_fmap in X as ([k' v] & -> & X). apply (oget_some _ _ _ A) in X. simpl in H. congruence.
  - intros H. destruct (oget cmp es k) as [v|] eqn:E; [|done]. exfalso. apply H.
    apply (oget_some _ _ _ A) in E. apply elem_of_list_fmap. by exists (k, v).
Qed.
Lemma oput_elem es k v e : ascending cmp es -> k ∉ es.*1 -> e ∈ oput cmp es k v <-> e = (k, v) \/ e ∈ es.
Proof.
  induction es as [|x es IH]; intros A N; simpl.
  - by rewrite elem_of_list_singleton, elem_of_nil; intuition.
  - apply asc_cons in A as [A1 A2]. simpl in N. apply not_elem_of_cons in N as [N1 N2].
    destruct (cmp k x.1) eqn:C.
    + by apply cmp_eq in C.
    + rewrite !elem_of_cons. done.
    + rewrite !elem_of_cons, IH by done. tauto.
Qed.
Lemma oput_asc es k v : ascending cmp es -> k ∉ es.*1 -> ascending cmp (oput cmp es k v).
Proof.
  induction es as [|x es IH]; intros A N; simpl.
  - apply asc_cons. split; [constructor|]. intros y Hy. by apply elem_of_nil in Hy.
  - apply asc_cons in A as [A1 A2]. simpl in N. apply not_elem_of_cons in N as [N1 N2].
    destruct (cmp k x.1) eqn:C.
    + by apply cmp_eq in C.
    + apply asc_cons. split; [by apply asc_cons|]. intros y Hy. simpl. apply elem_of_cons in Hy as [->|Hy]; [done|].
      eapply cmp_trans; eauto.
    + apply asc_cons. split; [by apply IH|]. intros y Hy. apply oput_elem in Hy as [->|Hy]; auto. by apply cmp_gt in C.
Qed.
Lemma odel_elem es k e : e ∈ odel cmp es k <-> e ∈ es /\ e.1 <> k.
Proof.
  unfold odel. rewrite elem_of_list_In, filter_In, <-elem_of_list_In.
  destruct (cmp k e.1) eqn:C.
  - apply cmp_eq in C. intuition congruence.
  - split; [|intuition]. intros [? _]. split; [done|]. intros <-. by rewrite cmp_refl in C.
  - split; [|intuition]. intros [? _]. split; [done|]. intros <-. by rewrite cmp_refl in C.
Qed.
Lemma asc_filter (f : K * V -> bool) es : ascending cmp es -> ascending cmp (List.filter f es).
Proof.
  induction es as [|e es IH]; intros A; simpl; [done|]. apply asc_cons in A as [A1 A2].
  destruct (f e); [|auto]. apply asc_cons. split; [auto|]. intros x Hx.
  apply elem_of_list_In, filter_In in Hx as [Hx _]. apply A2. by apply elem_of_list_In.
Qed.
Lemma odel_asc es k : ascending cmp es -> ascending cmp (odel cmp es k).
Proof. apply asc_filter. Qed.
Lemma odel_notin es k : k ∉ es.*1 -> odel cmp es k = es.
Proof.
  unfold odel. induction es as [|e es IH]; simpl; [done|]. intros N. apply not_elem_of_cons in N as [N1 N2].
  destruct (cmp k e.1) eqn:C; [by apply cmp_eq in C| |]; f_equal; auto.
Qed.
Lemma asc_take n es : ascending cmp es -> ascending cmp (take n es).
Proof. intros A. rewrite <-(take_drop n es) in A. by apply asc_app in A as (? & _). Qed.
Lemma asc_drop n es : ascending cmp es -> ascending cmp (drop n es).
Proof. intros A. rewrite <-(take_drop n es) in A. by apply asc_app in A as (_ & ? & _). Qed.

(** [range_contains] is range membership. *)
Lemma range_contains_spec r k : range_contains cmp r k = true <-> in_range cmp r k.
Proof.
  unfold range_contains, in_range. rewrite andb_true_iff.
  assert (forall a, cmp a k = Lt \/ a = k <-> cmp a k <> Gt) as H1.
  { intros a. split.
    - intros [->| ->]; [done|]. by rewrite cmp_refl.
    - destruct (cmp a k) eqn:E; [right; by apply cmp_eq|by left|done]. }
  assert (forall b, cmp k b = Lt \/ k = b <-> cmp b k <> Lt) as H2.
  { intros b. split.
    - intros [H| ->]; [by apply cmp_gt in H; rewrite H|by rewrite cmp_refl].
    - intros H. destruct (cmp k b) eqn:E; [right; by apply cmp_eq|by left|].
      apply cmp_gt in E. done. }
  destruct r as [s e]; simpl. f_equiv.
  - destruct s as [a|a|].
    + rewrite H1. destruct (cmp a k); intuition congruence.
    + destruct (cmp a k); intuition congruence.
    + done.
  - destruct e as [b|b|].
    + rewrite H2. destruct (cmp b k); intuition congruence.
    + rewrite <-cmp_gt. destruct (cmp b k); intuition congruence.
    + done.
Qed.
End ord.
