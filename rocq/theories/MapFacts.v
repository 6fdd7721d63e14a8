(** Facts about association lists. *)
From stdpp Require Import prelude list.
From Verif Require Import MapSpec.

Section map_facts.
Context {K V : Type} `{EqDecision K}.
Implicit Types l : list (K * V).

Lemma assoc_Some k v l : NoDup l.*1 -> assoc k l = Some v <-> (k, v) ∈ l.
Proof.
  induction l as [|[k' v'] l IH]; intros ND; cbn [assoc].
  - split; [done|]. intros X. by apply elem_of_nil in X.
  - cbn in ND. apply NoDup_cons in ND as [ND1 ND2]. rewrite elem_of_cons.
    case_decide as D.
    + subst k'. split.
      * intros [= ->]. auto.
      * intros [[= ->]|X]; [done|]. exfalso. apply ND1. apply elem_of_list_fmap. by exists (k, v).
    + rewrite IH by done. split; [auto|]. intros [[= -> ->]|X]; done.
Qed.
Lemma assoc_None k l : assoc k l = None <-> k ∉ l.*1.
Proof.
  induction l as [|[k' v'] l IH]; cbn [assoc].
  - split; [|done]. intros _ X. by apply elem_of_nil in X.
  - cbn [fmap list_fmap fst]. rewrite not_elem_of_cons. case_decide as D.
    + subst. split; [done|]. intros [? _]. done.
    + rewrite IH. tauto.
Qed.
Lemma assoc_perm k l l' : NoDup l.*1 -> l ≡ₚ l' -> assoc k l = assoc k l'.
Proof.
  intros ND P. assert (ND' : NoDup l'.*1) by (by rewrite <- P).
  destruct (assoc k l) as [v|] eqn:E.
  - symmetry. apply assoc_Some; [done|]. rewrite <- P. by apply assoc_Some.
  - symmetry. apply assoc_None. rewrite <- P. by apply assoc_None.
Qed.
Lemma del_notin k l : k ∉ l.*1 -> del k l = l.
Proof.
  unfold del. induction l as [|[k' v'] l IH]; [done|]. cbn [fmap list_fmap fst].
  rewrite not_elem_of_cons. intros [Hk Hl].
  rewrite filter_cons_True by (cbn; congruence). by rewrite IH.
Qed.
Lemma del_perm k l l' : l ≡ₚ l' -> del k l ≡ₚ del k l'.
Proof. intros P. unfold del. by rewrite P. Qed.
#[global] Instance del_proper k : Proper ((≡ₚ) ==> (≡ₚ)) (del (K:=K) (V:=V) k).
Proof. intros l l'. apply del_perm. Qed.
Lemma del_app k l l' : del k (l ++ l') = del k l ++ del k l'.
Proof. apply filter_app. Qed.
Lemma del_cons_eq k v l : del k ((k, v) :: l) = del k l.
Proof. unfold del. rewrite filter_cons_False; [done|]. cbn. tauto. Qed.
Lemma del_keys k l : k ∉ (del k l).*1.
Proof.
  intros X. apply elem_of_list_fmap in X as (e & -> & X). apply elem_of_list_filter in X as [X _]. done.
Qed.
Lemma del_sub k l x : x ∈ (del k l).*1 -> x ∈ l.*1.
Proof.
  intros X. apply elem_of_list_fmap in X as (e & -> & X). apply elem_of_list_filter in X as [_ X].
  apply elem_of_list_fmap. eauto.
Qed.
Lemma del_NoDup k l : NoDup l.*1 -> NoDup (del k l).*1.
Proof.
  induction l as [|[k' v'] l IH]; intros ND; [constructor|]. cbn in ND. apply NoDup_cons in ND as [ND1 ND2].
  destruct (decide (k' = k)) as [->|Hne].
  - rewrite del_cons_eq. auto.
  - unfold del. rewrite filter_cons_True by (cbn; done). cbn. apply NoDup_cons. split; [|by apply IH].
    intros X. apply ND1. by apply (del_sub k).
Qed.
Lemma put_NoDup k v l : NoDup l.*1 -> NoDup (put k v l).*1.
Proof. intros ND. unfold put. cbn. apply NoDup_cons. split; [apply del_keys|by apply del_NoDup]. Qed.
Lemma put_perm k v l l' : l ≡ₚ l' -> put k v l ≡ₚ put k v l'.
Proof. intros P. unfold put. constructor. by apply del_perm. Qed.
Lemma del_split k v l1 l2 : NoDup (l1 ++ (k, v) :: l2).*1 -> del k (l1 ++ (k, v) :: l2) = l1 ++ l2.
Proof.
  intros ND. rewrite fmap_app in ND. cbn in ND. apply NoDup_app in ND as (ND1 & ND2 & ND3).
  apply NoDup_cons in ND3 as [ND3 _]. rewrite del_app, del_cons_eq, !del_notin; [done|done|].
  intros X. apply (ND2 _ X). set_solver.
Qed.
Lemma assoc_split k v l1 l2 : NoDup (l1 ++ (k, v) :: l2).*1 -> assoc k (l1 ++ (k, v) :: l2) = Some v.
Proof. intros ND. apply assoc_Some; [done|]. set_solver. Qed.
Lemma assoc_put_eq k v l : assoc k (put k v l) = Some v.
Proof. unfold put. cbn. by rewrite decide_True. Qed.
Lemma assoc_del_eq k l : assoc k (del k l) = None.
Proof. apply assoc_None, del_keys. Qed.
Lemma assoc_del_ne k k' l : k' <> k -> assoc k' (del k l) = assoc k' l.
Proof.
  intros Hne. unfold del. induction l as [|[x v] l IH]; [done|].
  destruct (decide (x = k)) as [->|Hx].
  - rewrite filter_cons_False by (cbn; tauto). rewrite IH. cbn. by rewrite decide_False.
  - rewrite filter_cons_True by (cbn; done). cbn. by rewrite IH.
Qed.
Lemma assoc_put_ne k k' v l : k' <> k -> assoc k' (put k v l) = assoc k' l.
Proof. intros Hne. unfold put. cbn. rewrite decide_False by done. by apply assoc_del_ne. Qed.
Lemma NoDup_keys_NoDup l : NoDup l.*1 -> NoDup l.
Proof. apply NoDup_fmap_1. Qed.
End map_facts.
