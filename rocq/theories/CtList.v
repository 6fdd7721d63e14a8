(** Entries of one bucket. *)
From Coq Require Import NArith Lia.
From stdpp Require Import prelude list numbers.
From Verif Require CapModel.
From Verif Require Import CtModel CtSpec.

Section lst.
Context {K V : Type} `{EqDecision K}.
Implicit Types (l : list (K * V)) (k : K) (v : V).

Lemma find_in k v l : find k l = Some v -> (k, v) ∈ l.
Proof.
  induction l as [|[k0 v0] l IH]; simpl; [done|]. destruct (decide (k0 = k)) as [->|N].
  - intros [= ->]. left.
  - intros E. right. auto.
Qed.
Lemma find_none k v l : find k l = None -> (k, v) ∉ l.
Proof.
  induction l as [|[k0 v0] l IH]; simpl; [intros _; apply not_elem_of_nil|]. destruct (decide (k0 = k)) as [->|N]; [done|].
  intros E X. apply elem_of_cons in X as [[= -> ->]|X]; [done|]. by apply IH.
Qed.
Lemma nd_cons (k0 : K) (v0 : V) l : NoDup (map fst ((k0, v0) :: l)) -> (forall v, (k0, v) ∉ l) /\ NoDup (map fst l).
Proof.
  simpl. intros H. apply list.NoDup_cons in H as [H1 H2].
  split; [|done]. intros v X. apply H1. apply elem_of_list_In, in_map_iff. exists (k0, v). by rewrite <- elem_of_list_In.
Qed.
Lemma in_find k v l : NoDup (map fst l) -> (k, v) ∈ l -> find k l = Some v.
Proof.
  induction l as [|[k0 v0] l IH]; intros ND X; [by apply elem_of_nil in X|].
  apply nd_cons in ND as [N ND]. simpl. apply elem_of_cons in X as [[= -> ->]|X].
  - by rewrite decide_True.
  - destruct (decide (k0 = k)) as [->|_]; [by apply N in X|auto].
Qed.
Lemma change_in k x l k' v' : NoDup (map fst l) ->
  (k', v') ∈ change k x l <-> (k' <> k /\ (k', v') ∈ l) \/ (k' = k /\ is_Some (find k l) /\ x = Some v').
Proof.
  induction l as [|[k0 v0] l IH]; intros ND.
  - simpl. split; [intros X; by apply elem_of_nil in X|]. intros [[_ X]|(_ & [? X] & _)]; [by apply elem_of_nil in X|done].
  - apply nd_cons in ND as [N ND]. simpl. destruct (decide (k0 = k)) as [->|Nk].
    + assert (M : (k', v') ∈ l <-> k' <> k /\ (k', v') ∈ (k, v0) :: l).
      { split.
        - intros X. split; [intros ->; by apply N in X|by right].
        - intros [A X]. apply elem_of_cons in X as [[= -> ->]|X]; done. }
      destruct x as [v|].
      * rewrite elem_of_cons, M. split; [intros [[= -> ->]|X]|intros [X|(-> & _ & [= ->])]]; auto.
      * rewrite M. split; [auto|]. intros [X|(_ & _ & X)]; [done|discriminate].
    + rewrite !elem_of_cons, IH by done. split.
      * intros [[= -> ->]|[[A X]|X]]; auto.
      * intros [[A [[= -> ->]|X]]|X]; auto.
Qed.
Lemma change_keys k x l k' : k' ∈ map fst (change k x l) -> k' ∈ map fst l.
Proof.
  induction l as [|[k0 v0] l IH]; [done|]. simpl. destruct (decide (k0 = k)) as [->|Nk]; simpl.
  - destruct x; simpl; [done|]. by right.
  - rewrite !elem_of_cons. intros [->|X]; auto.
Qed.
Lemma nd_intro (a : K) (l : list K) : a ∉ l -> NoDup l -> NoDup (a :: l).
Proof. intros. by apply NoDup_cons_2. Qed.
Lemma change_nd k x l : NoDup (map fst l) -> NoDup (map fst (change k x l)).
Proof.
  induction l as [|[k0 v0] l IH]; [done|]. simpl. intros ND. apply list.NoDup_cons in ND as [N ND]. 
  destruct (decide (k0 = k)) as [->|Nk].
  - destruct x; [|done]. simpl. by apply nd_intro.
  - simpl. apply nd_intro; [|auto]. intros X. by apply change_keys in X.
Qed.
Lemma app_in k v l k' v' : (k', v') ∈ l ++ [(k, v)] <-> (k', v') ∈ l \/ (k' = k /\ v' = v).
Proof. rewrite elem_of_app, elem_of_list_singleton. split; (intros [X|X]; [by left|right]); [by injection X|by destruct X as [-> ->]]. Qed.
Lemma app_nd k v l : NoDup (map fst l) -> find k l = None -> NoDup (map fst (l ++ [(k, v)])).
Proof.
  intros ND F. rewrite map_app. apply NoDup_app. split; [done|]. split; [|apply NoDup_singleton].
  intros k' X Y. apply elem_of_list_singleton in Y. simpl in Y. subst k'.
  apply elem_of_list_In, in_map_iff in X as ([k0 v0] & E & X). simpl in E. subst k0. apply elem_of_list_In in X.
  by apply (find_none k v0) in F.
Qed.

(** What a critical section does, in terms of the value of the key. *)
Lemma crit_in (o : op K V) l k' v' : NoDup (map fst l) ->
  (k', v') ∈ (crit o l).1 <->
  (k' <> okey o /\ (k', v') ∈ l) \/ (k' = okey o /\ (answer o (find (okey o) l)).1 = Some v').
Proof.
  intros ND.
  assert (Same : forall k, (k', v') ∈ l <-> (k' <> k /\ (k', v') ∈ l) \/ (k' = k /\ find k l = Some v')).
  { intros k. split.
    - intros X. destruct (decide (k' = k)) as [->|]; [right; split; [done|by apply in_find]|auto].
    - intros [[_ X]|[-> X]]; [done|by apply find_in]. }
  destruct o as [k v|k v|k f|k p|k|k f|k f]; simpl.
  - destruct (find k l) as [x|] eqn:F; simpl.
    + etrans; [apply (Same k)|]; rewrite F; done.
    + etrans; [apply app_in|]; etrans; [apply or_iff_compat_r, (Same k)|]; rewrite F; split.
      * intros [[X|[_ X]]|[-> ->]]; [auto|discriminate|auto].
      * intros [X|[-> [= ->]]]; auto.
  - destruct (find k l) as [x|] eqn:F; simpl.
    + rewrite change_in, F by done. split; (intros [X|X]; [by left|right]); destruct X as (-> & X); [|by eauto].
      destruct X as [_ X]. done.
    + etrans; [apply app_in|]; etrans; [apply or_iff_compat_r, (Same k)|]; rewrite F; split.
      * intros [[X|[_ X]]|[-> ->]]; [auto|discriminate|auto].
      * intros [X|[-> [= ->]]]; auto.
  - destruct (find k l) as [x|] eqn:F; simpl.
    + rewrite change_in, F by done. split; (intros [X|X]; [by left|right]); destruct X as (-> & X); [|by eauto].
      destruct X as [_ X]. done.
    + etrans; [apply (Same k)|]; rewrite F; done.
  - destruct (find k l) as [x|] eqn:F; simpl; [|by (etrans; [apply (Same k)|]; rewrite F)].
    destruct (p x); simpl; [|by (etrans; [apply (Same k)|]; rewrite F)].
    rewrite change_in by done. split; [|intros [X|[_ X]]; [auto|discriminate]].
    intros [X|(_ & _ & X)]; [auto|discriminate].
  - apply Same.
  - destruct (find k l) as [x|] eqn:F; simpl.
    + rewrite change_in, F by done. split; (intros [X|X]; [by left|right]); destruct X as (-> & X); [|by eauto].
      destruct X as [_ X]. done.
    + destruct (f None) as [v|] eqn:Fn; simpl.
      * etrans; [apply app_in|]; etrans; [apply or_iff_compat_r, (Same k)|]; rewrite F; split.
        -- intros [[X|[_ X]]|[-> ->]]; [auto|discriminate|auto].
        -- intros [X|[-> [= ->]]]; auto.
      * etrans; [apply (Same k)|]; rewrite F; done.
  - destruct (find k l) as [x|] eqn:F; simpl.
    + rewrite change_in, F by done. split; (intros [X|X]; [by left|right]); destruct X as (-> & X); [|by eauto].
      destruct X as [_ X]. done.
    + etrans; [apply (Same k)|]; rewrite F; done.
Qed.
Lemma crit_res (o : op K V) l : (crit o l).2 = (answer o (find (okey o) l)).2.
Proof.
  destruct o as [k v|k v|k f|k p|k|k f|k f]; simpl; destruct (find k l) as [x|] eqn:F; simpl; try done.
  by destruct (p x).
Qed.
Lemma crit_nd (o : op K V) l : NoDup (map fst l) -> NoDup (map fst (crit o l).1).
Proof.
  intros ND. destruct o as [k v|k v|k f|k p|k|k f|k f]; simpl; try destruct (find k l) as [x|] eqn:F; simpl;
    auto using change_nd, app_nd.
  - destruct (p x); simpl; auto using change_nd.
  - destruct (f None); simpl; auto using app_nd.
Qed.
Lemma visit_in f l k v : (k, v) ∈ visit (Some f) l <-> exists v0, (k, v0) ∈ l /\ f k v0 = Some v.
Proof.
  simpl. rewrite elem_of_list_omap. split.
  - intros ([k0 v0] & X & E). simpl in E. destruct (f k0 v0) eqn:F; [|discriminate]. injection E as -> ->. eauto.
  - intros (v0 & X & E). exists (k, v0). simpl. by rewrite E.
Qed.
Lemma visit_nd f l : NoDup (map fst l) -> NoDup (map fst (visit f l)).
Proof.
  destruct f as [f|]; [|done]. induction l as [|[k0 v0] l IH]; [done|]. simpl. intros ND. apply list.NoDup_cons in ND as [N ND].
  destruct (f k0 v0) as [v|]; simpl; [|auto]. apply nd_intro; [|auto].
  intros X. apply N. apply elem_of_list_In, in_map_iff in X as ([k1 v1] & E & X). simpl in E. subst k1.
  apply elem_of_list_In in X. apply (visit_in f) in X as (v2 & X & _).
  apply elem_of_list_In, in_map_iff. exists (k0, v2). by rewrite <- elem_of_list_In.
Qed.
End lst.
