(** Whole-map operations: clone, comparison, collection, serialization. *)
From Coq Require Import NArith Lia.
From stdpp Require Import numbers prelude list.
From Verif Require CapModel CapSpec CapFacts CapThms.
From Verif Require Import LruModel BucketModel BucketSpec BucketFacts BucketOps BucketOps2 BucketOps3
  MapSpec MapFacts BucketRun BucketRunFacts TableModel TableSpec TableFacts TableReloc TableHouse TableResize TableAccess
  TableOps IterSpec TableIter MapModel MapRef MapFacts2 MapRunFacts.

Section whole.
Context {K V : Type} `{EqDecision K}.
Context (hash : K -> N).
Context (Hh : forall k, (hash k < 2 ^ 64)%N).
Implicit Types (tb : table K V) (m : list (K * V)).

Lemma assoc_ext m m' : NoDup m.*1 -> NoDup m'.*1 -> (forall k, assoc k m = assoc k m') -> m ≡ₚ m'.
Proof.
  intros N1 N2 A. apply NoDup_Permutation; [by apply NoDup_keys_NoDup|by apply NoDup_keys_NoDup|].
  intros [k v]. rewrite <- !assoc_Some by done. by rewrite A.
Qed.
Lemma assoc_app k m m' : assoc k (m ++ m') = match assoc k m with Some v => Some v | None => assoc k m' end.
Proof. induction m as [|[k' v] m IH]; [done|]. cbn [app assoc]. by case_decide. Qed.

(** Collecting. *)
Lemma upsert_all_spec sg (l : list (K * V)) : forall tb m rel, holds hash MAP tb m rel ->
  exists tb' m' rel', upsert_all sg hash tb l = Some tb' /\ holds hash MAP tb' m' rel' /\
    (forall k, assoc k m' = assoc k (rev l ++ m)) /\ rel' ++ m' ≡ₚ rel ++ m ++ l.
Proof.
  induction l as [|[k v] l IH]; intros tb m rel H; cbn [upsert_all fst snd].
  - exists tb, m, rel. rewrite app_nil_r. done.
  - assert (ND : NoDup m.*1) by (by apply (wf_nodup hash MAP tb); apply H).
    destruct (upsert_sync_spec hash Hh MAP sg tb k v m) as (tb1 & E & S); [done|apply H|apply H|].
    rewrite E, obind. cbn [fst snd].
    set (d := match assoc k m with Some v0 => [(k, v0)] | None => [] end).
    assert (S' : step hash MAP tb (release tb1 d) (put k v m) d) by (by apply release_step).
    destruct (IH _ _ _ (holds_step hash MAP tb _ m rel _ d d H S' ltac:(done))) as (tb' & m' & rel' & E' & H' & A & P).
    exists tb', m', rel'. split; [done|]. split; [done|]. split.
    + intros k'. rewrite A. cbn [rev]. rewrite <- app_assoc, !assoc_app. destruct (assoc k' (rev l)); [done|].
      cbn [app assoc]. case_decide as D.
      * subst. apply assoc_put_eq.
      * by rewrite assoc_put_ne by done.
    + rewrite P. unfold put. rewrite <- (app_assoc rel). apply Permutation_app_head.
      assert (Pd : d ++ del k m ≡ₚ m).
      { unfold d. destruct (assoc k m) as [v0|] eqn:Em.
        - apply assoc_Some in Em; [|done]. apply elem_of_list_split in Em as (l1 & l2 & ->).
          rewrite (del_split k v0) by done. cbn [app]. apply Permutation_middle.
        - apply assoc_None in Em. by rewrite del_notin. }
      rewrite <- Pd at 2. rewrite <- !app_assoc. apply Permutation_app_head. cbn [app].
      apply Permutation_middle.
Qed.
Lemma insert_all_spec sg (l : list (K * V)) : forall tb m rel, holds hash MAP tb m rel ->
  exists tb' m' rel', insert_all sg hash tb l = Some tb' /\ holds hash MAP tb' m' rel' /\
    (forall k, assoc k m' = assoc k (m ++ l)) /\ rel' ++ m' ≡ₚ rel ++ m ++ l.
Proof.
  induction l as [|[k v] l IH]; intros tb m rel H; cbn [insert_all fst snd].
  - exists tb, m, rel. rewrite app_nil_r. done.
  - assert (ND : NoDup m.*1) by (by apply (wf_nodup hash MAP tb); apply H).
    destruct (insert_sync_spec hash Hh MAP sg tb k v m) as (tb1 & E & S); [done|apply H|apply H|].
    rewrite E, obind. cbn [fst snd]. destruct (assoc k m) as [v0|] eqn:Em.
    + assert (S' : step hash MAP tb (release tb1 [(k, v)]) m [(k, v)]) by (by apply release_step).
      destruct (IH _ _ _ (holds_step hash MAP tb _ m rel _ _ _ H S' ltac:(done))) as (tb' & m' & rel' & E' & H' & A & P).
      exists tb', m', rel'. split; [done|]. split; [done|]. split.
      * intros k'. rewrite A, !assoc_app. destruct (assoc k' m) eqn:Ek; [done|].
        cbn [assoc]. case_decide as D; [congruence|done].
      * rewrite P, <- (app_assoc rel). apply Permutation_app_head. cbn [app]. apply Permutation_middle.
    + rewrite release_nil.
      destruct (IH _ _ _ (holds_step hash MAP tb _ m rel _ [] [] H S ltac:(done))) as (tb' & m' & rel' & E' & H' & A & P).
      exists tb', m', rel'. split; [done|]. split; [done|]. split.
      * intros k'. rewrite A, !assoc_app. unfold put. cbn [assoc]. case_decide as D.
        -- subst. by rewrite Em.
        -- by rewrite assoc_del_ne by done.
      * rewrite P, app_nil_r. apply Permutation_app_head. unfold put. rewrite del_notin by (by apply assoc_None).
        cbn [app]. apply Permutation_middle.
Qed.

(** Cloning. *)
Lemma clone_visit sg (vs : list (K * V)) : forall (c0 : table K V) m0, holds hash MAP c0 m0 [] -> NoDup (vs ++ m0).*1 ->
  exists c1, visit (fun s (e : K * V) => (c ← s; q ← insert_sync MAP sg hash c e.1 e.2; Some q.1, true)) (Some c0) vs
      = (Some c1, true) /\ holds hash MAP c1 (vs ++ m0) [].
Proof.
  induction vs as [|[k v] vs IH]; intros c0 m0 H ND; cbn [visit fst snd]; [eauto|].
  cbn in ND. apply NoDup_cons in ND as [Nk ND].
  destruct (insert_sync_spec hash Hh MAP sg c0 k v m0) as (c1 & E & S); [done|apply H|apply H|].
  assert (Nm : k ∉ m0.*1) by (rewrite fmap_app in Nk; set_solver).
  rewrite (proj2 (assoc_None k m0) Nm) in E, S. rewrite obind, E, obind. cbn [fst snd].
  destruct (IH c1 (put k v m0)) as (c2 & E2 & H2).
  - apply (holds_step0 hash MAP c0 c1 m0 []); done.
  - unfold put. rewrite (del_notin k m0 Nm). rewrite <- Permutation_middle. cbn. by apply NoDup_cons.
  - exists c2. split; [done|]. eapply holds_perm; [exact H2| |done].
    unfold put. rewrite (del_notin k m0 Nm). symmetry. apply Permutation_middle.
Qed.
Lemma clone_spec sg tb m rel : holds hash MAP tb m rel ->
  exists tb' c, clone sg hash tb = Some (tb', c) /\ holds hash MAP tb' m rel /\ holds hash MAP c m [].
Proof.
  intros H. unfold clone. destruct (new_map_spec (V:=V) hash (capacity tb)) as (c0 & E0 & H0 & _). rewrite E0, obind.
  set (g := fun (s : option (table K V)) (e : K * V) => _).
  destruct (iter_sync_spec hash Hh MAP sg tb g (Some c0) (hd_wf _ _ _ _ _ H)) as (tb' & vs & E & P & S).
  rewrite E, obind. cbn [fst snd].
  assert (Pm : vs ≡ₚ m) by (rewrite P; apply H).
  destruct (clone_visit sg vs c0 [] H0) as (c1 & E1 & H1).
  { rewrite app_nil_r, P. apply (wt_keys _ _ _ (hd_wf _ _ _ _ _ H)). }
  fold g in E1. rewrite E1. cbn [fst snd]. rewrite obind. exists tb', c1. split; [done|]. split.
  - by apply (holds_same hash MAP tb tb').
  - eapply holds_perm; [exact H1|by rewrite app_nil_r|done].
Qed.

(** Serialization. *)
Lemma serialize_spec sg tb m rel : holds hash MAP tb m rel ->
  exists tb' vs, serialize sg hash tb = Some (tb', (N.min (N.of_nat (length vs)) usize_max, vs)) /\
    holds hash MAP tb' m rel /\ vs ≡ₚ m.
Proof.
  intros H. unfold serialize.
  destruct (len_spec hash Hh MAP sg tb m) as (tb1 & E & S); [done|apply H|apply H|]. rewrite E, obind. cbn [fst snd].
  assert (H1 : holds hash MAP tb1 m (rel ++ [])) by (by apply (holds_step0 hash MAP tb tb1 m rel)). rewrite app_nil_r in H1.
  destruct (iter_sync_spec hash Hh MAP sg tb1 (fun s e => (s ++ [e], true)) [] (hd_wf _ _ _ _ _ H1)) as (tb2 & vs & E2 & P & S2).
  rewrite E2, obind, visit_collect. cbn [fst snd app]. exists tb2, vs.
  assert (Pm : vs ≡ₚ m) by (rewrite P; apply H1).
  split; [by rewrite (Permutation_length Pm)|]. split; [by apply (holds_same hash MAP tb1)|done].
Qed.
End whole.

Section eq.
Context {K V : Type} `{EqDecision K} `{EqDecision V}.
Implicit Types (tb : table K V) (m : list (K * V)).

Lemma same_in_visit (hash : K -> N) (Hh : forall k, (hash k < 2 ^ 64)%N) sg (vs : list (K * V)) :
  forall tb m rel, holds hash MAP tb m rel ->
  exists tb' r, visit (same_in sg hash) (Some tb) vs = (Some tb', r) /\ holds hash MAP tb' m rel /\
    (r = true <-> forall k v, (k, v) ∈ vs -> assoc k m = Some v).
Proof.
  induction vs as [|[k v] vs IH]; intros tb m rel H.
  - exists tb, true. split; [done|]. split; [done|]. split; [|done]. intros _ k v X. by apply elem_of_nil in X.
  - destruct (read_spec hash Hh MAP sg tb k m) as (tb1 & q & E & S & A & Ke); [done|apply H|apply H|].
    assert (H1 : holds hash MAP tb1 m (rel ++ [])) by (by apply (holds_step0 hash MAP tb tb1 m rel)). rewrite app_nil_r in H1.
    assert (Eq : same_in sg hash (Some tb) (k, v) = (Some tb1, bool_decide (assoc k m = Some v))).
    { unfold same_in. cbn [fst snd]. rewrite E. cbn [fst snd]. by rewrite A. }
    cbn [visit]. rewrite Eq. cbn [fst snd].
    destruct (bool_decide_reflect (assoc k m = Some v)) as [D|D].
    + destruct (IH tb1 m rel H1) as (tb2 & r & E2 & H2 & R). exists tb2, r. split; [done|]. split; [done|].
      rewrite R. split; intros X k' v' Hin.
      * apply elem_of_cons in Hin as [[= -> ->]|Hin]; [done|by apply X].
      * apply X. by apply elem_of_cons; right.
    + exists tb1, false. split; [done|]. split; [done|]. split; [done|]. intros X. exfalso. apply D. apply X. by left.
Qed.
Lemma eq_sync_spec (hash1 hash2 : K -> N) (Hh1 : forall k, (hash1 k < 2 ^ 64)%N) (Hh2 : forall k, (hash2 k < 2 ^ 64)%N)
  sg tb1 tb2 m1 m2 r1 r2 : holds hash1 MAP tb1 m1 r1 -> holds hash2 MAP tb2 m2 r2 ->
  exists tb1' tb2' r, eq_sync sg hash1 hash2 tb1 tb2 = Some (tb1', tb2', r) /\
    holds hash1 MAP tb1' m1 r1 /\ holds hash2 MAP tb2' m2 r2 /\
    (r = true <-> forall k, assoc k m1 = assoc k m2).
Proof.
  intros H1 H2. unfold eq_sync.
  assert (N1 : NoDup m1.*1) by (apply (wf_nodup hash1 MAP tb1); apply H1).
  assert (N2 : NoDup m2.*1) by (apply (wf_nodup hash2 MAP tb2); apply H2).
  destruct (iter_sync_spec hash1 Hh1 MAP sg tb1 (same_in sg hash2) (Some tb2) (hd_wf _ _ _ _ _ H1)) as (tb1' & vs & E & P & S).
  rewrite E, obind. cbn [fst snd]. rewrite (hd_ents _ _ _ _ _ H1) in P.
  destruct (same_in_visit hash2 Hh2 sg vs tb2 m2 r2 H2) as (tb2' & r & Ev & H2' & R). rewrite Ev. cbn [fst snd]. rewrite obind.
  assert (H1' : holds hash1 MAP tb1' m1 r1) by (by apply (holds_same hash1 MAP tb1)).
  assert (R1 : r = true <-> forall k v, assoc k m1 = Some v -> assoc k m2 = Some v).
  { rewrite R. split; intros X k v Hk.
    - apply X. rewrite P. by apply assoc_Some.
    - apply X. apply assoc_Some; [done|]. by rewrite <- P. }
  destruct r.
  - destruct (iter_sync_spec hash2 Hh2 MAP sg tb2' (same_in sg hash1) (Some tb1') (hd_wf _ _ _ _ _ H2')) as (tb2'' & vs2 & E2 & P2 & S2).
    rewrite E2, obind. cbn [fst snd]. rewrite (hd_ents _ _ _ _ _ H2') in P2.
    destruct (same_in_visit hash1 Hh1 sg vs2 tb1' m1 r1 H1') as (tb1'' & r & Ev2 & H1'' & R2). rewrite Ev2. cbn [fst snd]. rewrite obind.
    exists tb1'', tb2'', r. split; [done|]. split; [done|]. split; [by apply (holds_same hash2 MAP tb2')|].
    rewrite R2. split.
    + intros X k. destruct (assoc k m1) as [v|] eqn:A1.
      * symmetry. by apply R1.
      * destruct (assoc k m2) as [v|] eqn:A2; [|done]. rewrite <- A1. apply X. rewrite P2. by apply assoc_Some.
    + intros X k v Hv. rewrite X. apply assoc_Some; [done|]. by rewrite <- P2.
  - exists tb1', tb2', false. split; [done|]. split; [done|]. split; [done|]. split; [done|].
    intros X. exfalso. assert (false = true) by (apply R1; intros k v; by rewrite X). done.
Qed.
End eq.
