(** What a round trip of a HashCache through serde preserves. *)
From Coq Require Import NArith Lia.
From stdpp Require Import numbers prelude list.
From Verif Require CapModel CapSpec CapFacts CapThms.
From Verif Require Import LruModel BucketModel BucketSpec BucketFacts BucketOps BucketOps2 BucketOps3 BucketRunFacts
  MapSpec MapFacts TableModel TableSpec TableFacts TableReloc TableResize TableHouse TableAccess TableOps
  IterSpec TableIter MapFacts2 MapModel MapRef MapRunFacts MapWhole CacheModel CacheSpec CacheFacts CacheOps CacheRunFacts CacheLru CacheFix CacheThms.

Section serde.
Context {K V : Type} `{EqDecision K} (hash : K -> N) (Hh : forall k, (hash k < 2 ^ 64)%N).
Implicit Types (tb : table K V) (m l : list (K * V)).

Lemma crowd_length tb lo m (x : K * V) : crowd hash tb lo m x -> 32 <= length m.
Proof.
  intros (ks & ND & Ln & _ & A). rewrite <- (fmap_length fst m). etrans; [exact Ln|].
  apply submseteq_length, NoDup_submseteq; [done|]. intros y Hy. by apply A.
Qed.

(** New keys, no more than 32 entries in all: every one of them stays. *)
Lemma put_all_few sg l : forall tb m rel, holds hash CACHE tb m rel -> NoDup (m ++ l).*1 -> length (m ++ l) <= 32 ->
  exists tb', put_all sg hash tb l = Some tb' /\ exists m' rel', holds hash CACHE tb' m' rel' /\ m' ≡ₚ m ++ l.
Proof.
  induction l as [|[k v] l IH]; intros tb m rel H ND Ln; cbn [put_all].
  - exists tb. split; [done|]. exists m, rel. split; [done|]. by rewrite app_nil_r.
  - cbn [fst snd]. destruct (put_sync_spec hash Hh sg tb k v m) as (tb1 & out & E & X); [apply H|apply H|].
    rewrite E, obind. cbn [fst snd].
    assert (A : assoc k m = None).
    { apply assoc_None. rewrite fmap_app, fmap_cons in ND. apply NoDup_app in ND as (_ & N & _). intros I. apply (N k I). by left. }
    rewrite A in X. destruct X as (ev & -> & S & Ev).
    destruct ev as [x|].
    { destruct (Ev _ eq_refl) as (_ & tb2 & lo & C & _). apply crowd_length in C. rewrite app_length in Ln. cbn in Ln. lia. }
    cbn [without returned_put] in *.
    assert (H1 : holds hash CACHE (release tb1 []) ((k, v) :: m) (rel ++ [])).
    { apply (holds_step hash CACHE tb _ m rel ((k, v) :: m) []); [done| |done]. by apply release_step. }
    assert (P : ((k, v) :: m) ++ l ≡ₚ m ++ (k, v) :: l) by (cbn; by rewrite Permutation_middle).
    destruct (IH _ _ _ H1) as (tb' & E' & m' & rel' & H' & P').
    + by rewrite P.
    + by rewrite P.
    + exists tb'. split; [done|]. exists m', rel'. split; [done|]. by rewrite P', P.
Qed.

Lemma lC36_round_trip sg mn mx (os : list (cop K V)) : exists n vs, emitted sg hash mn mx os = Some (n, vs) /\
  NoDup vs.*1 /\ (forall k v, (k, v) ∈ vs <-> look sg hash mn mx os k = Some v) /\
  forall k, exists r, look_copy sg hash mn mx os k = Some r /\ (r = None \/ r = look sg hash mn mx os k) /\
    (length vs <= 32 -> r = look sg hash mn mx os k).
Proof.
  destruct (run_cache_spec hash Hh sg mn mx os) as (tb & outs & E & C & H & _).
  set (m := contents [] os outs) in *.
  assert (LS : forall k', look sg hash mn mx os k' = assoc k' m) by (intros; by eapply look_spec).
  assert (ND : NoDup m.*1) by (by apply (wf_nodup hash CACHE tb); apply H).
  destruct (iter_sync_spec hash Hh CACHE sg tb (fun s e => (s ++ [e], true)) [] (hd_wf _ _ _ _ _ H)) as (tb1 & vs & Ei & P & S).
  rewrite (hd_ents _ _ _ _ _ H) in P.
  rewrite visit_collect in Ei.
  assert (Em : emitted sg hash mn mx os = Some ((CapModel.capacity_range (maxcap tb) (mst tb)).2, vs)).
  { unfold emitted. rewrite E, obind. unfold cserialize. cbn [fst]. by rewrite Ei, !obind. }
  eexists _, vs. split; [exact Em|]. split; [by rewrite P|].
  assert (I : forall k v, (k, v) ∈ vs <-> assoc k m = Some v) by (intros k v; rewrite P; symmetry; by apply assoc_Some).
  split; [intros k v; by rewrite LS, I|].
  set (n := (CapModel.capacity_range (maxcap tb) (mst tb)).2) in *.
  destruct (new_cache_spec (V:=V) hash 0 (N.min n CSERDE_MAX_CAPACITY)) as (tb0 & E0 & H0 & _).
  assert (G : exists tb2 m2 rel2, cdeserialize sg hash (Some n) vs = Some tb2 /\ holds hash CACHE tb2 m2 rel2 /\
    (forall k v, assoc k m2 = Some v -> assoc k m = Some v) /\ (length vs <= 32 -> m2 ≡ₚ m)).
  { unfold cdeserialize. rewrite E0, obind.
    destruct (put_all_spec hash Hh sg vs tb0 [] [] H0) as (tb2 & m2 & rel2 & E2 & H2 & P2). cbn [app] in P2.
    exists tb2, m2, rel2. split; [done|]. split; [done|].
    assert (ND2 : NoDup m2.*1) by (by apply (wf_nodup hash CACHE tb2); apply H2). split.
    - intros k v A. apply I. rewrite <- P2. apply elem_of_app. right. by apply assoc_Some.
    - intros Ln. destruct (put_all_few sg vs tb0 [] [] H0) as (tb3 & E3 & m3 & rel3 & H3 & P3); [cbn [app]; by rewrite P|done|].
      cbn [app] in P3. assert (tb3 = tb2) as -> by congruence.
      rewrite <- P, <- P3. rewrite <- (hd_ents _ _ _ _ _ H2). apply H3. }
  destruct G as (tb2 & m2 & rel2 & E2 & H2 & Sub & Ex).
  assert (ND2 : NoDup m2.*1) by (by apply (wf_nodup hash CACHE tb2); apply H2).
  intros k. destruct (read_spec hash Hh CACHE sg tb2 k m2) as (tb4 & q & E4 & _ & A & _); [done|apply H2|apply H2|].
  exists (option_map snd q). split; [|split].
  - unfold look_copy. rewrite Em, obind. cbn [fst snd]. rewrite E2, obind, E4. by rewrite obind.
  - rewrite A, LS. destruct (assoc k m2) as [v|] eqn:A2; [|by left]. right. symmetry. by apply Sub.
  - intros Ln. rewrite A, LS. destruct (assoc k m2) as [v|] eqn:A2; [symmetry; by apply Sub|].
    destruct (assoc k m) as [v|] eqn:A1; [|done]. apply assoc_None in A2. destruct A2.
    rewrite (Ex Ln). apply assoc_Some in A1; [|done]. apply elem_of_list_fmap. by exists (k, v).
Qed.
End serde.
