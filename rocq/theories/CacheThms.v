(** The property theorems about HashCache, put together from the lemmas. *)
From Coq Require Import NArith Lia.
From stdpp Require Import numbers prelude list.
From Verif Require CapModel CapSpec CapFacts CapThms.
From Verif Require Import LruModel BucketModel BucketSpec BucketFacts BucketOps BucketOps2 BucketOps3 BucketRunFacts
  MapSpec MapFacts TableModel TableSpec TableFacts TableReloc TableResize TableHouse TableAccess TableOps
  IterSpec TableIter MapFacts2 MapModel MapRef MapRunFacts MapWhole CacheModel CacheSpec CacheFacts CacheOps CacheRunFacts CacheLru CacheFix.

Section thms.
Context {K V : Type} `{EqDecision K}.
Section one_hash.
Context (hash : K -> N) (Hh : forall k, (hash k < 2 ^ 64)%N).
Implicit Types (tb : table K V) (m : list (K * V)).

(** ** C21 *)
Lemma lC21_cache_is_lru sg mn mx (os : list (cop K V)) : (0 < mn)%N -> (mx <= mn)%N ->
  exists tb outs, run_cache sg hash mn mx os = Some (tb, outs) /\
    Forall2 agree outs (lru_run hash (cap_after sg hash mn mx (@nil (cop K V))) [] os).
Proof.
  intros P Le. destruct (new_cache_spec (V:=V) hash mn mx) as (tb0 & E & H & _).
  pose proof (new_fixed hash mn mx tb0 P Le E) as F.
  destruct (fixed_run hash Hh sg os tb0 [] [] F H) as (tb & outs & R & A).
  exists tb, outs. unfold run_cache. rewrite E, obind. split; [done|].
  rewrite (cap_after_spec hash sg mn mx [] tb0 []) by (unfold run_cache; by rewrite E, obind).
  destruct (fx_cur _ _ _ F) as (c & C & Sz & _). unfold capacity. by rewrite C, Sz.
Qed.

(** ** C22 *)
Lemma lC22_cache_history sg mn mx (os : list (cop K V)) :
  exists tb outs, run_cache sg hash mn mx os = Some (tb, outs) /\ conforms [] os outs.
Proof. destruct (run_cache_spec hash Hh sg mn mx os) as (tb & outs & E & C & _). by exists tb, outs. Qed.

Lemma crowding_crowded sg mn mx os tb outs m rel k x : run_cache sg hash mn mx os = Some (tb, outs) ->
  holds hash CACHE tb m rel -> crowding hash tb m k x -> crowded sg hash mn mx os (hash k) x.1.
Proof.
  intros E H (tb1 & l & (ks & ND & Ln & Hx & A) & Lk & Lo).
  exists ks. split; [done|]. split; [done|]. split; [done|]. intros y Hy. destruct (A y Hy) as [Hm Ly]. split.
  - rewrite (look_spec hash Hh sg mn mx os tb outs m rel y E H). intros N. by apply assoc_None in N.
  - rewrite (cap_after_spec hash sg mn mx os tb outs E). unfold capacity.
    destruct (cur tb) as [c|] eqn:C.
    + pose proof (wf_tab_cur _ _ _ _ (hd_wf _ _ _ _ _ H) C) as (Wc & _).
      rewrite !(bucket_of_index hash c _ Wc). rewrite (Lo c C y Ly), (Lo c C k Lk). done.
    + unfold bucket_of. by rewrite !N.mul_0_r.
Qed.

Lemma lC22_put_absent sg mn mx (os : list (cop K V)) k v : look sg hash mn mx os k = None ->
  exists ev, cafter sg hash mn mx os (CPut k v) = Some (COPut (inl ev)) /\
    look sg hash mn mx (os ++ [CPut k v]) k = Some v /\
    match ev with
    | None => forall k', k' <> k -> look sg hash mn mx (os ++ [CPut k v]) k' = look sg hash mn mx os k'
    | Some (k1, v1) => k1 <> k /\ look sg hash mn mx os k1 = Some v1 /\
        look sg hash mn mx (os ++ [CPut k v]) k1 = None /\
        (forall k', k' <> k -> k' <> k1 -> look sg hash mn mx (os ++ [CPut k v]) k' = look sg hash mn mx os k') /\
        crowded sg hash mn mx os (hash k) k1
    end.
Proof.
  intros L. destruct (run_cache_spec hash Hh sg mn mx os) as (tb & outs & E & C & H & _).
  set (m := contents [] os outs) in *.
  assert (LS : forall k', look sg hash mn mx os k' = assoc k' m) by (intros; by eapply look_spec).
  rewrite LS in L.
  destruct (cstep_spec hash Hh sg tb m _ (CPut k v) H) as (tb' & out & E1 & A & H1 & _ & _ & Cr).
  cbn [allowed next drops] in A, H1. rewrite L in A. destruct A as (ev & -> & Ev). rewrite app_nil_r in H1.
  exists ev. split; [unfold cafter; by rewrite E, obind; cbn [fst]; rewrite E1, obind|].
  assert (E2 : run_cache sg hash mn mx (os ++ [CPut k v]) = Some (tb', outs ++ [COPut (inl ev)])).
  { unfold run_cache in *. destruct (new_cache mn mx); [|done]. rewrite !obind in *. rewrite crun_app, E, obind. cbn [fst snd crun].
    by rewrite E1, !obind. }
  assert (LS1 : forall k', look sg hash mn mx (os ++ [CPut k v]) k' = assoc k' ((k, v) :: without ev m)) by (intros; by eapply look_spec).
  split; [rewrite LS1; cbn [assoc]; by rewrite decide_True|].
  assert (ND : NoDup m.*1) by (by apply (wf_nodup hash CACHE tb); apply H).
  destruct ev as [[k1 v1]|].
  - pose proof (Ev _ eq_refl) as Hin. assert (A1 : assoc k1 m = Some v1) by (by apply assoc_Some).
    assert (N1 : k1 <> k) by congruence.
    split; [done|]. split; [by rewrite LS|]. split; [|split].
    + rewrite LS1. cbn [assoc without fst]. rewrite decide_False by done. apply assoc_del_eq.
    + intros k' Hk Hk1. rewrite LS1, LS. cbn [assoc without fst]. rewrite decide_False by done. by rewrite assoc_del_ne.
    + change k1 with (k1, v1).1. eapply crowding_crowded; [exact E|exact H|].
      apply (Cr (k1, v1) k v eq_refl). by left.
  - intros k' Hk. rewrite LS1, LS. cbn [assoc without]. by rewrite decide_False.
Qed.
Lemma lC22_put_present sg mn mx (os : list (cop K V)) k v : look sg hash mn mx os k <> None ->
  cafter sg hash mn mx os (CPut k v) = Some (COPut (inr (k, v))) /\
  forall k', look sg hash mn mx (os ++ [CPut k v]) k' = look sg hash mn mx os k'.
Proof.
  intros L. destruct (run_cache_spec hash Hh sg mn mx os) as (tb & outs & E & C & H & _).
  set (m := contents [] os outs) in *.
  assert (LS : forall k', look sg hash mn mx os k' = assoc k' m) by (intros; by eapply look_spec).
  rewrite LS in L.
  destruct (cstep_spec hash Hh sg tb m _ (CPut k v) H) as (tb' & out & E1 & A & H1 & _).
  cbn [allowed next drops] in A, H1. destruct (assoc k m); [|done]. subst out. rewrite app_nil_r in H1.
  split; [unfold cafter; by rewrite E, obind; cbn [fst]; rewrite E1, obind|].
  assert (E2 : run_cache sg hash mn mx (os ++ [CPut k v]) = Some (tb', outs ++ [COPut (inr (k, v))])).
  { unfold run_cache in *. destruct (new_cache mn mx); [|done]. rewrite !obind in *. rewrite crun_app, E, obind. cbn [fst snd crun].
    by rewrite E1, !obind. }
  intros k'. rewrite LS. by eapply look_spec.
Qed.

(** ** C33 *)
Lemma lC33_cache_released_once sg mn mx (os : list (cop K V)) : Forall cin_place os ->
  exists tb outs es, run_cache sg hash mn mx os = Some (tb, outs) /\ drop_table CACHE tb = Some es /\
    concat (zip_with cgiven os outs) ≡ₚ concat (zip_with creturned os outs) ++ es.
Proof.
  intros I. destruct (run_cache_spec hash Hh sg mn mx os) as (tb & outs & E & C & H & _).
  destruct (drop_table_spec hash Hh CACHE tb _ _ ltac:(done) H) as (es & Ed & P).
  exists tb, outs, es. split; [done|]. split; [done|]. rewrite P.
  pose proof (run_account os [] outs ltac:(constructor) C I) as A. by rewrite app_nil_r in A.
Qed.
Lemma put_all_spec sg (l : list (K * V)) : forall tb m rel, holds hash CACHE tb m rel ->
  exists tb' m' rel', put_all sg hash tb l = Some tb' /\ holds hash CACHE tb' m' rel' /\ rel' ++ m' ≡ₚ rel ++ m ++ l.
Proof.
  induction l as [|[k v] l IH]; intros tb m rel H; cbn [put_all].
  - exists tb, m, rel. split; [done|]. split; [done|]. by rewrite app_nil_r.
  - cbn [fst snd]. pose proof (hd_ents _ _ _ _ _ H) as P.
    assert (ND : NoDup m.*1) by (by apply (wf_nodup hash CACHE tb); apply H).
    destruct (put_sync_spec hash Hh sg tb k v m) as (tb1 & out & E & X); [apply H|done|]. rewrite E, obind. cbn [fst snd].
    assert (G : exists m1, holds hash CACHE (release tb1 (returned_put out)) m1 (rel ++ returned_put out) /\
      returned_put out ++ m1 ≡ₚ m ++ [(k, v)]).
    { assert (R : forall m1, step hash CACHE tb tb1 m1 [] -> holds hash CACHE (release tb1 (returned_put out)) m1 (rel ++ returned_put out)).
      { intros m1 S. apply (holds_step hash CACHE tb _ m rel m1 (returned_put out)); [done| |done]. by apply release_step. }
      destruct (assoc k m) as [v0|].
      - destruct X as [-> S]. exists m. split; [by apply R|]. cbn [returned_put]. by rewrite Permutation_app_comm.
      - destruct X as (ev & -> & S & Ev). exists ((k, v) :: without ev m). split; [by apply R|].
        destruct ev as [[k1 v1]|]; cbn [returned_put without fst app].
        + destruct (Ev _ eq_refl) as [Hin _]. assert (A1 : assoc k1 m = Some v1) by (by apply assoc_Some).
          rewrite (del_one k1 v1 m ND A1) at 2. cbn [app].
          change ((k1, v1) :: [(k, v)] ++ del k1 m ≡ₚ (k1, v1) :: del k1 m ++ [(k, v)]).
          by rewrite (Permutation_app_comm (del k1 m)).
        + by rewrite (Permutation_app_comm m). }
    destruct G as (m1 & H1 & P1). destruct (IH _ _ _ H1) as (tb' & m' & rel' & E' & H' & P'). exists tb', m', rel'.
    split; [done|]. split; [done|]. rewrite P'. rewrite <- !app_assoc. apply Permutation_app_head.
    rewrite app_assoc, P1. by rewrite <- app_assoc.
Qed.
Lemma lC33_cache_collect sg hint (l : list (K * V)) : exists tb es, cache_from_iter sg hash hint l = Some tb /\
  drop_table CACHE tb = Some es /\ es ≡ₚ l.
Proof.
  unfold cache_from_iter. destruct (CapThms.lC06_size_hint hint.1 hint.2) as (c & Ec & _). rewrite Ec, obind.
  destruct (new_cache_spec (V:=V) hash hint.1 c) as (tb0 & E0 & H0 & _). rewrite E0, obind.
  destruct (put_all_spec sg l tb0 [] [] H0) as (tb & m' & rel' & E & H & P).
  destruct (drop_table_spec hash Hh CACHE tb _ _ ltac:(done) H) as (es & Ed & Pe). exists tb, es. split; [done|]. split; [done|].
  by rewrite Pe, P.
Qed.
End one_hash.

(** ** C34 *)
Lemma csame_in_visit `{EqDecision V} (hash : K -> N) (Hh : forall k, (hash k < 2 ^ 64)%N) sg (vs : list (K * V)) :
  forall tb m rel, holds hash CACHE tb m rel ->
  exists tb' r, visit (csame_in sg hash) (Some tb) vs = (Some tb', r) /\ holds hash CACHE tb' m rel /\
    (r = true <-> forall k v, (k, v) ∈ vs -> assoc k m = Some v).
Proof.
  induction vs as [|[k v] vs IH]; intros tb m rel H.
  - exists tb, true. split; [done|]. split; [done|]. split; [|done]. intros _ k v X. by apply elem_of_nil in X.
  - destruct (read_spec hash Hh CACHE sg tb k m) as (tb1 & q & E & S & A & Ke); [done|apply H|apply H|].
    assert (H1 : holds hash CACHE tb1 m (rel ++ [])) by (by apply (holds_step0 hash CACHE tb tb1 m rel)). rewrite app_nil_r in H1.
    assert (Eq : csame_in sg hash (Some tb) (k, v) = (Some tb1, bool_decide (assoc k m = Some v))).
    { unfold csame_in. cbn [fst snd]. rewrite E. cbn [fst snd]. by rewrite A. }
    cbn [visit]. rewrite Eq. cbn [fst snd].
    destruct (bool_decide_reflect (assoc k m = Some v)) as [D|D].
    + destruct (IH tb1 m rel H1) as (tb2 & r & E2 & H2 & R). exists tb2, r. split; [done|]. split; [done|].
      rewrite R. split; intros X k' v' Hin.
      * apply elem_of_cons in Hin as [[= -> ->]|Hin]; [done|by apply X].
      * apply X. by apply elem_of_cons; right.
    + exists tb1, false. split; [done|]. split; [done|]. split; [done|]. intros X. exfalso. apply D. apply X. by left.
Qed.
Lemma ceq_sync_spec `{EqDecision V} (hash1 hash2 : K -> N) (Hh1 : forall k, (hash1 k < 2 ^ 64)%N) (Hh2 : forall k, (hash2 k < 2 ^ 64)%N)
  sg (tb1 tb2 : table K V) m1 m2 r1 r2 : holds hash1 CACHE tb1 m1 r1 -> holds hash2 CACHE tb2 m2 r2 ->
  exists tb1' tb2' r, ceq_sync sg hash1 hash2 tb1 tb2 = Some (tb1', tb2', r) /\
    holds hash1 CACHE tb1' m1 r1 /\ holds hash2 CACHE tb2' m2 r2 /\
    (r = true <-> forall k, assoc k m1 = assoc k m2).
Proof.
  intros H1 H2. unfold ceq_sync.
  assert (N1 : NoDup m1.*1) by (apply (wf_nodup hash1 CACHE tb1); apply H1).
  assert (N2 : NoDup m2.*1) by (apply (wf_nodup hash2 CACHE tb2); apply H2).
  destruct (iter_sync_spec hash1 Hh1 CACHE sg tb1 (csame_in sg hash2) (Some tb2) (hd_wf _ _ _ _ _ H1)) as (tb1' & vs & E & P & S).
  rewrite E, obind. cbn [fst snd]. rewrite (hd_ents _ _ _ _ _ H1) in P.
  destruct (csame_in_visit hash2 Hh2 sg vs tb2 m2 r2 H2) as (tb2' & r & Ev & H2' & R). rewrite Ev. cbn [fst snd]. rewrite obind.
  assert (H1' : holds hash1 CACHE tb1' m1 r1) by (by apply (holds_same hash1 CACHE tb1)).
  assert (R1 : r = true <-> forall k v, assoc k m1 = Some v -> assoc k m2 = Some v).
  { rewrite R. split; intros X k v Hk.
    - apply X. rewrite P. by apply assoc_Some.
    - apply X. apply assoc_Some; [done|]. by rewrite <- P. }
  destruct r.
  - destruct (iter_sync_spec hash2 Hh2 CACHE sg tb2' (csame_in sg hash1) (Some tb1') (hd_wf _ _ _ _ _ H2')) as (tb2'' & vs2 & E2 & P2 & S2).
    rewrite E2, obind. cbn [fst snd]. rewrite (hd_ents _ _ _ _ _ H2') in P2.
    destruct (csame_in_visit hash1 Hh1 sg vs2 tb1' m1 r1 H1') as (tb1'' & r & Ev2 & H1'' & R2). rewrite Ev2. cbn [fst snd]. rewrite obind.
    exists tb1'', tb2'', r. split; [done|]. split; [done|]. split; [by apply (holds_same hash2 CACHE tb2')|].
    rewrite R2. split.
    + intros X k. destruct (assoc k m1) as [v|] eqn:A1.
      * symmetry. by apply R1.
      * destruct (assoc k m2) as [v|] eqn:A2; [|done]. rewrite <- A1. apply X. rewrite P2. by apply assoc_Some.
    + intros X k v Hv. rewrite X. apply assoc_Some; [done|]. by rewrite <- P2.
  - exists tb1', tb2', false. split; [done|]. split; [done|]. split; [done|]. split; [done|].
    intros X. exfalso. assert (false = true) by (apply R1; intros k v; by rewrite X). done.
Qed.
Lemma lC34_cache_eq `{EqDecision V} (hash1 hash2 : K -> N) (Hh1 : forall k, (hash1 k < 2 ^ 64)%N) (Hh2 : forall k, (hash2 k < 2 ^ 64)%N)
  sg mn1 mx1 mn2 mx2 (os1 os2 : list (cop K V)) : exists tb1 outs1 tb2 outs2 tb1' tb2' r,
  run_cache sg hash1 mn1 mx1 os1 = Some (tb1, outs1) /\ run_cache sg hash2 mn2 mx2 os2 = Some (tb2, outs2) /\
  ceq_sync sg hash1 hash2 tb1 tb2 = Some (tb1', tb2', r) /\
  (r = true <-> forall k, look sg hash1 mn1 mx1 os1 k = look sg hash2 mn2 mx2 os2 k).
Proof.
  destruct (run_cache_spec hash1 Hh1 sg mn1 mx1 os1) as (tb1 & outs1 & E1 & C1 & H1 & _).
  destruct (run_cache_spec hash2 Hh2 sg mn2 mx2 os2) as (tb2 & outs2 & E2 & C2 & H2 & _).
  destruct (ceq_sync_spec hash1 hash2 Hh1 Hh2 sg tb1 tb2 _ _ _ _ H1 H2) as (tb1' & tb2' & r & E & H1' & H2' & R).
  exists tb1, outs1, tb2, outs2, tb1', tb2', r. split; [done|]. split; [done|]. split; [done|].
  rewrite R. split; intros X k.
  - rewrite (look_spec hash1 Hh1 sg mn1 mx1 os1 tb1 outs1 _ _ k E1 H1), (look_spec hash2 Hh2 sg mn2 mx2 os2 tb2 outs2 _ _ k E2 H2). apply X.
  - specialize (X k).
    by rewrite (look_spec hash1 Hh1 sg mn1 mx1 os1 tb1 outs1 _ _ k E1 H1), (look_spec hash2 Hh2 sg mn2 mx2 os2 tb2 outs2 _ _ k E2 H2) in X.
Qed.
End thms.
