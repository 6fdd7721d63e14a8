(** The bounds on the number of entries and on the capacity of a HashCache. *)
From Coq Require Import NArith Lia.
From stdpp Require Import numbers prelude list.
From Verif Require CapModel CapSpec CapFacts CapThms.
From Verif Require Import LruModel BucketModel BucketSpec BucketFacts BucketOps BucketOps2 BucketOps3 BucketRunFacts
  MapSpec MapFacts TableModel TableSpec TableFacts TableReloc TableResize TableHouse TableAccess TableOps
  IterSpec TableIter MapFacts2 MapModel MapRef MapRunFacts MapWhole CacheModel CacheSpec CacheFacts CacheOps CacheRunFacts CacheLru CacheFix CacheTidy CacheTidy2.

Section thms.
Context {K V : Type} `{EqDecision K} (hash : K -> N) (Hh : forall k, (hash k < 2 ^ 64)%N).
Implicit Types (tb : table K V) (m : list (K * V)).

Lemma new_cache_tidy mn mx tb : new_cache mn mx = Some tb -> tidy tb.
Proof.
  unfold new_cache. destruct (cache_maximum mn mx) as [M|]; [|done]. rewrite obind. unfold new_table.
  destruct (mn =? 0)%N.
  - intros [= <-]. split; [split|]; cbn; [done|done|]. intros ? ? Hc; discriminate Hc.
  - destruct (new_barray mn) as [a|] eqn:E; [|done]. rewrite obind. intros [= <-]. apply plain_new in E.
    split; [split; cbn; [by intros ? [= <-]|done]|]. intros c o Hc Ho. discriminate Ho.
Qed.
Lemma run_cache_snoc sg mn mx (os : list (cop K V)) o : run_cache sg hash mn mx (os ++ [o]) =
  r ← run_cache sg hash mn mx os; q ← cstep sg hash r.1 o; Some (q.1, r.2 ++ [q.2]).
Proof.
  unfold run_cache. destruct (new_cache mn mx); [|done]. rewrite !obind, crun_app.
  destruct (crun sg hash t os) as [[tb1 outs]|]; [|done]. rewrite !obind. cbn [fst snd crun].
  destruct (cstep sg hash tb1 o) as [[tb2 out]|]; [|done]. by rewrite !obind.
Qed.
Lemma never_shrinks_tidy sg mn mx (os : list (cop K V)) : never_shrinks sg hash mn mx os ->
  forall tb outs, run_cache sg hash mn mx os = Some (tb, outs) -> tidy tb.
Proof.
  induction os as [|o os IH] using rev_ind; intros N tb outs E.
  - unfold run_cache in E. destruct (new_cache mn mx) as [tb0|] eqn:E0; [|done]. rewrite obind in E. injection E as <- _.
    by apply new_cache_tidy in E0.
  - rewrite run_cache_snoc in E. destruct (run_cache_spec hash Hh sg mn mx os) as (tb1 & outs1 & E1 & _ & H1 & _).
    rewrite E1, obind in E. cbn [fst snd] in E. destruct (cstep sg hash tb1 o) as [[tb2 out]|] eqn:E2; [|done].
    rewrite obind in E. cbn [fst snd] in E. injection E as <- _.
    eapply (cstep_tidy hash Hh sg tb1); [exact H1| |exact E2|].
    + eapply IH; [|exact E1]. intros p o' rest ->. apply (N p o' (rest ++ [o])). by rewrite <- app_assoc.
    + specialize (N os o [] eq_refl).
      rewrite (cap_after_spec hash sg mn mx os tb1 outs1 E1) in N.
      rewrite (cap_after_spec hash sg mn mx (os ++ [o]) tb2 (outs1 ++ [out])) in N; [exact N|].
      rewrite run_cache_snoc, E1, obind. cbn [fst snd]. by rewrite E2, obind.
Qed.

Lemma lC23_len_within_capacity sg mn mx (os : list (cop K V)) : never_shrinks sg hash mn mx os ->
  exists n, cafter sg hash mn mx os CLen = Some (COCount n) /\ (n <= cap_after sg hash mn mx os)%N.
Proof.
  intros N. destruct (run_cache_spec hash Hh sg mn mx os) as (tb & outs & E & _ & H & _).
  pose proof (never_shrinks_tidy sg mn mx os N tb outs E) as T.
  destruct (cstep_spec hash Hh sg tb _ _ CLen H) as (tb' & out & E1 & A & _). cbn [allowed] in A. subst out.
  eexists. split; [unfold cafter; rewrite E, obind; cbn [fst]; by rewrite E1, obind|].
  rewrite (cap_after_spec hash sg mn mx os tb outs E).
  pose proof (tidy_len hash Hh tb (hd_wf _ _ _ _ _ H) T) as L.
  rewrite <- (Permutation_length (hd_ents _ _ _ _ _ H)). lia.
Qed.
Lemma lC23_capacity_within_range sg mn mx (os : list (cop K V)) : exists tb outs,
  run_cache sg hash mn mx os = Some (tb, outs) /\
  (cap_after sg hash mn mx os <= (CapModel.capacity_range (maxcap tb) (mst tb)).2)%N /\ cache_maximum mn mx = Some (maxcap tb).
Proof.
  destruct (run_cache_spec hash Hh sg mn mx os) as (tb & outs & E & _ & H & M). exists tb, outs.
  split; [done|]. split; [|done]. rewrite (cap_after_spec hash sg mn mx os tb outs E). cbn [CapModel.capacity_range snd].
  unfold capacity. destruct (cur tb) as [c|] eqn:C; [|lia]. by apply (wt_size _ _ _ (hd_wf _ _ _ _ _ H)).
Qed.
Lemma lC22_no_overflow_chain sg mn mx (os : list (cop K V)) : never_shrinks sg hash mn mx os ->
  exists tb outs, run_cache sg hash mn mx os = Some (tb, outs) /\
  forall a i x, cur tb = Some a \/ old tb = Some a -> bks a !! i = Some x -> links (bkt x) = [].
Proof.
  intros N. destruct (run_cache_spec hash Hh sg mn mx os) as (tb & outs & E & _ & H & _). exists tb, outs. split; [done|].
  destruct (never_shrinks_tidy sg mn mx os N tb outs E) as [[Pc Po] _]. intros a i x [Ha|Ha] X; [by eapply Pc|by eapply Po].
Qed.
End thms.
