(** Housekeeping: incremental relocation as a whole.  It neither adds nor loses an entry. *)
From Coq Require Import NArith Lia.
From stdpp Require Import numbers prelude list.
From Verif Require CapModel CapSpec CapFacts CapThms.
From Verif Require Import LruModel BucketModel BucketSpec BucketFacts BucketOps BucketOps2 BucketOps3
  TableModel TableSpec TableFacts TableReloc.

Section house.
Context {K V : Type} `{EqDecision K}.
Context (hash : K -> N).
Context (Hh : forall k, (hash k < 2 ^ 64)%N).
Implicit Types (a c o : barray K V) (x : cell K V) (tb : table K V) (b : bucket K V).

(** A step that leaves the contents alone. *)
Record same t tb tb' : Prop := Same {
  sm_wf : wf_table hash t tb';
  sm_ents : tents t tb' ≡ₚ tents t tb;
  sm_acct : released tb' ++ tstored tb' ≡ₚ released tb ++ tstored tb;
  sm_rel : t <> INDEX -> released tb' = released tb /\ garbage tb' = garbage tb;
  sm_mst : mst tb' = mst tb;
  sm_max : maxcap tb' = maxcap tb }.
Lemma same_refl t tb : wf_table hash t tb -> same t tb tb.
Proof. by split. Qed.
Lemma same_trans t tb tb1 tb2 : same t tb tb1 -> same t tb1 tb2 -> same t tb tb2.
Proof.
  intros [W1 E1 A1 R1 M1 X1] [W2 E2 A2 R2 M2 X2]. split; try congruence.
  - by rewrite E2.
  - by rewrite A2.
  - intros Ht. destruct (R1 Ht) as [<- <-]. by apply R2.
Qed.

(** A step that in addition only moves entries from the old to the current array. *)
Record stay t tb tb' : Prop := Stay {
  st_same : same t tb tb';
  st_none : cur tb = None -> cur tb' = None;
  st_cur : forall c, cur tb = Some c -> exists c', cur tb' = Some c' /\ sz c' = sz c /\
           forall j, (forall e, e ∈ oents t (old tb) -> bi hash c e.1 <> j) -> bks c' !! j = bks c !! j;
  st_old : forall e, e ∈ oents t (old tb') -> e ∈ oents t (old tb);
  st_noold : old tb = None -> old tb' = None }.
Lemma stay_refl t tb : wf_table hash t tb -> stay t tb tb.
Proof. intros W. split; [by apply same_refl|done| |done|done]. intros c E. by exists c. Qed.
Lemma stay_trans t tb tb1 tb2 : stay t tb tb1 -> stay t tb1 tb2 -> stay t tb tb2.
Proof.
  intros S1 S2. split.
  - eapply same_trans; [apply S1|apply S2].
  - intros E. by apply S2, S1.
  - intros c E. destruct (st_cur _ _ _ S1 c E) as (c1 & E1 & Z1 & B1).
    destruct (st_cur _ _ _ S2 c1 E1) as (c2 & E2 & Z2 & B2). exists c2. split; [done|].
    split; [congruence|]. intros j Hj. rewrite B2, B1; [done|done|].
    intros e He. unfold bi. rewrite Z1. apply Hj. by apply (st_old _ _ _ S1).
  - intros e He. by apply S1, S2.
  - intros E. by apply S2, S1.
Qed.

Lemma wf_min_eq tb tb' : wf_min tb -> mst tb' = mst tb -> maxcap tb' = maxcap tb -> wf_min tb'.
Proof. intros [] M X. split; rewrite ?M, ?X; done. Qed.
Definition reclear o m : barray K V := BArray (sz o) (bks o) m.
Lemma reclear_wf t o m : wf_array hash t o -> wf_array hash t (reclear o m).
Proof. intros []. by split. Qed.
Lemma reclear_pair t c o m : wf_pair hash t c o -> wf_pair hash t c (reclear o m).
Proof. intros []. split; try done. by apply reclear_wf. Qed.
Lemma reclear_same o : reclear o (cleared o) = o.
Proof. by destruct o. Qed.

Lemma acct_perm {A} (o' c' d o c r g : list A) : o' ++ c' ++ d ≡ₚ o ++ c ->
  (r ++ d) ++ o' ++ c' ++ g ≡ₚ r ++ o ++ c ++ g.
Proof.
  intros P. rewrite <- app_assoc. apply Permutation_app_head. rewrite (app_assoc o c g), <- P.
  rewrite <- !app_assoc. rewrite (Permutation_app_comm d (o' ++ c' ++ g)), <- !app_assoc.
  apply Permutation_app_head, Permutation_app_head, Permutation_app_comm.
Qed.

Lemma wf_tab_pair t tb c o : wf_table hash t tb -> cur tb = Some c -> old tb = Some o ->
  wf_pair hash t c o /\ wf_rehash o /\ cleared c = 0%N.
Proof. intros W C O. pose proof (wt_arrays _ _ _ W) as P. by rewrite C, O in P. Qed.
Lemma wf_tab_cur t tb c : wf_table hash t tb -> cur tb = Some c ->
  wf_array hash t c /\ (forall i x, bks c !! i = Some x -> dead x = false) /\ cleared c = 0%N.
Proof.
  intros W C. pose proof (wt_arrays _ _ _ W) as P. rewrite C in P. destruct (old tb) as [o|].
  - destruct P as (P & _ & Z). split; [apply P|]. split; [apply P|done].
  - done.
Qed.
Lemma wf_tab_none t tb : wf_table hash t tb -> cur tb = None -> old tb = None.
Proof. intros W C. pose proof (wt_arrays _ _ _ W) as P. rewrite C in P. by destruct (old tb). Qed.

(** Entries moved; the counter may have advanced. *)
Lemma reloc_stay t tb c o c' o' d m : wf_table hash t tb -> cur tb = Some c -> old tb = Some o ->
  reloc hash t c o c' o' d -> wf_rehash (reclear o' m) ->
  stay t tb (release (with_arrays tb (Some c') (Some (reclear o' m))) d).
Proof.
  intros W C O R WR. destruct (wf_tab_pair _ _ _ _ W C O) as (WP & _ & Z).
  pose proof (rl_ents _ _ _ _ _ _ _ R) as RE.
  split; cbn [cur old release with_arrays mst maxcap garbage released].
  - split; cbn [cur old release with_arrays mst maxcap garbage released].
    + split; cbn [cur old release with_arrays mst maxcap garbage released].
      * split; [apply reclear_pair, R|]. split; [done|]. by rewrite (rl_clc _ _ _ _ _ _ _ R).
      * intros c2 [= <-]. rewrite (rl_szc _ _ _ _ _ _ _ R). by apply (wt_size _ _ _ W).
      * intros o2 [= <-]. cbn [reclear sz]. rewrite (rl_szo _ _ _ _ _ _ _ R). by apply (wt_osize _ _ _ W).
      * apply W.
      * pose proof (wt_keys _ _ _ W) as N. unfold tents in *. rewrite C, O in N.
        cbn [cur old release with_arrays oents] in *. change (aents t (reclear o' m)) with (aents t o').
        by rewrite RE.
      * by apply (wf_min_eq tb); [apply W|..].
    + unfold tents. rewrite C, O. exact RE.
    + unfold tstored. rewrite C, O. cbn [cur old release with_arrays ostored garbage].
      change (astored (reclear o' m)) with (astored o').
      exact (acct_perm (astored o') (astored c') d (astored o) (astored c) (released tb)
               (concat (map astored (garbage tb))) (rl_stored _ _ _ _ _ _ _ R)).
    + intros Ht. rewrite (rl_drop _ _ _ _ _ _ _ R Ht). by rewrite app_nil_r.
    + done.
    + done.
  - by rewrite C.
  - intros c2 E2. assert (c2 = c) as -> by congruence. exists c'. split; [done|].
    split; [apply R|]. rewrite O. cbn [oents]. apply R.
  - intros e. rewrite O. cbn [oents]. exact (reloc_sub hash t c o c' o' d e R).
  - by rewrite O.
Qed.

(** An old array with nothing left is let go. *)
Lemma aents_dead t o : wf_array hash t o -> (forall i x, bks o !! i = Some x -> dead x = true) ->
  aents t o = [].
Proof.
  intros W D. apply (concat_nil (fun x => entries t (bkt x))). intros i x Hx.
  exact (wc_dead _ _ _ (wa_cells _ _ _ W i x Hx) (D i x Hx)).
Qed.
Lemma wf_cores t a : wf_array hash t a -> forall x, x ∈ bks a -> wf_core hash t (bkt x).
Proof. intros W x [i Hi]%elem_of_list_lookup. apply (wa_cells _ _ _ W i x Hi). Qed.
Lemma astored_ents t o : t <> INDEX -> wf_array hash t o -> astored o = aents t o.
Proof.
  intros Ht W. unfold astored, aents. apply concat_same. intros x Hx. apply (stored_entries hash t); [done|].
  by apply (wf_cores _ _ W).
Qed.
Lemma drop_cells_spec t cs : (forall x, x ∈ cs -> wf_core hash t (bkt x)) ->
  exists es, drop_cells cs = Some es /\ es ≡ₚ concat (map (fun x => stored (bkt x)) cs).
Proof.
  induction cs as [|x cs IH]; intros W; cbn [drop_cells map concat]; [by exists []|].
  destruct (drop_entries_spec hash t (bkt x)) as (e & E & P); [apply W; set_solver|]. rewrite E, obind.
  destruct IH as (es & E' & P'); [set_solver|]. rewrite E', obind.
  exists (e ++ es). split; [done|]. by rewrite P, P'.
Qed.

Lemma drop_array_spec t a : wf_array hash t a ->
  (forall i x, (N.of_nat i < cleared a)%N -> bks a !! i = Some x -> dead x = true) ->
  exists es, drop_array t a = Some es /\ es ≡ₚ astored a.
Proof.
  intros W D. unfold drop_array.
  set (n := N.to_nat (if decide (t = INDEX) then 0%N else cleared a)).
  destruct (drop_cells_spec t (drop n (bks a))) as (es & E & P).
  { intros x Hx. apply (wf_cores t a W). rewrite <- (take_drop n (bks a)). set_solver. }
  exists es. split; [done|]. rewrite P. unfold astored.
  rewrite <- (take_drop n (bks a)) at 2. rewrite map_app, concat_app.
  rewrite (concat_nil (fun x => stored (bkt x)) (take n (bks a))); [done|].
  intros i x Hx. assert (i < n).
  { apply lookup_lt_Some in Hx. rewrite take_length in Hx. lia. }
  rewrite lookup_take in Hx by lia.
  unfold n in *. destruct (decide (t = INDEX)) as [->|Ht]; [lia|].
  rewrite (stored_entries hash t) by (done || apply (wa_cells _ _ _ W i x Hx)).
  apply (wc_dead _ _ _ (wa_cells _ _ _ W i x Hx)). apply (D i x); [lia|done].
Qed.

(** [defer_reclaim] of an array with no reachable entry. *)
Lemma defer_reclaim_spec t tb o : wf_array hash t o -> aents t o = [] ->
  (forall i x, bks o !! i = Some x -> dead x = true) ->
  exists tb', defer_reclaim t tb o = Some tb' /\ cur tb' = cur tb /\ old tb' = old tb /\ mst tb' = mst tb /\
    maxcap tb' = maxcap tb /\
    (t <> INDEX -> released tb' = released tb /\ garbage tb' = garbage tb) /\
    released tb' ++ concat (map astored (garbage tb'))
      ≡ₚ released tb ++ astored o ++ concat (map astored (garbage tb)) /\
    (Forall (wf_array hash t) (garbage tb) -> Forall (wf_array hash t) (garbage tb')).
Proof.
  intros W E D. unfold defer_reclaim. destruct (decide (t = INDEX)) as [->|Ht].
  - eexists. split; [done|]. cbn [cur old mst maxcap released garbage map concat].
    do 4 (split; [done|]). split; [done|]. split; [done|]. by constructor.
  - destruct (drop_array_spec t o W) as (es & Ed & P); [by eauto|]. rewrite Ed, obind.
    assert (A : astored o = []) by (by rewrite (astored_ents t)).
    rewrite A in P. apply Permutation_nil_r in P as ->.
    eexists. split; [done|]. cbn [release cur old mst maxcap released garbage]. rewrite !app_nil_r, A. done.
Qed.

Lemma incremental_rehash_spec t sg tb : wf_table hash t tb ->
  exists tb' held, incremental_rehash t sg hash tb = Some (tb', held) /\ stay t tb tb' /\
    oents t held = oents t (old tb') /\ (forall o, held = Some o -> wf_array hash t o).
Proof.
  intros W. unfold incremental_rehash.
  destruct (cur tb) as [c|] eqn:C.
  2:{ exists tb, None. split; [done|]. split; [by apply stay_refl|]. by rewrite (wf_tab_none _ _ W C). }
  destruct (old tb) as [o|] eqn:O.
  2:{ exists tb, None. split; [done|]. split; [by apply stay_refl|]. by rewrite O. }
  destruct (wf_tab_pair _ _ _ _ W C O) as (WP & WR & Z).
  destruct (wr_round _ WR) as (m & Em). pose proof (wr_lt _ WR) as Lt.
  assert (L31 : N.land (cleared o) 31 = 0%N).
  { rewrite Em. change 31%N with (N.ones 5). rewrite N.land_ones. change (2 ^ 5)%N with 32%N.
    rewrite N.mul_comm. apply N.mod_mul. done. }
  assert (Lb : N.ldiff (cleared o) 31 = cleared o).
  { change 31%N with (2 ^ 5 - 1)%N. rewrite CapFacts.ldiff_ones_mul. change (2 ^ 5)%N with 32%N.
    rewrite Em, (N.mul_comm 32 m), N.div_mul by done. done. }
  destruct (N.leb_spec (alen o) (cleared o)); [lia|]. rewrite L31, Lb. cbn [orb N.eqb].
  destruct (relocate_cells_spec hash Hh t sg (TableModel.range (cleared o) (N.min (cleared o + 32) (alen o))) c o [] WP)
    as (c' & o' & d & E & R & D).
  { intros i Hi%elem_of_range. lia. }
  rewrite E, obind. cbn [fst snd app].
  replace (cleared o + 33 - 1)%N with (32 * (m + 1))%N by lia.
  assert (L31' : N.land (32 * (m + 1)) 31 = 0%N).
  { change 31%N with (N.ones 5). rewrite N.land_ones. change (2 ^ 5)%N with 32%N.
    rewrite N.mul_comm. apply N.mod_mul. done. }
  rewrite L31'. cbn [N.eqb andb].
  change (BArray (sz o') (bks o') (32 * (m + 1))) with (reclear o' (32 * (m + 1))).
  assert (D' : forall i x, (N.of_nat i < 32 * (m + 1))%N -> bks o' !! i = Some x -> dead x = true).
  { intros i x Hi Hx. destruct (decide (N.of_nat i < cleared o)%N) as [Hc|Hc].
    - destruct (reloc_length _ _ _ _ _ _ _ R WP) as [L _].
      destruct (lookup_lt_is_Some_2 (bks o) i) as [y Hy]; [rewrite <- L; by eapply lookup_lt_Some|].
      destruct (reloc_dead _ _ _ _ _ _ _ _ _ R WP Hy (wr_dead _ WR _ _ Hc Hy)) as (z & Hz & Dz). congruence.
    - destruct (D (N.of_nat i)) as (y & Hy & Dy).
      { apply elem_of_range. split; [lia|]. apply N.min_glb_lt; [lia|].
        apply lookup_lt_Some in Hx. destruct (reloc_length _ _ _ _ _ _ _ R WP) as [L _].
        rewrite L, (wa_len _ _ _ (wp_old _ _ _ _ WP)) in Hx. lia. }
      rewrite Nat2N.id in Hy. congruence. }
  assert (Al : alen o' = alen o) by (unfold alen; by rewrite (rl_szo _ _ _ _ _ _ _ R)).
  pose proof (wp_old _ _ _ _ (rl_pair _ _ _ _ _ _ _ R)) as Wo'.
  destruct (N.leb_spec (alen o) (32 * (m + 1))) as [Fin|Fin].
  - (* relocation complete *)
    assert (Da : forall i x, bks o' !! i = Some x -> dead x = true).
    { intros i x Hx. apply (D' i x); [|done]. apply lookup_lt_Some in Hx. rewrite (wa_len _ _ _ Wo') in Hx. lia. }
    pose proof (aents_dead _ _ Wo' Da) as E0.
    set (tb1 := with_old (release (with_arrays tb (Some c') (Some (reclear o' (32 * (m + 1))))) d) None).
    destruct (defer_reclaim_spec t tb1 (reclear o' (32 * (m + 1)))) as (tb2 & E2 & C2 & O2 & M2 & X2 & R2 & A2 & G2).
    { by apply reclear_wf. } { done. } { done. }
    rewrite E2, obind. exists tb2, (Some (reclear o' (32 * (m + 1)))). split; [done|].
    cbn [tb1 with_old release with_arrays cur old mst maxcap] in C2, O2, M2, X2.
    pose proof (rl_ents _ _ _ _ _ _ _ R) as RE. rewrite E0 in RE. cbn [app] in RE.
    split; [|split].
    + split.
      * split.
        -- split.
           ++ rewrite C2, O2. split; [apply R|]. split; [apply R|]. by rewrite (rl_clc _ _ _ _ _ _ _ R).
           ++ intros c2. rewrite C2. intros [= <-]. rewrite X2, (rl_szc _ _ _ _ _ _ _ R). by apply (wt_size _ _ _ W).
           ++ intros o2. by rewrite O2.
           ++ apply G2. cbn. apply W.
           ++ pose proof (wt_keys _ _ _ W) as N. unfold tents in *. rewrite C, O in N. rewrite C2, O2. cbn [oents app] in *.
              by rewrite RE.
           ++ by apply (wf_min_eq tb); [apply W|..].
        -- unfold tents. rewrite C2, O2, C, O. cbn [oents app]. exact RE.
        -- unfold tstored. rewrite C2, O2, C, O. cbn [ostored app].
           pose proof (acct_perm (astored o') (astored c') d (astored o) (astored c) (released tb)
               (concat (map astored (garbage tb))) (rl_stored _ _ _ _ _ _ _ R)) as AP.
           rewrite <- AP. cbn [tb1 with_old release with_arrays released garbage] in A2.
           change (astored (reclear o' (32 * (m + 1)))) with (astored o') in A2.
           rewrite (Permutation_app_comm (astored c')), app_assoc, A2. rewrite <- !app_assoc.
           apply Permutation_app_head, Permutation_app_head, Permutation_app_head, Permutation_app_comm.
        -- intros Ht. destruct (R2 Ht) as [-> ->]. cbn [tb1 with_old release with_arrays released garbage].
           by rewrite (rl_drop _ _ _ _ _ _ _ R Ht), app_nil_r.
        -- done.
        -- done.
      * by rewrite C.
      * intros c2 Ec. assert (c2 = c) as -> by congruence. exists c'. split; [done|]. split; [apply R|].
        rewrite O. cbn [oents]. apply R.
      * intros e. rewrite O2. cbn [oents]. intros He. by apply elem_of_nil in He.
      * by rewrite O2.
    + rewrite O2. cbn [oents]. exact E0.
    + intros o2 [= <-]. by apply reclear_wf.
  - eexists _, _. split; [done|]. split; [|split; [done|]].
    + eapply reloc_stay; [done..|]. split; cbn [reclear cleared bks].
      * by exists (m + 1)%N.
      * change (alen (reclear o' (32 * (m + 1)))) with (alen o'). lia.
      * done.
    + intros o2 [= <-]. by apply reclear_wf.
Qed.

(** Bucket [i] of the current array has been brought up to date. *)
Definition ready tb (i : N) : Prop := forall c o k z, cur tb = Some c -> old tb = Some o ->
  CapModel.bucket_index (sz c) (hash k) = i -> bks o !! bi hash o k = Some z -> dead z = true.
Lemma ready_ents t tb c i e : wf_table hash t tb -> ready tb i -> cur tb = Some c ->
  e ∈ oents t (old tb) -> CapModel.bucket_index (sz c) (hash e.1) <> i.
Proof.
  intros W R C He Hi. destruct (old tb) as [o|] eqn:O; [|by apply elem_of_nil in He]. cbn [oents] in He.
  destruct (wf_tab_pair _ _ _ _ W C O) as (WP & _).
  destruct (elem_of_aents_bi hash t o e (wp_old _ _ _ _ WP) He) as (x & Hx & Hxe).
  pose proof (R c o e.1 x C O Hi Hx) as D.
  rewrite (wc_dead _ _ _ (wa_cells _ _ _ (wp_old _ _ _ _ WP) _ _ Hx) D) in Hxe. by apply elem_of_nil in Hxe.
Qed.
Lemma prepare_spec t sg tb c i : wf_table hash t tb -> cur tb = Some c -> (i < alen c)%N ->
  exists tb', prepare t sg hash tb i = Some tb' /\ stay t tb tb' /\ ready tb' i.
Proof.
  intros W C Hi. unfold prepare.
  destruct (incremental_rehash_spec t sg tb W) as (tb1 & held & E1 & S1 & _). rewrite E1, obind. cbn [fst snd].
  destruct (st_cur _ _ _ S1 c C) as (c1 & C1 & Z1 & _). rewrite C1.
  pose proof (sm_wf _ _ _ (st_same _ _ _ S1)) as W1.
  destruct (old tb1) as [o1|] eqn:O1.
  2:{ exists tb1. split; [done|]. split; [done|]. intros ????. by rewrite O1. }
  destruct (wf_tab_pair _ _ _ _ W1 C1 O1) as (WP & WR & Z).
  destruct (dedup_bucket_spec hash Hh t sg c1 o1 i WP) as (c2 & o2 & d & E2 & R & Dd).
  { unfold alen. by rewrite Z1. }
  rewrite E2, obind. cbn [fst snd]. eexists. split; [done|]. split.
  - eapply stay_trans; [exact S1|]. rewrite <- (reclear_same o2).
    eapply reloc_stay; [done..|]. rewrite reclear_same.
    split.
    + rewrite (rl_clo _ _ _ _ _ _ _ R). apply WR.
    + unfold alen. rewrite (rl_clo _ _ _ _ _ _ _ R), (rl_szo _ _ _ _ _ _ _ R). apply WR.
    + intros j x. rewrite (rl_clo _ _ _ _ _ _ _ R). intros Hj Hx.
      destruct (reloc_length _ _ _ _ _ _ _ R WP) as [L _].
      destruct (lookup_lt_is_Some_2 (bks o1) j) as [y Hy]; [rewrite <- L; by eapply lookup_lt_Some|].
      destruct (reloc_dead _ _ _ _ _ _ _ _ _ R WP Hy (wr_dead _ WR _ _ Hj Hy)) as (z & Hz & Dz). congruence.
  - intros c3 o3 k z. cbn [cur old release with_arrays]. intros [= <-] [= <-].
    rewrite (rl_szc _ _ _ _ _ _ _ R). unfold bi. rewrite (rl_szo _ _ _ _ _ _ _ R). by apply Dd.
Qed.
End house.
