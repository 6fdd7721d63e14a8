(** Peeking, retaining, reserving and dropping: HashIndex against an association list. *)
From Coq Require Import NArith Lia.
From stdpp Require Import numbers prelude list.
From Verif Require CapModel CapSpec CapFacts CapThms.
From Verif Require Import LruModel BucketModel BucketSpec BucketFacts BucketOps BucketOps2 BucketOps3
  MapSpec MapFacts BucketRun BucketRunFacts TableModel TableSpec TableFacts TableReloc TableHouse TableResize TableAccess
  TableOps IterSpec TableIter MapFacts2 IndexModel IndexRef IndexFacts.

Section facts2.
Context {K V : Type} `{EqDecision K}.
Context (hash : K -> N).
Context (Hh : forall k, (hash k < 2 ^ 64)%N).
Implicit Types (a c o : barray K V) (x : cell K V) (tb : table K V) (b : bucket K V) (l : loc).
Implicit Types (m : list (K * V)) (e : env).

(** ** Lock-free reads *)
Lemma wf_index_bucket b : wf_core hash INDEX b -> wf_bucket hash INDEX b.
Proof. intros W. by split. Qed.
Lemma assoc_concat (k : K) (cs : list (cell K V)) i x : cs !! i = Some x ->
  (forall j y, cs !! j = Some y -> j <> i -> k ∉ (entries INDEX (bkt y)).*1) ->
  assoc k (concat (map (fun x => entries INDEX (bkt x)) cs)) = assoc k (entries INDEX (bkt x)).
Proof.
  assert (App : forall l1 l2 : list (K * V), assoc k (l1 ++ l2) = match assoc k l1 with Some v => Some v | None => assoc k l2 end).
  { induction l1 as [|[k' v] l1 IH]; intros l2; [done|]. cbn [app assoc]. by case_decide. }
  revert i. induction cs as [|y cs IH]; intros i X D; [done|]. cbn [map concat]. rewrite App.
  destruct i as [|i]; cbn in X.
  - injection X as ->. destruct (assoc k (entries INDEX (bkt x))); [done|].
    assert (N : forall j y, cs !! j = Some y -> k ∉ (entries INDEX (bkt y)).*1).
    { intros j y Hy. apply (D (S j) y Hy). done. }
    clear -N. induction cs as [|y cs IH]; [done|]. cbn [map concat]. apply assoc_None. rewrite fmap_app.
    intros Hk. apply elem_of_app in Hk as [Hk|Hk]; [by apply (N 0 y)|]. revert Hk. apply assoc_None. apply IH.
    intros j z Hz. by apply (N (S j)).
  - rewrite (proj2 (assoc_None k _)) by (by apply (D 0 y)). apply (IH i X). intros j z Hz Hj. apply (D (S j) z Hz). lia.
Qed.
Lemma search_array_spec a k : wf_array hash INDEX a -> NoDup (aents INDEX a).*1 ->
  exists r, search_array hash a k = Some r /\ option_map snd r = assoc k (aents INDEX a) /\ (forall z, r = Some z -> z.1 = k).
Proof.
  intros W ND. unfold search_array.
  destruct (cell_some hash INDEX a _ W (index_lt hash Hh INDEX a k W)) as (x & X). rewrite X, obind.
  pose proof (wc_core _ _ _ (wa_cells _ _ _ W _ _ X)) as Wx.
  assert (NDx : NoDup (entries INDEX (bkt x)).*1).
  { eapply sublist_nodup; [|exact ND]. apply fmap_sublist. unfold aents.
    rewrite <- (take_drop_middle _ _ _ X), map_app, concat_app. cbn [map concat].
    apply sublist_inserts_l, sublist_inserts_r. done. }
  destruct (search_entry_assoc hash INDEX (bkt x) k (wf_index_bucket _ Wx) NDx) as (r & E & A & Ke). rewrite E.
  exists r. split; [done|]. split; [|done]. rewrite A. unfold aents. symmetry. apply (assoc_concat k _ _ _ X).
  intros j y Hy Hj Hk. apply elem_of_list_fmap in Hk as (z & -> & Hz).
  pose proof (wa_place _ _ _ W _ _ _ Hy Hz) as Pl. apply Hj. rewrite Pl. by rewrite Nat2N.id.
Qed.
Lemma rehash_held sg tb c o tb' held : cur tb = Some c -> old tb = Some o ->
  incremental_rehash INDEX sg hash tb = Some (tb', held) -> is_Some held.
Proof.
  intros C O. unfold incremental_rehash. rewrite C, O.
  destruct (_ || _); [by intros [= <- <-]|].
  destruct (relocate_cells _ _ _ _ _ _ _) as [r|]; [|done]. rewrite obind.
  destruct (_ && _); [|by intros [= <- <-]].
  destruct (defer_reclaim _ _ _) as [tb2|]; [|done]. rewrite obind. by intros [= <- <-].
Qed.
Lemma peek_ispec e tb k m : wf_table hash INDEX tb -> tents INDEX tb ≡ₚ m ->
  exists tb' r, peek e hash tb k = Some (tb', r) /\ ist hash tb tb' m [] /\
    r = option_map (fun v => (k, v)) (assoc k m).
Proof.
  intros W P. unfold peek. destruct (reclaim_spec hash Hh e tb W) as (tb0 & E0 & S0). rewrite E0, obind.
  pose proof (sm_wf _ _ _ _ S0) as W0.
  assert (P0 : tents INDEX tb0 ≡ₚ m) by (by rewrite (sm_ents _ _ _ _ S0)).
  assert (Shape : forall r : option (K * V), option_map snd r = assoc k m -> (forall z, r = Some z -> z.1 = k) ->
    r = option_map (fun v => (k, v)) (assoc k m)).
  { intros [[k' v]|] <- Ke; [|done]. cbn. by rewrite <- (Ke _ eq_refl). }
  assert (ND0 : NoDup (tents INDEX tb0).*1) by apply W0.
  destruct (cur tb0) as [c|] eqn:C.
  2:{ exists tb0, None. split; [done|]. split; [by apply ist_same|].
      rewrite (wf_none_tents hash INDEX tb0 W0 C) in P0. apply Permutation_nil in P0 as ->. done. }
  destruct (old tb0) as [o|] eqn:O.
  - destruct (incremental_rehash_spec hash Hh INDEX (same_gen e) tb0 W0) as (tb1 & held & E1 & S1 & Ho & Wh).
    rewrite E1, obind. cbn [fst snd]. destruct (rehash_held _ _ _ _ _ _ C O E1) as [h ->]. rewrite obind.
    destruct (st_cur _ _ _ _ S1 c C) as (c1 & C1 & Z1 & _). rewrite C1, obind.
    pose proof (sm_wf _ _ _ _ (st_same _ _ _ _ S1)) as W1. destruct (wf_tab_cur _ _ _ _ W1 C1) as (Wc1 & _).
    assert (S2 : same hash INDEX tb tb1) by (eapply same_trans; [done|apply S1]).
    assert (P1 : tents INDEX tb1 ≡ₚ m) by (by rewrite (sm_ents _ _ _ _ S2)).
    assert (ND1 : NoDup (tents INDEX tb1).*1) by apply W1.
    assert (A1 : assoc k m = assoc k (tents INDEX tb1)) by (symmetry; by apply assoc_perm).
    unfold tents in ND1, A1. rewrite <- Ho, C1 in ND1, A1. cbn [oents] in ND1, A1. rewrite fmap_app in ND1. apply NoDup_app in ND1 as (N1 & _ & N2).
    assert (App : forall l1 l2 : list (K * V), assoc k (l1 ++ l2) = match assoc k l1 with Some v => Some v | None => assoc k l2 end).
    { induction l1 as [|[k' v] l1 IH]; intros l2; [done|]. cbn [app assoc]. by case_decide. }
    rewrite App in A1.
    destruct (search_array_spec h k (Wh h eq_refl) N1) as (x & Ex & Ax & Kx). rewrite Ex, obind.
    destruct x as [en|].
    + exists tb1, (Some en). split; [done|]. split; [by apply ist_same|]. apply Shape; [|done]. rewrite A1, <- Ax. done.
    + destruct (search_array_spec c1 k Wc1 N2) as (y & Ey & Ay & Ky). rewrite Ey, obind.
      exists tb1, y. split; [done|]. split; [by apply ist_same|]. apply Shape; [|done]. rewrite A1, <- Ax. done.
  - destruct (wf_tab_cur _ _ _ _ W0 C) as (Wc & _). unfold tents in P0, ND0. rewrite C, O in P0, ND0. cbn [oents app] in P0, ND0.
    destruct (search_array_spec c k Wc ND0) as (r & E & A & Ke). rewrite E, obind.
    exists tb0, r. split; [done|]. split; [by apply ist_same|]. apply Shape; [|done]. rewrite A. by apply assoc_perm.
Qed.

(** ** Retaining *)
Definition marks {S} (f : S -> K * V -> S * bool) (s : S) (z : K * V) : S * V * bool * bool := ((f s z).1, z.2, (f s z).2, true).
Lemma mark_loop_spec {S} ep (f : S -> K * V -> S * bool) n : forall s b p out pre,
  wf_bucket hash INDEX b -> wf_ptr b p -> entries INDEX b = pre ++ BucketSpec.after (live_at INDEX) b p ->
  length (BucketSpec.after (live_at INDEX) b p) < n ->
  exists b' s' kept cons, mark_loop n ep f s b p out = Some (b', s', out ++ cons, true) /\
    visit_mut (marks f) s (BucketSpec.after (live_at INDEX) b p) = (s', kept, cons, true) /\
    wf_bucket hash INDEX b' /\ entries INDEX b' = pre ++ kept /\ stored b' = stored b.
Proof.
  induction n as [|n IH]; intros s b p out pre W Wp Ep L; [lia|]. cbn [mark_loop].
  pose proof (move_to_next_spec hash INDEX b p W Wp) as M. destruct (move_to_next INDEX b p) as [p' []].
  - destruct M as ([k v] & Pt & E). rewrite E in L, Ep |- *. cbn [length] in L. cbn [visit_mut].
    rewrite (points_to_get _ _ _ _ Pt), obind. unfold marks at 1. cbn [fst snd].
    pose proof (pre_unique hash INDEX b p' (k, v) pre W Pt Ep) as Pre.
    destruct (f s (k, v)).2 eqn:Kp.
    + destruct (IH (f s (k, v)).1 b p' out (pre ++ [(k, v)])) as (b2 & s2 & kept & cons & E2 & V2 & W2 & En2 & St2).
      { done. } { exact (points_to_wf_ptr hash INDEX b p' _ W Pt). } { rewrite Ep, <- app_assoc. done. } { lia. }
      rewrite E2, V2. eexists _, _, _, _. split; [done|]. split; [done|]. split; [done|]. split; [|done].
      rewrite En2, <- app_assoc. done.
    + destruct (mark_removed_spec hash b p' (k, v) ep W Pt) as (b1 & E1 & W1 & En1 & B1 & A1 & St1 & Wp1 & _).
      rewrite E1, obind.
      destruct (IH (f s (k, v)).1 b1 p' (out ++ [(k, v)]) pre) as (b2 & s2 & kept & cons & E2 & V2 & W2 & En2 & St2).
      { done. } { done. } { by rewrite En1, A1, <- Pre. } { rewrite A1. lia. }
      rewrite A1 in V2. rewrite E2, V2. eexists _, _, _, _. rewrite <- app_assoc. split; [done|]. split; [done|]. split; [done|].
      split; [done|]. by rewrite St2.
  - destruct M as [E _]. rewrite E in Ep |- *. cbn [visit_mut]. rewrite app_nil_r in Ep.
    exists b, s, [], []. rewrite !app_nil_r. done.
Qed.

Lemma mark_writer_spec {S} e (f : S -> K * V -> S * bool) n : forall i tb c s out, wf_table hash INDEX tb ->
  cur tb = Some c -> (i + N.of_nat n = alen c)%N -> pending hash INDEX tb c i ->
  exists tb' c' vs s' kept cons, writer_loop INDEX (same_gen e) hash tb (TableModel.range i (i + N.of_nat n))
       (fun s b => mark_loop (Datatypes.S (blen b)) (epoch e) f s b null_ptr []) s out = Some (tb', s', out ++ cons, true) /\
    visit_mut (marks f) s vs = (s', kept, cons, true) /\ cur tb' = Some c' /\
    low INDEX c i ++ vs ≡ₚ tents INDEX tb /\ ist hash tb tb' (low INDEX c i ++ kept) [].
Proof.
  induction n as [|n IH]; intros i tb c s out W C Hn Pd.
  - replace (TableModel.range i (i + N.of_nat 0)) with (@nil N).
    2:{ unfold TableModel.range. by replace (N.to_nat (i + N.of_nat 0 - i)) with 0 by lia. }
    exists tb, c, [], s, [], []. rewrite !app_nil_r. split; [done|]. split; [done|]. split; [done|].
    assert (i = alen c) as -> by lia. destruct (wf_tab_cur _ _ _ _ W C) as (Wc & _).
    assert (P : low INDEX c (alen c) ≡ₚ tents INDEX tb).
    { rewrite (tents_low INDEX tb c (alen c) C), (high_len hash INDEX c Wc), (pending_end hash Hh INDEX tb c W C Pd). by rewrite app_nil_r. }
    split; [done|]. apply ist_same; [by symmetry|by apply same_refl].
  - rewrite range_cons. cbn [writer_loop].
    destruct (prepare_low hash Hh INDEX (same_gen e) tb c i W C) as (tb1 & c1 & x & E1 & S1 & C1 & Z1 & L1 & P1 & X & Ow); [lia|done|].
    rewrite E1, obind. pose proof (sm_wf _ _ _ _ S1) as W1.
    destruct (owns_lock hash INDEX tb1 _ _ W1 Ow) as [Lk Wb]. rewrite Lk, obind.
    destruct (mark_loop_spec (epoch e) f (Datatypes.S (blen (bkt x))) s (bkt x) null_ptr [] []) as (b' & s1 & kept & cons & E2 & V2 & Wb' & En & St').
    { done. } { apply wf_null. } { by rewrite after_null. } { rewrite after_null, (wf_len _ _ _ Wb). lia. }
    rewrite E2, obind. cbn [fst snd app]. rewrite after_null in V2. cbn [app] in En.
    destruct (owns_split hash INDEX tb1 (Cur, i) (bkt x) W1 Ow) as (R & RS & TE & TS & Nk & PB).
    pose proof (visit_mut_keys _ _ _ _ _ _ _ V2) as Sub. rewrite <- En in Sub.
    destruct (PB b' Wb') as (tb2 & PBk).
    { intros z He. assert (z.1 ∈ (entries INDEX (bkt x)).*1) as He'.
      { eapply elem_of_submseteq; [|by apply sublist_submseteq]. apply elem_of_list_fmap. eauto. }
      apply elem_of_list_fmap in He' as (e' & -> & He'). by apply (owns_lkey hash INDEX tb1 (Cur, i) (bkt x)). }
    { eapply sublist_nodup; [exact Sub|]. assert (NoDup (tents INDEX tb1).*1) as ND by apply W1.
      rewrite TE, fmap_app in ND. by apply NoDup_app in ND as (? & _). }
    rewrite (pb_set _ _ _ _ _ _ _ _ PBk), obind.
    pose proof (pb_other _ _ _ _ _ _ _ _ PBk c1 i x eq_refl C1 X) as C2.
    set (c2 := set_cell c1 i (Cell b' (dead x))) in *.
    assert (X2 : cell_at c2 i = Some (Cell b' (dead x))).
    { apply list_lookup_insert. by apply cell_at_lt in X. }
    assert (L2 : low INDEX c2 i = low INDEX c1 i).
    { unfold low, c2. rewrite set_cell_bks, take_insert by lia. done. }
    assert (O2 : old tb2 = old tb1) by (by apply (pb_old _ _ _ _ _ _ _ _ PBk)).
    assert (P2 : pending hash INDEX tb2 c2 (i + 1)).
    { intros z. rewrite O2. apply P1. }
    assert (H2 : high INDEX c2 (i + 1) = high INDEX c1 (i + 1)).
    { unfold high, c2. rewrite set_cell_bks, drop_insert_gt by lia. done. }
    assert (St : ist hash tb tb2 (low INDEX c i ++ kept ++ oents INDEX (old tb1) ++ high INDEX c1 (i + 1)) []).
    { rewrite <- (release_nil tb2). eapply (put_ist hash tb tb1 (Cur, i) (bkt x) R RS b' tb2); [done|done|done| |by rewrite app_nil_r, St'].
      rewrite <- (pb_ents _ _ _ _ _ _ _ _ PBk).
      rewrite (tents_low INDEX tb2 c2 i C2), L2, L1, O2, (high_S INDEX c2 i _ X2), H2. cbn [bkt]. rewrite En.
      apply Permutation_app_head, perm3. }
    assert (T1 : tents INDEX tb1 ≡ₚ low INDEX c i ++ entries INDEX (bkt x) ++ oents INDEX (old tb1) ++ high INDEX c1 (i + 1)).
    { rewrite (tents_low INDEX tb1 c1 i C1), L1, (high_S INDEX c1 i x X). apply Permutation_app_head, perm3. }
    destruct (IH (i + 1)%N tb2 c2 s1 (out ++ cons) (pb_wf _ _ _ _ _ _ _ _ PBk) C2)
      as (tb3 & c3 & vs & s3 & kept3 & cons3 & E3 & V3 & C3 & P3 & S3).
    { change (alen c2) with (alen c1). unfold alen. rewrite Z1. unfold alen in Hn. lia. } { done. }
    rewrite E3. exists tb3, c3, (entries INDEX (bkt x) ++ vs), s3, (kept ++ kept3), (cons ++ cons3).
    rewrite (low_S INDEX c2 i _ X2), L2, L1 in P3, S3. cbn [bkt] in P3, S3. rewrite En in P3, S3.
    assert (Pv : vs ≡ₚ oents INDEX (old tb1) ++ high INDEX c1 (i + 1)).
    { rewrite (tents_low INDEX tb2 c2 i C2), L2, L1, O2, (high_S INDEX c2 i _ X2), H2 in P3. cbn [bkt] in P3. rewrite En in P3.
      rewrite <- app_assoc in P3. apply Permutation_app_inv_l in P3. rewrite perm3 in P3. by apply Permutation_app_inv_l in P3. }
    split; [by rewrite app_assoc|]. split; [by rewrite visit_mut_app, V2, V3|]. split; [done|].
    split; [by rewrite <- (sm_ents _ _ _ _ S1), T1, Pv|].
    rewrite <- app_assoc in S3. by eapply ist_trans0.
Qed.
Lemma retain_sync_ispec {S} e tb (f : S -> K * V -> S * bool) s : wf_table hash INDEX tb ->
  exists tb' vs s' kept cons, IndexModel.retain_sync e hash tb f s = Some (tb', s') /\
    vs ≡ₚ tents INDEX tb /\ visit_mut (marks f) s vs = (s', kept, cons, true) /\ ist hash tb tb' kept [].
Proof.
  intros W. unfold IndexModel.retain_sync. destruct (reclaim_spec hash Hh e tb W) as (tb0 & E0 & S0). rewrite E0, obind.
  pose proof (sm_wf _ _ _ _ S0) as W0. destruct (cur tb0) as [c|] eqn:C.
  - destruct (mark_writer_spec e f (N.to_nat (alen c)) 0 tb0 c s [] W0 C)
      as (tb1 & c1 & vs & s' & kept & cons & E & V1 & C1 & P & St); [lia|apply pending_0|].
    replace (0 + N.of_nat (N.to_nat (alen c)))%N with (alen c) in E by lia.
    rewrite E, obind. cbn [fst snd app]. rewrite low_0 in P, St. cbn [app] in P, St.
    pose proof (is_wf _ _ _ _ _ St) as W1.
    assert (exists tb2, match cons with [] => Some tb1 | _ => try_shrink INDEX tb1 0 end = Some tb2 /\ same hash INDEX tb1 tb2) as (tb2 & E2 & S2).
    { destruct cons; [exists tb1; split; [done|by apply same_refl]|].
      destruct (try_shrink_spec hash Hh INDEX tb1 c1 0 W1 C1) as (tb2 & E2 & S2 & _); [|eauto].
      apply alen_pos. by apply (wf_tab_cur hash INDEX tb1 c1 W1 C1). }
    rewrite E2, obind. exists tb2, vs, s', kept, cons. split; [done|]. split; [by rewrite P, (sm_ents _ _ _ _ S0)|]. split; [done|].
    eapply ist_trans0; [by apply (ist_same hash tb tb0 (tents INDEX tb))|]. by eapply ist_after.
  - exists tb0, [], s, [], []. split; [done|].
    assert (N0 : tents INDEX tb ≡ₚ []) by (by rewrite <- (sm_ents _ _ _ _ S0), (wf_none_tents hash INDEX tb0 W0 C)).
    split; [by rewrite N0|]. split; [done|]. by apply ist_same.
Qed.

(** ** Reservations *)
Lemma mst_same tb s : wf_table hash INDEX tb -> CapModel.resizing s = false ->
  (exists m0 : N, CapFacts.min_inv m0 (maxcap tb) s) -> ist hash tb (with_mst tb s) (tents INDEX tb) [].
Proof. intros W R I. split; [by apply wf_with_mst|done|done]. Qed.
Lemma reserve_ispec tb n m : wf_table hash INDEX tb -> tents INDEX tb ≡ₚ m ->
  exists tb' r, reserve INDEX tb n = Some (tb', r) /\ ist hash tb tb' m [].
Proof.
  intros W P. unfold reserve. pose proof (wt_min _ _ _ W) as [Wi (m0 & Wm) Wp Wl].
  destruct (CapFacts.min_step_inv m0 (maxcap tb) (mst tb) (CapModel.EvReserve n)) as (s' & r & E & I & _); [lia|done|].
  pose proof (min_step_idle _ _ _ _ _ Wi E) as R. cbn in R. rewrite E, obind. cbn [fst snd].
  assert (H1 : ist hash tb (with_mst tb s') m []) by (eapply ist_perm; [apply mst_same; eauto|done]).
  destruct (_ <? _)%N.
  - rewrite obind. eauto.
  - destruct (try_resize0 hash Hh INDEX _ (is_wf _ _ _ _ _ H1)) as (tb2 & E2 & S2). rewrite E2, obind.
    exists tb2, r. split; [done|]. by eapply ist_after.
Qed.
Lemma unreserve_ispec tb i m : wf_table hash INDEX tb -> tents INDEX tb ≡ₚ m ->
  exists tb', unreserve INDEX tb i = Some tb' /\ ist hash tb tb' m [].
Proof.
  intros W P. unfold unreserve. destruct (_ !! i) as [n|].
  2:{ exists tb. split; [done|]. apply ist_same; [done|by apply same_refl]. }
  pose proof (wt_min _ _ _ W) as [Wi (m0 & Wm) Wp Wl].
  destruct (CapFacts.min_step_inv m0 (maxcap tb) (mst tb) (CapModel.EvDrop i)) as (s' & r & E & I & _); [lia|done|].
  pose proof (min_step_idle _ _ _ _ _ Wi E) as R. cbn in R. rewrite E, obind. cbn [fst snd].
  assert (H1 : ist hash tb (with_mst tb s') m []) by (eapply ist_perm; [apply mst_same; eauto|done]).
  pose proof (is_wf _ _ _ _ _ H1) as W1.
  destruct (try_shrink_any hash Hh INDEX (with_mst tb s') 0 W1) as (tb2 & E2 & S2 & _).
  { intros c C. apply alen_pos. by apply (wf_tab_cur hash INDEX _ c W1 C). }
  rewrite E2. exists tb2. split; [done|]. by eapply ist_after.
Qed.

(** ** Creation and destruction *)
Lemma new_index_spec cap : exists tb, new_index (K:=K) (V:=V) cap = Some tb /\ wf_table hash INDEX tb /\
  tents INDEX tb = [] /\ released tb = [] /\ tstored tb = [].
Proof.
  unfold new_index. change CapModel.MAXIMUM_CAPACITY_LIMIT with (2 ^ 62)%N.
  destruct (new_table_spec (V:=V) hash INDEX cap (2 ^ 62)) as (tb & E & Hd & _ & G); [by exists 62%N|done| |].
  { intros s E. destruct (CapFacts.capacity_rounding cap) as (s' & E' & _ & B & _). rewrite E in E'. injection E' as <-. apply B. }
  exists tb. split; [done|]. split; [apply Hd|]. split; [apply Permutation_nil_r, (hd_ents _ _ _ _ _ Hd)|].
  split; [apply Permutation_nil_r, (hd_rel _ _ _ _ _ Hd)|].
  unfold new_table in E. unfold tstored. rewrite (hd_garb _ _ _ _ _ Hd). destruct (cap =? 0)%N.
  - by injection E as <-.
  - destruct (new_barray_spec (K:=K) (V:=V) hash INDEX cap) as (a & Ea & Wa & Ia & Sa & _). rewrite Ea, obind in E.
    injection E as <-. cbn [cur old ostored map concat app]. by rewrite Sa.
Qed.
Lemma ents_stored len i (bl : block K V) : ents (live_at INDEX) len i bl ⊆+ ents stored_at len i bl.
Proof.
  unfold ents. induction (seq i (len - i)) as [|j js IH]; [done|]. cbn [map concat]. apply submseteq_app; [|done].
  unfold live_at. destruct (tb _ j); [done|]. apply submseteq_nil_l.
Qed.
Lemma entries_stored b : entries INDEX b ⊆+ stored b.
Proof.
  unfold entries, stored, all_ents. apply submseteq_app; [apply ents_stored|]. unfold lents.
  induction (links b) as [|bl ls IH]; [done|]. cbn [map concat]. apply submseteq_app; [apply ents_stored|done].
Qed.
Lemma aents_astored a : aents INDEX a ⊆+ astored a.
Proof.
  unfold aents, astored. induction (bks a) as [|x cs IH]; [done|]. cbn [map concat]. apply submseteq_app; [apply entries_stored|done].
Qed.
Lemma tents_tstored tb : tents INDEX tb ⊆+ tstored tb.
Proof.
  unfold tents, tstored. apply submseteq_app.
  - destruct (old tb); [apply aents_astored|done].
  - rewrite <- (app_nil_r (oents _ _)). apply submseteq_app; [|apply submseteq_nil_l].
    destruct (cur tb); [apply aents_astored|done].
Qed.
Lemma drop_index_spec tb : wf_table hash INDEX tb ->
  exists es, drop_table INDEX tb = Some es /\ es ≡ₚ released tb ++ tstored tb.
Proof.
  intros W. unfold drop_table. destruct (drop_arrays_spec hash Hh (garbage tb) (wt_garbage _ _ _ W)) as (g & Eg & Pg).
  assert (One : forall a, wf_array hash INDEX a -> exists es, drop_array INDEX a = Some es /\ es ≡ₚ astored a).
  { intros a Wa. destruct (drop_arrays_spec hash Hh [a]) as (es & E & P); [by constructor|]. cbn [drop_arrays] in E.
    destruct (drop_array INDEX a) as [es'|]; [|done]. rewrite !obind in E. injection E as <-.
    exists es'. split; [done|]. cbn [map concat] in P. by rewrite !app_nil_r in P. }
  pose proof (wt_arrays _ _ _ W) as A. unfold tstored.
  destruct (cur tb) as [c|] eqn:C; destruct (old tb) as [o|] eqn:O; [..|done|].
  - destruct A as (Wp & _). destruct (One o) as (es & E & Pe); [apply Wp|]. destruct (One c) as (es' & E' & Pe'); [apply Wp|].
    rewrite E, obind, E', obind, Eg, obind. eexists. split; [done|]. by rewrite Pe, Pe', Pg.
  - destruct A as (Wc & _). destruct (One c) as (es' & E' & Pe'); [done|].
    rewrite obind, E', obind, Eg, obind. eexists. split; [done|]. by rewrite Pe', Pg.
  - rewrite !obind, Eg, obind. eexists. split; [done|]. by rewrite Pg.
Qed.
End facts2.
