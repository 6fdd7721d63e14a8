(** Iteration over the whole table. *)
From Coq Require Import NArith Lia.
From stdpp Require Import numbers prelude list.
From Verif Require CapModel CapSpec CapFacts CapThms.
From Verif Require Import LruModel BucketModel BucketSpec BucketFacts BucketOps BucketOps2 BucketOps3
  MapSpec MapFacts BucketRun BucketRunFacts TableModel TableSpec TableFacts TableReloc TableHouse TableResize TableAccess
  TableOps IterSpec.

Section visit_facts.
Context {K V S : Type}.
Implicit Types (l : list (K * V)).
Lemma visit_app (f : S -> K * V -> S * bool) l1 : forall s l2,
  visit f s (l1 ++ l2) = if (visit f s l1).2 then visit f (visit f s l1).1 l2 else visit f s l1.
Proof.
  induction l1 as [|e l1 IH]; intros s l2; [done|]. cbn [app visit].
  destruct (f s e).2; [apply IH|done].
Qed.
Lemma visit_mut_app (f : S -> K * V -> S * V * bool * bool) l1 : forall s l2,
  visit_mut f s (l1 ++ l2) =
    let '(s1, k1, o1, g1) := visit_mut f s l1 in
    if g1 then let '(s2, k2, o2, g2) := visit_mut f s1 l2 in (s2, k1 ++ k2, o1 ++ o2, g2)
    else (s1, k1 ++ l2, o1, false).
Proof.
  induction l1 as [|e l1 IH]; intros s l2; cbn [app visit_mut].
  { by destruct (visit_mut f s l2) as [[[? ?] ?] ?]. }
  destruct (f s e) as [[[s1 v] keep] go]. destruct go.
  - rewrite IH. destruct (visit_mut f s1 l1) as [[[s2 k2] o2] g2]. destruct g2.
    + destruct keep; by destruct (visit_mut f s2 l2) as [[[s3 k3] o3] g3].
    + by destruct keep.
  - by destruct keep.
Qed.
Lemma visit_mut_keys (f : S -> K * V -> S * V * bool * bool) l : forall s s' kept out g,
  visit_mut f s l = (s', kept, out, g) -> kept.*1 `sublist_of` l.*1.
Proof.
  induction l as [|e l IH]; intros s s' kept out g; cbn [visit_mut].
  { intros [= <- <- <- <-]. done. }
  destruct (f s e) as [[[s1 v] keep] go].
  destruct (if go then visit_mut f s1 l else (s1, l, [], false)) as [[[s2 k2] o2] g2] eqn:E.
  assert (k2.*1 `sublist_of` l.*1) as Sb.
  { destruct go; [by eapply IH|]. by injection E as <- <- <- <-. }
  destruct keep; intros [= <- <- <- <-].
  - rewrite !fmap_cons. cbn [fst]. by constructor.
  - rewrite fmap_cons. by constructor.
Qed.
Lemma sublist_nodup {A} (l k : list A) : l `sublist_of` k -> NoDup k -> NoDup l.
Proof.
  induction 1 as [|x l k S' IH|x l k S' IH]; intros ND; [done| |].
  - apply NoDup_cons in ND as [N1 N2]. apply NoDup_cons. split; [|by apply IH].
    intros X. apply N1. eapply elem_of_submseteq; [exact X|by apply sublist_submseteq].
  - apply NoDup_cons in ND as [N1 N2]. by apply IH.
Qed.
End visit_facts.

Section iter.
Context {K V : Type} `{EqDecision K}.
Context (hash : K -> N).
Context (Hh : forall k, (hash k < 2 ^ 64)%N).
Implicit Types (a c o : barray K V) (x : cell K V) (tb : table K V) (b : bucket K V) (l : loc).
Implicit Types (m : list (K * V)).

Lemma read_loop_spec {S} t (f : S -> K * V -> S * bool) n : forall s b p, wf_core hash t b -> wf_ptr b p ->
  length (after (live_at t) b p) < n ->
  read_loop n t f s b p = Some (visit f s (after (live_at t) b p)).
Proof.
  induction n as [|n IH]; intros s b p W Wp L; [lia|]. cbn [read_loop].
  pose proof (move_to_next_spec hash t b p W Wp) as M. destruct (move_to_next t b p) as [p' []].
  - destruct M as (e & Pt & E). rewrite E in L |- *. cbn [length] in L. cbn [visit].
    rewrite (points_to_get _ _ _ _ Pt), obind. destruct (f s e).2; [|done].
    apply IH; [done| |lia]. exact (points_to_wf_ptr hash t b p' e W Pt).
  - destruct M as [E _]. by rewrite E.
Qed.

Definition of_verdict {S} (f : S -> K * V -> verdict V S) (s : S) (e : K * V) : S * V * bool * bool :=
  let d := f s e in (v_state d, v_value d, v_keep d, v_go d).

Lemma pre_unique t b p e (pre : list (K * V)) : wf_core hash t b -> points_to t b p e ->
  entries t b = pre ++ e :: after (live_at t) b p -> pre = before (live_at t) b p.
Proof.
  intros W Pt E. rewrite (points_to_split hash t b p e W Pt) in E. by apply app_inj_2 in E as [-> _].
Qed.

Lemma mut_loop_spec {S} t (f : S -> K * V -> verdict V S) n : t <> INDEX -> forall s b p out pre,
  wf_bucket hash t b -> wf_ptr b p -> entries t b = pre ++ after (live_at t) b p ->
  length (after (live_at t) b p) < n ->
  exists b' s' kept cons go, mut_loop n t f s b p out = Some (b', s', out ++ cons, go) /\
    visit_mut (of_verdict f) s (after (live_at t) b p) = (s', kept, cons, go) /\
    wf_bucket hash t b' /\ entries t b' = pre ++ kept.
Proof.
  intros Ht. induction n as [|n IH]; intros s b p out pre W Wp Ep L; [lia|]. cbn [mut_loop].
  pose proof (move_to_next_spec hash t b p W Wp) as M. destruct (move_to_next t b p) as [p' []].
  - destruct M as (e & Pt & E). rewrite E in L, Ep |- *. cbn [length] in L. cbn [visit_mut].
    rewrite (points_to_get _ _ _ _ Pt), obind. unfold of_verdict at 1. set (d := f s e).
    pose proof (pre_unique t b p' e pre W Pt Ep) as Pre.
    destruct (replace_value_spec hash t b p' e (v_value d) W Pt) as (b1 & E1 & W1 & En1 & B1 & A1 & Pt1 & _).
    rewrite E1, obind. cbn [fst snd]. rewrite <- Pre in En1, B1.
    destruct (v_keep d) eqn:Kp.
    + rewrite obind. cbn [fst snd]. destruct (v_go d).
      * destruct (IH (v_state d) b1 p' out (pre ++ [(e.1, v_value d)])) as (b2 & s2 & kept & cons & go & E2 & V2 & W2 & En2).
        { done. } { exact (points_to_wf_ptr hash t b1 p' _ W1 Pt1). }
        { rewrite En1, A1, <- app_assoc. done. } { rewrite A1. lia. }
        rewrite E2. rewrite A1 in V2. rewrite V2. eexists _, _, _, _, _. split; [done|]. split; [done|]. split; [done|].
        rewrite En2, <- app_assoc. done.
      * eexists _, _, _, _, _. rewrite app_nil_r. split; [done|]. split; [done|]. split; [done|]. rewrite En1. done.
    + destruct (remove_spec hash t b1 p' (e.1, v_value d) W1 Pt1) as (b2 & p2 & E2 & W2 & T).
      rewrite E2, !obind. cbn [fst snd].
      pose proof (taken_entries _ _ _ _ _ _ _ T) as En2. rewrite B1, A1 in En2.
      pose proof (taken_after _ _ _ _ _ _ _ T) as A2. rewrite A1 in A2.
      destruct (v_go d).
      * destruct (IH (v_state d) b2 p2 (out ++ [(e.1, v_value d)]) pre) as (b3 & s3 & kept & cons & go & E3 & V3 & W3 & En3).
        { done. } { apply T. } { by rewrite En2, A2. } { rewrite A2. lia. }
        rewrite E3. rewrite A2 in V3. rewrite V3. eexists _, _, _, _, _. rewrite <- app_assoc. split; [done|]. done.
      * eexists _, _, _, _, _. split; [done|]. done.
  - destruct M as [E _]. rewrite E in Ep |- *. cbn [visit_mut]. rewrite app_nil_r in Ep.
    eexists _, _, _, _, _. rewrite app_nil_r. split; [done|]. split; [done|]. split; [done|]. by rewrite app_nil_r.
Qed.

(** Entries of the first [i] buckets, and of the rest. *)
Definition low t c (i : N) : list (K * V) := concat (map (fun x => entries t (bkt x)) (take (N.to_nat i) (bks c))).
Definition high t c (i : N) : list (K * V) := concat (map (fun x => entries t (bkt x)) (drop (N.to_nat i) (bks c))).
Lemma low_high t c i : low t c i ++ high t c i = aents t c.
Proof. unfold low, high, aents. by rewrite <- concat_app, <- map_app, take_drop. Qed.
Lemma low_S t c i x : cell_at c i = Some x -> low t c (i + 1) = low t c i ++ entries t (bkt x).
Proof.
  intros X. unfold low. replace (N.to_nat (i + 1)) with (Datatypes.S (N.to_nat i)) by lia.
  rewrite (take_S_r _ _ x X), map_app, concat_app. cbn [map concat]. by rewrite app_nil_r.
Qed.
Lemma high_S t c i x : cell_at c i = Some x -> high t c i = entries t (bkt x) ++ high t c (i + 1).
Proof.
  intros X. unfold high. replace (N.to_nat (i + 1)) with (Datatypes.S (N.to_nat i)) by lia.
  rewrite (drop_S _ x _ X). done.
Qed.
Lemma high_0 t c : high t c 0 = aents t c.
Proof. unfold high. by rewrite drop_0. Qed.
Lemma low_0 t c : low t c 0 = [].
Proof. unfold low. by rewrite take_0. Qed.
Lemma high_len t c : wf_array hash t c -> high t c (alen c) = [].
Proof. intros W. unfold high. by rewrite drop_ge by (rewrite (wa_len _ _ _ W); lia). Qed.

(** The old array holds only entries of buckets not yet visited. *)
Definition pending t tb c (i : N) : Prop := forall e, e ∈ oents t (old tb) -> (i <= CapModel.bucket_index (sz c) (hash e.1))%N.

Lemma range_cons i n : TableModel.range i (i + N.of_nat (Datatypes.S n)) = i :: TableModel.range (i + 1) (i + 1 + N.of_nat n).
Proof.
  unfold TableModel.range. replace (N.to_nat (i + N.of_nat (Datatypes.S n) - i)) with (Datatypes.S n) by lia.
  replace (N.to_nat (i + 1 + N.of_nat n - (i + 1))) with n by lia.
  cbn [seq map]. f_equal; [lia|]. rewrite <- seq_shift, map_map. apply map_ext. intros d. lia.
Qed.

Lemma prepare_low t sg tb c i : wf_table hash t tb -> cur tb = Some c -> (i < alen c)%N -> pending t tb c i ->
  exists tb' c' x, prepare t sg hash tb i = Some tb' /\ same hash t tb tb' /\ cur tb' = Some c' /\ sz c' = sz c /\
    low t c' i = low t c i /\ pending t tb' c' (i + 1) /\ cell_at c' i = Some x /\ owns hash tb' (Cur, i) (bkt x).
Proof.
  intros W C Hi Pd. destruct (prepare_spec hash Hh t sg tb c i W C Hi) as (tb1 & E1 & S1 & R1).
  destruct (st_cur _ _ _ _ S1 c C) as (c1 & C1 & Z1 & B1).
  pose proof (sm_wf _ _ _ _ (st_same _ _ _ _ S1)) as W1. destruct (wf_tab_cur _ _ _ _ W1 C1) as (Wc1 & _).
  destruct (cell_some hash t c1 i Wc1) as (x & X); [unfold alen; by rewrite Z1|].
  exists tb1, c1, x. split; [done|]. split; [apply S1|]. split; [done|]. split; [done|]. split; [|split; [|split; [done|]]].
  - unfold low. f_equal. f_equal. apply list_eq. intros j. destruct (decide (j < N.to_nat i)) as [Hj|Hj].
    + rewrite !lookup_take by done. apply B1. intros e He. pose proof (Pd e He). unfold bi. lia.
    + rewrite !lookup_take_ge by lia. done.
  - intros e He. rewrite Z1. pose proof (ready_ents hash t tb1 c1 i e W1 R1 C1 He) as Ne. rewrite Z1 in Ne.
    pose proof (Pd e (st_old _ _ _ _ S1 e He)). lia.
  - by exists c1, x.
Qed.

Lemma pending_end t tb c : wf_table hash t tb -> cur tb = Some c -> pending t tb c (alen c) -> oents t (old tb) = [].
Proof.
  intros W C Pd. destruct (wf_tab_cur _ _ _ _ W C) as (Wc & _).
  destruct (oents t (old tb)) as [|e es] eqn:E; [done|]. exfalso.
  pose proof (Pd e) as Q. rewrite E in Q. pose proof (index_lt hash Hh t c e.1 Wc). specialize (Q ltac:(set_solver)). lia.
Qed.
Lemma tents_low t tb c i : cur tb = Some c -> tents t tb ≡ₚ low t c i ++ oents t (old tb) ++ high t c i.
Proof. intros C. unfold tents. rewrite C. cbn [oents]. rewrite <- (low_high t c i). apply perm3. Qed.

Lemma reader_loop_spec {S} t sg (f : S -> K * V -> S * bool) n : forall i tb c s, wf_table hash t tb ->
  cur tb = Some c -> (i + N.of_nat n = alen c)%N -> pending t tb c i ->
  exists tb' vs, reader_loop t sg hash tb (TableModel.range i (i + N.of_nat n))
       (fun s b => read_loop (Datatypes.S (blen b)) t f s b null_ptr) s = Some (tb', (visit f s vs).1, (visit f s vs).2) /\
    low t c i ++ vs ≡ₚ tents t tb /\ same hash t tb tb'.
Proof.
  induction n as [|n IH]; intros i tb c s W C Hn Pd.
  - replace (TableModel.range i (i + N.of_nat 0)) with (@nil N).
    2:{ unfold TableModel.range. by replace (N.to_nat (i + N.of_nat 0 - i)) with 0 by lia. }
    exists tb, []. split; [done|]. rewrite app_nil_r. split; [|by apply same_refl].
    assert (i = alen c) as -> by lia. destruct (wf_tab_cur _ _ _ _ W C) as (Wc & _).
    rewrite (tents_low t tb c (alen c) C), (high_len t c Wc), (pending_end t tb c W C Pd). by rewrite app_nil_r.
  - rewrite range_cons. cbn [reader_loop].
    destruct (prepare_low t sg tb c i W C) as (tb1 & c1 & x & E1 & S1 & C1 & Z1 & L1 & P1 & X & Ow); [lia|done|].
    rewrite E1, obind. pose proof (sm_wf _ _ _ _ S1) as W1.
    destruct (owns_lock hash t tb1 _ _ W1 Ow) as [Lk Wb]. rewrite Lk, obind.
    rewrite (read_loop_spec t f); [|apply Wb|apply wf_null|rewrite after_null, (wf_len _ _ _ Wb); lia].
    rewrite after_null, obind.
    destruct ((visit f s (entries t (bkt x))).2) eqn:G.
    + destruct (IH (i + 1)%N tb1 c1 (visit f s (entries t (bkt x))).1 W1 C1) as (tb2 & vs & E2 & P2 & S2).
      { unfold alen. rewrite Z1. unfold alen in Hn. lia. } { done. }
      rewrite E2. exists tb2, (entries t (bkt x) ++ vs). rewrite visit_app, G. split; [done|]. split.
      * rewrite <- (sm_ents _ _ _ _ S1), <- P2, (low_S t c1 i x X), L1. by rewrite app_assoc.
      * by eapply same_trans.
    + exists tb1, (entries t (bkt x) ++ oents t (old tb1) ++ high t c1 (i + 1)).
      rewrite visit_app, G. split; [by rewrite G|]. split; [|done].
      rewrite <- (sm_ents _ _ _ _ S1), (tents_low t tb1 c1 i C1), L1. apply Permutation_app_head.
      rewrite (high_S t c1 i x X). symmetry. apply perm3.
Qed.

Lemma pending_0 t tb c : pending t tb c 0.
Proof. intros e _. lia. Qed.
Lemma wf_none_tents t tb : wf_table hash t tb -> cur tb = None -> tents t tb = [].
Proof. intros W C. unfold tents. by rewrite C, (wf_tab_none _ _ _ W C). Qed.

Lemma iter_sync_spec {S} t sg tb (f : S -> K * V -> S * bool) s : wf_table hash t tb ->
  exists tb' vs, iter_sync t sg hash tb f s = Some (tb', (visit f s vs).1, (visit f s vs).2) /\
    vs ≡ₚ tents t tb /\ same hash t tb tb'.
Proof.
  intros W. unfold iter_sync. destruct (cur tb) as [c|] eqn:C.
  - destruct (reader_loop_spec t sg f (N.to_nat (alen c)) 0 tb c s W C) as (tb' & vs & E & P & S'); [lia|apply pending_0|].
    replace (0 + N.of_nat (N.to_nat (alen c)))%N with (alen c) in E by lia.
    rewrite E. exists tb', vs. rewrite low_0 in P. done.
  - exists tb, []. split; [done|]. split; [by rewrite (wf_none_tents t tb W C)|by apply same_refl].
Qed.

Lemma writer_loop_spec {S} t sg (f : S -> K * V -> verdict V S) n : t <> INDEX -> forall i tb c s out, wf_table hash t tb ->
  cur tb = Some c -> (i + N.of_nat n = alen c)%N -> pending t tb c i ->
  exists tb' c' vs s' kept cons go, writer_loop t sg hash tb (TableModel.range i (i + N.of_nat n))
       (fun s b => mut_loop (Datatypes.S (blen b)) t f s b null_ptr []) s out = Some (tb', s', out ++ cons, go) /\
    visit_mut (of_verdict f) s vs = (s', kept, cons, go) /\ cur tb' = Some c' /\
    low t c i ++ vs ≡ₚ tents t tb /\ step hash t tb tb' (low t c i ++ kept) [].
Proof.
  intros Ht. induction n as [|n IH]; intros i tb c s out W C Hn Pd.
  - replace (TableModel.range i (i + N.of_nat 0)) with (@nil N).
    2:{ unfold TableModel.range. by replace (N.to_nat (i + N.of_nat 0 - i)) with 0 by lia. }
    exists tb, c, [], s, [], [], true. rewrite !app_nil_r. split; [done|]. split; [done|]. split; [done|].
    assert (i = alen c) as -> by lia. destruct (wf_tab_cur _ _ _ _ W C) as (Wc & _).
    assert (P : low t c (alen c) ≡ₚ tents t tb).
    { rewrite (tents_low t tb c (alen c) C), (high_len t c Wc), (pending_end t tb c W C Pd). by rewrite app_nil_r. }
    split; [done|]. apply step_same; [done|by symmetry|by apply same_refl].
  - rewrite range_cons. cbn [writer_loop].
    destruct (prepare_low t sg tb c i W C) as (tb1 & c1 & x & E1 & S1 & C1 & Z1 & L1 & P1 & X & Ow); [lia|done|].
    rewrite E1, obind. pose proof (sm_wf _ _ _ _ S1) as W1.
    destruct (owns_lock hash t tb1 _ _ W1 Ow) as [Lk Wb]. rewrite Lk, obind.
    destruct (mut_loop_spec t f (Datatypes.S (blen (bkt x))) Ht s (bkt x) null_ptr [] []) as (b' & s1 & kept & cons & go & E2 & V2 & Wb' & En).
    { done. } { apply wf_null. } { by rewrite after_null. } { rewrite after_null, (wf_len _ _ _ Wb). lia. }
    rewrite E2, obind. cbn [fst snd app]. rewrite after_null in V2. cbn [app] in En.
    destruct (owns_split hash t tb1 (Cur, i) (bkt x) W1 Ow) as (R & RS & TE & _ & Nk & PB).
    pose proof (visit_mut_keys _ _ _ _ _ _ _ V2) as Sub. rewrite <- En in Sub.
    destruct (PB b' Wb') as (tb2 & PBk).
    { intros e He. assert (e.1 ∈ (entries t (bkt x)).*1) as He'.
      { eapply elem_of_submseteq; [|by apply sublist_submseteq]. apply elem_of_list_fmap. eauto. }
      apply elem_of_list_fmap in He' as (e' & -> & He'). by apply (owns_lkey hash t tb1 (Cur, i) (bkt x)). }
    { eapply sublist_nodup; [exact Sub|]. assert (NoDup (tents t tb1).*1) as ND by apply W1.
      rewrite TE, fmap_app in ND. by apply NoDup_app in ND as (? & _). }
    rewrite (pb_set _ _ _ _ _ _ _ _ PBk), obind.
    pose proof (pb_other _ _ _ _ _ _ _ _ PBk c1 i x eq_refl C1 X) as C2.
    set (c2 := set_cell c1 i (Cell b' (dead x))) in *.
    assert (X2 : cell_at c2 i = Some (Cell b' (dead x))).
    { apply list_lookup_insert. by apply cell_at_lt in X. }
    assert (L2 : low t c2 i = low t c1 i).
    { unfold low, c2. rewrite set_cell_bks, take_insert by lia. done. }
    assert (O2 : old tb2 = old tb1) by (by apply (pb_old _ _ _ _ _ _ _ _ PBk)).
    assert (P2 : pending t tb2 c2 (i + 1)).
    { intros e. rewrite O2. apply P1. }
    assert (H2 : high t c2 (i + 1) = high t c1 (i + 1)).
    { unfold high, c2. rewrite set_cell_bks, drop_insert_gt by lia. done. }
    assert (St : step hash t tb tb2 (low t c i ++ kept ++ oents t (old tb1) ++ high t c1 (i + 1)) []).
    { eapply put_step; [done|exact S1|exact PBk|]. rewrite <- (pb_ents _ _ _ _ _ _ _ _ PBk).
      rewrite (tents_low t tb2 c2 i C2), L2, L1, O2, (high_S t c2 i _ X2), H2. cbn [bkt]. rewrite En.
      apply Permutation_app_head, perm3. }
    assert (T1 : tents t tb1 ≡ₚ low t c i ++ entries t (bkt x) ++ oents t (old tb1) ++ high t c1 (i + 1)).
    { rewrite (tents_low t tb1 c1 i C1), L1, (high_S t c1 i x X). apply Permutation_app_head, perm3. }
    destruct go.
    + destruct (IH (i + 1)%N tb2 c2 s1 (out ++ cons) (pb_wf _ _ _ _ _ _ _ _ PBk) C2)
        as (tb3 & c3 & vs & s3 & kept3 & cons3 & go3 & E3 & V3 & C3 & P3 & S3).
      { change (alen c2) with (alen c1). unfold alen. rewrite Z1. unfold alen in Hn. lia. } { done. }
      rewrite E3. exists tb3, c3, (entries t (bkt x) ++ vs), s3, (kept ++ kept3), (cons ++ cons3), go3.
      rewrite (low_S t c2 i _ X2), L2, L1 in P3, S3. cbn [bkt] in P3, S3. rewrite En in P3, S3.
      assert (Pv : vs ≡ₚ oents t (old tb1) ++ high t c1 (i + 1)).
      { rewrite (tents_low t tb2 c2 i C2), L2, L1, O2, (high_S t c2 i _ X2), H2 in P3. cbn [bkt] in P3. rewrite En in P3.
        rewrite <- app_assoc in P3. apply Permutation_app_inv_l in P3. rewrite perm3 in P3. by apply Permutation_app_inv_l in P3. }
      split; [by rewrite app_assoc|]. split; [by rewrite visit_mut_app, V2, V3|]. split; [done|].
      split; [by rewrite <- (sm_ents _ _ _ _ S1), T1, Pv|].
      rewrite <- app_assoc in S3. change (@nil (K * V)) with (@nil (K * V) ++ []). by eapply step_trans.
    + exists tb2, c2, (entries t (bkt x) ++ oents t (old tb1) ++ high t c1 (i + 1)), s1,
        (kept ++ oents t (old tb1) ++ high t c1 (i + 1)), cons, false.
      split; [done|]. split; [by rewrite visit_mut_app, V2|]. split; [done|].
      split; [by rewrite <- (sm_ents _ _ _ _ S1), T1|]. done.
Qed.

Lemma iter_mut_sync_spec {S} t sg tb (f : S -> K * V -> verdict V S) s : t <> INDEX -> wf_table hash t tb ->
  exists tb' vs s' kept cons go, iter_mut_sync t sg hash tb f s = Some (tb', s', cons, go) /\
    vs ≡ₚ tents t tb /\ visit_mut (of_verdict f) s vs = (s', kept, cons, go) /\ step hash t tb tb' kept [].
Proof.
  intros Ht W. unfold iter_mut_sync. destruct (cur tb) as [c|] eqn:C.
  - destruct (writer_loop_spec t sg f (N.to_nat (alen c)) Ht 0 tb c s [] W C)
      as (tb1 & c1 & vs & s' & kept & cons & go & E & V1 & C1 & P & St); [lia|apply pending_0|].
    replace (0 + N.of_nat (N.to_nat (alen c)))%N with (alen c) in E by lia.
    rewrite E, obind. cbn [fst snd app]. rewrite low_0 in P, St. cbn [app] in P, St.
    pose proof (sp_wf _ _ _ _ _ _ St) as W1.
    assert (exists tb2, match cons with [] => Some tb1 | _ => try_shrink t tb1 0 end = Some tb2 /\ same hash t tb1 tb2) as (tb2 & E2 & S2).
    { destruct cons; [exists tb1; split; [done|by apply same_refl]|].
      destruct (try_shrink_spec hash Hh t tb1 c1 0 W1 C1) as (tb2 & E2 & S2 & _); [|eauto].
      apply alen_pos. by apply (wf_tab_cur hash t tb1 c1 W1 C1). }
    rewrite E2, obind. exists tb2, vs, s', kept, cons, go. split; [done|]. split; [done|]. split; [done|].
    change (@nil (K * V)) with (@nil (K * V) ++ []). eapply step_trans; [exact St|].
    apply step_same; [done|apply St|done].
  - exists tb, [], s, [], [], true. split; [done|]. rewrite (wf_none_tents t tb W C). split; [done|]. split; [done|].
    apply step_same; [done|by rewrite (wf_none_tents t tb W C)|by apply same_refl].
Qed.

Lemma release_step t tb tb' m rel : step hash t tb tb' m [] -> step hash t tb (release tb' rel) m rel.
Proof.
  intros S. pose proof (sp_wf _ _ _ _ _ _ S) as W. split; try apply S.
  - destruct W. split; try done. by apply (wf_min_eq tb').
  - unfold release. cbn [released]. by rewrite (sp_rel _ _ _ _ _ _ S), app_nil_r.
Qed.
Lemma retain_sync_spec {S} t sg tb (pred : S -> K * V -> S * V * bool) s : t <> INDEX -> wf_table hash t tb ->
  exists tb' vs s' kept cons, retain_sync t sg hash tb pred s = Some (tb', s') /\
    vs ≡ₚ tents t tb /\
    visit_mut (fun s e => (pred s e, true)) s vs = (s', kept, cons, true) /\
    step hash t tb tb' kept cons.
Proof.
  intros Ht W. unfold retain_sync.
  set (g := fun s e => let d := pred s e in _).
  destruct (iter_mut_sync_spec t sg tb g s Ht W) as (tb' & vs & s' & kept & cons & go & E & P & V1 & St).
  rewrite E, obind. cbn [fst snd]. exists (release tb' cons), vs, s', kept, cons.
  split; [done|]. split; [done|].
  assert (Eq : forall (l : list (K * V)) s, visit_mut (fun s e => (pred s e, true)) s l =
     visit_mut (of_verdict g) s l).
  { induction l as [|e l IH]; intros s2; cbn [visit_mut]; [done|]. 
    replace (of_verdict g s2 e) with (pred s2 e, true) by (unfold of_verdict, g; cbn; by destruct (pred s2 e) as [[? ?] ?]).
    destruct (pred s2 e) as [[s3 v] k3]. cbn iota. by rewrite IH. }
  assert (Go : forall (l : list (K * V)) s s' k z q, visit_mut (fun s e => (pred s e, true)) s l = (s', k, z, q) -> q = true).
  { induction l as [|e l IH]; intros s2 s3 k3 c3 g3; cbn [visit_mut]; [by intros [= <- <- <- <-]|].
    destruct (pred s2 e) as [[s4 v] k4]. destruct (visit_mut _ s4 l) as [[[s5 k5] c5] g5] eqn:E5.
    apply IH in E5 as ->. by destruct k4; intros [= <- <- <- <-]. }
  rewrite <- Eq in V1. split; [by rewrite V1, (Go _ _ _ _ _ _ V1)|]. by apply release_step.
Qed.
End iter.
