(** HashMap histories against the reference. *)
From Coq Require Import NArith Lia.
From stdpp Require Import numbers prelude list.
From Verif Require CapModel CapSpec CapFacts CapThms.
From Verif Require Import LruModel BucketModel BucketSpec BucketFacts BucketOps BucketOps2 BucketOps3
  MapSpec MapFacts BucketRun BucketRunFacts TableModel TableSpec TableFacts TableReloc TableHouse TableResize TableAccess
  TableOps IterSpec TableIter MapModel MapRef.

Section mapfacts.
Context {K V : Type} `{EqDecision K}.
Context (hash : K -> N).
Context (Hh : forall k, (hash k < 2 ^ 64)%N).
Implicit Types (a c o : barray K V) (x : cell K V) (tb : table K V) (b : bucket K V) (l : loc).
Implicit Types (m : list (K * V)).

(** The table is consistent, holds [m], and has dropped [rel]. *)
Record holds t tb m rel : Prop := Holds {
  hd_wf : wf_table hash t tb;
  hd_ents : tents t tb ≡ₚ m;
  hd_rel : released tb ≡ₚ rel;
  hd_garb : garbage tb = [] }.
Lemma holds_step t tb tb' m rel m' d d' : holds t tb m rel -> step hash t tb tb' m' d -> d ≡ₚ d' -> holds t tb' m' (rel ++ d').
Proof.
  intros H S P. split; [apply S|apply S| |].
  - by rewrite (sp_rel _ _ _ _ _ _ S), (hd_rel _ _ _ _ H), P.
  - rewrite (sp_garb _ _ _ _ _ _ S). apply H.
Qed.
Lemma holds_step0 t tb tb' m rel m' : holds t tb m rel -> step hash t tb tb' m' [] -> holds t tb' m' (rel ++ []).
Proof. intros H S. by apply (holds_step t tb tb' m rel m' []). Qed.
Lemma holds_same t tb tb' m rel : t <> INDEX -> holds t tb m rel -> same hash t tb tb' -> holds t tb' m rel.
Proof.
  intros Ht H S. rewrite <- (app_nil_r rel). apply (holds_step0 t tb tb' m rel); [done|].
  apply step_same; [done|apply H|done].
Qed.
Lemma holds_perm t tb m rel m' rel' : holds t tb m rel -> m ≡ₚ m' -> rel ≡ₚ rel' -> holds t tb m' rel'.
Proof. intros [? ? ? ?] P P'. split; [done|by rewrite <- P|by rewrite <- P'|done]. Qed.

(** ** Creation *)
Lemma new_table_spec t cap mx : CapSpec.power_of_two mx -> (64 <= mx <= 2 ^ 62)%N ->
  (forall s, CapModel.arr_new cap = Some s -> (CapModel.num_slots s <= mx)%N) ->
  exists tb, new_table cap mx = Some tb /\ holds t tb [] [] /\ maxcap tb = mx /\ CapModel.guards (mst tb) = [].
Proof.
  intros Pm Bm Lm. unfold new_table. destruct (cap =? 0)%N eqn:E0.
  - eexists. split; [done|]. split; [|done]. split; [split|..]; cbn [cur old garbage maxcap mst]; try done.
    + constructor.
    + split; cbn [maxcap mst]; try done. exists 0%N. split; [done|]. split; [apply N.le_0_l|constructor].
  - destruct (new_barray_spec (K:=K) (V:=V) hash t cap) as (a & Ea & Wa & Ia & Sa & Ca & La & Na). rewrite Ea, obind.
    assert (SL : (CapModel.num_slots (sz a) <= mx)%N) by (by apply Lm).
    eexists. split; [done|]. split; [|done]. split; [split|..]; cbn [cur old garbage maxcap mst]; try done.
    + intros c [= <-]. done.
    + unfold tents. cbn [cur old oents app]. rewrite Ia. constructor.
    + split; cbn [maxcap mst]; try done. exists (CapModel.num_slots (sz a)).
      split; [cbn [CapModel.word CapModel.guards CapModel.resizing CapFacts.sumN]; lia|].
      split; [cbn [CapModel.guards CapFacts.sumN]; lia|constructor].
    + unfold tents. cbn [cur old oents app]. by rewrite Ia.
Qed.
Lemma new_map_spec cap : exists tb, new_map (K:=K) (V:=V) cap = Some tb /\ holds MAP tb [] [] /\
  CapModel.guards (mst tb) = [].
Proof.
  unfold new_map, map_maximum. change CapModel.MAXIMUM_CAPACITY_LIMIT with (2 ^ 62)%N.
  destruct (new_table_spec MAP cap (2 ^ 62)) as (tb & E & H & _ & G); [by exists 62%N|done| |eauto].
  intros s E. destruct (CapFacts.capacity_rounding cap) as (s' & E' & _ & B & _). rewrite E in E'. injection E' as <-. apply B.
Qed.

(** ** Entry API *)
Lemma entry_sync_spec sg tb k (f : option V -> option V) m : wf_table hash MAP tb -> tents MAP tb ≡ₚ m ->
  exists tb', entry_sync sg hash tb k f = Some (tb', assoc k m) /\
    step hash MAP tb tb' (match assoc k m, f (assoc k m) with
          | None, None => m
          | Some _, None => del k m
          | _, Some v => put k v m
          end) [].
Proof.
  intros W P. assert (Ht : MAP <> INDEX) by done. unfold entry_sync.
  destruct (writer_spec hash Hh MAP sg tb k W) as (tb1 & l & b & E & S & Lk & Ow). rewrite E, obind. cbn [fst snd].
  pose proof (sm_wf _ _ _ _ S) as W1. destruct (owns_lock hash MAP tb1 l b W1 Ow) as [L Wb]. rewrite L, obind.
  assert (P1 : tents MAP tb1 ≡ₚ m) by (by rewrite (sm_ents _ _ _ _ S)).
  destruct (owns_assoc hash MAP tb1 l b k m W1 Ow Lk P1) as (R & RS & Pm & NR & ND & A & _ & PB).
  destruct (lookup_ptr hash MAP b k Wb) as (p & Ep & [[V1 (v0 & Pt)]|[V1 N]]); rewrite Ep, obind, V1.
  - destruct (points_assoc hash MAP b k v0 p Wb ND Pt) as [A' _]. rewrite A, A'.
    rewrite (points_to_get _ _ _ _ Pt), obind. cbn [fst snd]. destruct (f (Some v0)) as [v|].
    + destruct (replace_step hash MAP tb tb1 l b k v0 v p m R RS Ht S Wb ND Pt Pm NR PB) as (b' & tb' & E1 & E2 & St & _).
      rewrite E1, obind. cbn [fst snd]. rewrite E2, obind. eauto.
    + destruct (locked_remove_spec hash Hh MAP tb1 l b k v0 p m Ht W1 P1 Ow Lk Pt) as (tb2 & E3 & S3).
      rewrite E3, obind. cbn [fst snd]. exists tb2. split; [done|]. change (@nil (K * V)) with (@nil (K * V) ++ []).
      eapply step_trans; [by apply (step_same hash MAP tb tb1 m)|done].
  - rewrite A, (proj2 (assoc_None k _) N). destruct (f None) as [v|].
    + destruct (insert_spec hash MAP sg b (hash k) (k, v) Wb eq_refl) as (b' & p' & d & E' & W' & E1 & _ & _ & Hd & _).
      rewrite E', obind. cbn [fst snd]. rewrite (Hd Ht).
      destruct (PB b' W') as (tb2 & PBk).
      { intros e He. rewrite E1 in He. apply elem_of_cons in He as [->|He]; [by left|]. right. apply elem_of_list_fmap. eauto. }
      { rewrite E1. cbn. by apply NoDup_cons. }
      rewrite (pb_set _ _ _ _ _ _ _ _ PBk), obind, release_nil. exists tb2. split; [done|].
      eapply put_step; [done|exact S|exact PBk|]. rewrite E1. cbn [app]. unfold put.
      constructor. rewrite (del_out k v _ _ _ Pm NR), (del_notin k _ N). done.
    + exists tb1. split; [done|]. by apply step_same.
Qed.

(** ** Reservations *)
Lemma wf_with_mst t tb s : wf_table hash t tb -> CapModel.resizing s = false ->
  (exists m0 : N, CapFacts.min_inv m0 (maxcap tb) s) -> wf_table hash t (with_mst tb s).
Proof.
  intros W R I. destruct W. split; try done. destruct wt_min as [? ? ? ?]. split; done.
Qed.
Lemma min_step_idle mx s e s' r : CapModel.resizing s = false -> CapModel.min_step mx s e = Some (s', r) ->
  match e with CapModel.EvReserve _ | CapModel.EvDrop _ => CapModel.resizing s' = false | _ => True end.
Proof.
  intros R. destruct e as [n|i| |]; try done; cbn [CapModel.min_step].
  - destruct (_ <? _)%N; [done|]. destruct (_ <? _)%N; [by intros [= <- <-]|].
    destruct (CapModel.chk _); [|done]. destruct (_ =? _)%N; by intros [= <- <-].
  - destruct (nth_error _ _); [|by intros [= <- <-]]. destruct (_ <? _)%N; [done|]. by intros [= <- <-].
Qed.
Lemma holds_with_mst t tb m rel s : holds t tb m rel -> CapModel.resizing s = false ->
  (exists m0 : N, CapFacts.min_inv m0 (maxcap tb) s) -> holds t (with_mst tb s) m rel.
Proof. intros H R I. destruct H. split; try done. by apply wf_with_mst. Qed.
Lemma reserve_spec t tb n m rel : t <> INDEX -> holds t tb m rel ->
  exists tb' r, reserve t tb n = Some (tb', r) /\ holds t tb' m rel.
Proof.
  intros Ht H. unfold reserve. pose proof (wt_min _ _ _ (hd_wf _ _ _ _ H)) as [Wi (m0 & Wm) Wp Wl].
  destruct (CapFacts.min_step_inv m0 (maxcap tb) (mst tb) (CapModel.EvReserve n)) as (s' & r & E & I & _); [lia|done|].
  pose proof (min_step_idle _ _ _ _ _ Wi E) as R. cbn in R. rewrite E, obind. cbn [fst snd].
  assert (H1 : holds t (with_mst tb s') m rel) by (apply holds_with_mst; eauto).
  destruct (_ <? _)%N.
  - rewrite obind. eauto.
  - destruct (try_resize0 hash Hh t _ (hd_wf _ _ _ _ H1)) as (tb2 & E2 & S2). rewrite E2, obind.
    exists tb2, r. split; [done|]. by apply (holds_same t (with_mst tb s')).
Qed.
Lemma unreserve_spec t tb i m rel : t <> INDEX -> holds t tb m rel ->
  exists tb', unreserve t tb i = Some tb' /\ holds t tb' m rel.
Proof.
  intros Ht H. unfold unreserve. destruct (_ !! i) as [n|]; [|eauto].
  pose proof (wt_min _ _ _ (hd_wf _ _ _ _ H)) as [Wi (m0 & Wm) Wp Wl].
  destruct (CapFacts.min_step_inv m0 (maxcap tb) (mst tb) (CapModel.EvDrop i)) as (s' & r & E & I & _); [lia|done|].
  pose proof (min_step_idle _ _ _ _ _ Wi E) as R. cbn in R. rewrite E, obind. cbn [fst snd].
  assert (H1 : holds t (with_mst tb s') m rel) by (apply holds_with_mst; eauto).
  destruct (try_shrink_any hash Hh t (with_mst tb s') 0 (hd_wf _ _ _ _ H1)) as (tb2 & E2 & S2 & _).
  { intros c C. apply alen_pos. by apply (wf_tab_cur hash t _ c (hd_wf _ _ _ _ H1) C). }
  rewrite E2. exists tb2. split; [done|]. by apply (holds_same t (with_mst tb s')).
Qed.

(** ** Dropping the container *)
Lemma drop_table_spec t tb m rel : t <> INDEX -> holds t tb m rel ->
  exists es, drop_table t tb = Some es /\ es ≡ₚ rel ++ m.
Proof.
  intros Ht H. pose proof (hd_wf _ _ _ _ H) as W. unfold drop_table. rewrite (hd_garb _ _ _ _ H). cbn [drop_arrays].
  pose proof (wt_arrays _ _ _ W) as A. pose proof (hd_ents _ _ _ _ H) as P. unfold tents in P.
  destruct (cur tb) as [c|] eqn:C; destruct (old tb) as [o|] eqn:O; [..|done|].
  - destruct A as (Wp & Wr & C0).
    destruct (drop_array_spec hash Hh t o) as (es & E & Pe); [apply Wp|apply Wr|]. rewrite E, obind.
    destruct (drop_array_spec hash Hh t c) as (es' & E' & Pe'); [apply Wp|rewrite C0; lia|]. rewrite E', obind, obind.
    eexists. split; [done|]. rewrite app_nil_r, (hd_rel _ _ _ _ H), Pe, Pe', <- P. cbn [oents].
    rewrite !(astored_ents hash t) by (done || apply Wp). done.
  - destruct A as (Wc & _ & C0).
    rewrite obind. destruct (drop_array_spec hash Hh t c) as (es' & E' & Pe'); [done|rewrite C0; lia|]. rewrite E', obind, obind.
    eexists. split; [done|]. rewrite app_nil_r, (hd_rel _ _ _ _ H), Pe', <- P. cbn [oents app].
    rewrite !(astored_ents hash t) by done. done.
  - rewrite !obind. eexists. split; [done|]. rewrite !app_nil_r, (hd_rel _ _ _ _ H), <- P. cbn [oents app]. by rewrite app_nil_r.
Qed.
End mapfacts.
