(** HashCache operations on a table of any layout: effect on the contents, up to order. *)
From Coq Require Import NArith Lia.
From stdpp Require Import numbers prelude list.
From Verif Require CapModel CapSpec CapFacts CapThms.
From Verif Require Import LruModel BucketModel BucketSpec BucketFacts BucketOps BucketOps2 BucketOps3 BucketRunFacts
  MapSpec MapFacts TableModel TableSpec TableFacts TableReloc TableResize TableHouse TableAccess TableOps
  IterSpec TableIter MapFacts2 CacheModel CacheSpec CacheFacts.

Section cache_ops.
Context {K V : Type} `{EqDecision K}.
Context (hash : K -> N).
Context (Hh : forall k, (hash k < 2 ^ 64)%N).
Implicit Types (tb : table K V) (m : list (K * V)).

(** The keys of a full bucket. *)
Definition crowd tb l m (x : K * V) : Prop :=
  exists ks, NoDup ks /\ 32 <= length ks /\ x.1 ∈ ks /\ forall y, y ∈ ks -> y ∈ m.*1 /\ lkey hash tb l y.

Lemma del_perm_split (x : K * V) m q : m ≡ₚ x :: q -> NoDup m.*1 -> del x.1 m ≡ₚ q.
Proof.
  intros P ND. rewrite (del_perm _ _ _ P). destruct x as [k v]. cbn [fst]. rewrite del_cons_eq.
  rewrite del_notin; [done|]. assert (X : NoDup ((k, v) :: q).*1) by (by rewrite <- P).
  cbn in X. by apply list.NoDup_cons in X as [? _].
Qed.

Lemma put_bucket_step sg tb tb1 l b k v m : wf_table hash CACHE tb -> tents CACHE tb ≡ₚ m -> same hash CACHE tb tb1 ->
  lkey hash tb1 l k -> owns hash tb1 l b -> k ∉ (entries CACHE b).*1 ->
  exists b' ev tb', put_bucket sg b (hash k) (k, v) = Some (b', ev) /\ set_loc tb1 l b' = Some tb' /\
    step hash CACHE tb tb' ((k, v) :: without ev m) [] /\ k ∉ m.*1 /\
    forall x, ev = Some x -> x ∈ m /\ crowd tb1 l m x.
Proof.
  intros W M S Lk Ow Nk. pose proof (sm_wf _ _ _ _ S) as W1.
  destruct (owns_lock _ _ _ _ _ W1 Ow) as [_ Wb].
  assert (M1 : tents CACHE tb1 ≡ₚ m) by (by rewrite (sm_ents _ _ _ _ S)).
  pose proof (wf_nodup _ _ _ _ W1 M1) as NDm.
  destruct (owns_assoc hash CACHE tb1 l b k m W1 Ow Lk M1) as (R & RS & Hm & Kr & NDb & _ & _ & PB).
  destruct (tracks_exists hash b Wb) as (r & T).
  destruct (put_bucket_spec hash sg b (hash k) (k, v) r Wb T eq_refl) as (b' & ev & i & E & Wb' & _ & _ & _ & _ & X).
  assert (HP : exists q, entries CACHE b' ≡ₚ (k, v) :: q /\ without ev m ≡ₚ q ++ R /\ q.*1 ⊆ (entries CACHE b).*1 /\
     NoDup q.*1).
  { destruct ev as [x|].
    - destruct X as (_ & _ & _ & q & _ & E1 & E2 & _). exists q. split; [done|].
      cbn [without]. split; [|split].
      + apply del_perm_split; [|done]. by rewrite Hm, E1.
      + rewrite E1. cbn. set_solver.
      + rewrite E1 in NDb. cbn in NDb. by apply list.NoDup_cons in NDb as [_ ?].
    - destruct X as (_ & E1 & _). exists (entries CACHE b). done. }
  destruct HP as (q & E1 & E2 & E3 & E4).
  destruct (PB b') as (tb' & P); [done|..].
  { intros e He. rewrite E1 in He. apply elem_of_cons in He as [->|He]; [by left|]. right.
    apply E3. by apply (elem_of_list_fmap_1 fst). }
  { rewrite E1. cbn. apply list.NoDup_cons. split; [|done]. intros Hk. by apply Nk, E3. }
  exists b', ev, tb'. split; [done|]. split; [apply P|]. split; [|split].
  - eapply put_step; [done|exact S|exact P|]. by rewrite E1, E2.
  - rewrite Hm, fmap_app, elem_of_app. tauto.
  - intros x ->. destruct X as (O & _ & _ & q' & _ & F1 & _).
    assert (Hx : x ∈ entries CACHE b) by (rewrite F1; left).
    split; [rewrite Hm; apply elem_of_app; by left|].
    exists (entries CACHE b).*1. split; [done|]. split; [rewrite fmap_length; by apply (full_len hash); [apply Wb|]|].
    split; [by apply (elem_of_list_fmap_1 fst)|].
    intros y Hy. split; [rewrite Hm, fmap_app; apply elem_of_app; by left|].
    apply elem_of_list_fmap in Hy as (e & -> & He). exact (owns_lkey _ _ _ _ _ _ W1 Ow He).
Qed.

(** A bucket number at the time of the call. *)
Definition located tb tb1 l : Prop :=
  forall c, cur tb = Some c -> forall y, lkey hash tb1 l y -> CapModel.bucket_index (sz c) (hash y) = l.2.

Lemma put_sync_spec sg tb k v m : wf_table hash CACHE tb -> tents CACHE tb ≡ₚ m ->
  exists tb' out, put_sync sg hash tb k v = Some (tb', out) /\
    match assoc k m with
    | Some _ => out = inr (k, v) /\ step hash CACHE tb tb' m []
    | None => exists ev, out = inl ev /\ step hash CACHE tb tb' ((k, v) :: without ev m) [] /\
        forall x, ev = Some x -> x ∈ m /\ exists tb1 l, crowd tb1 l m x /\ lkey hash tb1 l k /\ located tb tb1 l
    end.
Proof.
  intros W M. unfold put_sync.
  destruct (writer_spec_size hash Hh CACHE sg tb k W) as (tb1 & l & b & E & S & Lk & Ow & Sz).
  rewrite E, obind. cbn [fst snd]. pose proof (sm_wf _ _ _ _ S) as W1.
  destruct (owns_lock _ _ _ _ _ W1 Ow) as [L Wb]. rewrite L, obind.
  assert (M1 : tents CACHE tb1 ≡ₚ m) by (by rewrite (sm_ents _ _ _ _ S)).
  destruct (owns_assoc hash CACHE tb1 l b k m W1 Ow Lk M1) as (R & RS & Hm & Kr & NDb & As & _ & _).
  destruct (lookup_ptr hash CACHE b k Wb) as (p & P & [[V1 (v0 & PT)]|[V1 Nk]]); rewrite P, obind, V1.
  - destruct (points_assoc _ _ _ _ _ _ Wb NDb PT) as [A _]. rewrite As, A.
    exists tb1, (inr (k, v)). split; [done|]. split; [done|]. by apply step_same.
  - apply assoc_None in Nk as A. rewrite As, A.
    destruct (put_bucket_step sg tb tb1 l b k v m W M S Lk Ow Nk) as (b' & ev & tb' & PBk & SL & St & _ & Ev).
    rewrite PBk, obind. cbn [fst snd]. rewrite SL, obind. exists tb', (inl ev). split; [done|].
    exists ev. split; [done|]. split; [done|]. intros x Hx. destruct (Ev x Hx) as [Hin C]. split; [done|].
    exists tb1, l. split; [done|]. split; [done|]. intros c C0 y (a & La & By).
    destruct (Sz c C0) as (a' & La' & Za). congruence.
Qed.

(** What a caller does with an occupied entry. *)
Lemma finish_spec tb tb1 l b k v0 p w m : wf_table hash CACHE tb -> tents CACHE tb ≡ₚ m -> same hash CACHE tb tb1 ->
  owns hash tb1 l b -> lkey hash tb1 l k -> points_to CACHE b p (k, v0) ->
  exists tb', finish tb1 l b p w = Some tb' /\
    step hash CACHE tb tb' (match w with None => del k m | Some v => put k v m end) [].
Proof.
  intros W M S Ow Lk PT. pose proof (sm_wf _ _ _ _ S) as W1.
  destruct (owns_lock _ _ _ _ _ W1 Ow) as [_ Wb].
  assert (M1 : tents CACHE tb1 ≡ₚ m) by (by rewrite (sm_ents _ _ _ _ S)).
  unfold finish. destruct w as [v|].
  - destruct (owns_assoc hash CACHE tb1 l b k m W1 Ow Lk M1) as (R & RS & Hm & Kr & NDb & _ & _ & PB).
    destruct (replace_step hash CACHE tb tb1 l b k v0 v p m R RS) as (b' & tb' & E & SL & St & _); try done.
    rewrite E, obind. cbn [fst]. rewrite SL. by exists tb'.
  - destruct (locked_remove_spec hash Hh CACHE tb1 l b k v0 p m) as (tb' & E & St); try done.
    rewrite E, obind. exists tb'. split; [done|]. cbn [fst].
    replace (@nil (K * V)) with (@nil (K * V) ++ []) by done.
    eapply step_trans; [by apply step_same|exact St].
Qed.

Lemma get_sync_spec sg tb k (f : V -> option V) m : wf_table hash CACHE tb -> tents CACHE tb ≡ₚ m ->
  exists tb', get_sync sg hash tb k f = Some (tb', assoc k m) /\
    step hash CACHE tb tb' (match assoc k m with
       | None => m | Some v => match f v with None => del k m | Some w => put k w m end end) [].
Proof.
  intros W M. unfold get_sync.
  destruct (optional_writer_spec hash Hh CACHE sg tb k W) as (tb1 & r & E & S & Hr).
  rewrite E, obind. cbn [fst snd]. destruct r as [l|].
  2:{ assert (m = []) as ->. { rewrite Hr in M. by apply Permutation_nil in M. }
      exists tb1. split; [done|]. by apply step_same. }
  destruct Hr as (_ & Lk & b & Ow). pose proof (sm_wf _ _ _ _ S) as W1.
  destruct (owns_lock _ _ _ _ _ W1 Ow) as [L Wb]. rewrite L, obind.
  assert (M1 : tents CACHE tb1 ≡ₚ m) by (by rewrite (sm_ents _ _ _ _ S)).
  destruct (owns_assoc hash CACHE tb1 l b k m W1 Ow Lk M1) as (R & RS & Hm & Kr & NDb & As & _ & PB).
  destruct (lookup_ptr hash CACHE b k Wb) as (p & P & [[V1 (v0 & PT)]|[V1 Nk]]); rewrite P, obind, V1.
  - destruct (points_assoc _ _ _ _ _ _ Wb NDb PT) as [A _]. rewrite As, A.
    rewrite (points_to_get _ _ _ _ PT), obind. cbn [snd].
    destruct (update_lru_tail_spec hash b p (k, v0) Wb PT) as (b' & U & Wb' & EE & SS & PT').
    rewrite U, obind.
    destruct (PB b') as (tb2 & PBk); [done|..].
    { intros e He. right. rewrite EE in He. by apply (elem_of_list_fmap_1 fst). }
    { by rewrite EE. }
    rewrite (pb_set _ _ _ _ _ _ _ _ PBk), obind.
    assert (St2 : step hash CACHE tb tb2 m []).
    { eapply put_step; [done|exact S|exact PBk|]. by rewrite EE, Hm. }
    destruct (finish_spec tb2 tb2 l b' k v0 p (f v0) m) as (tb3 & F & St).
    { apply St2. } { apply St2. } { apply same_refl, St2. } { apply PBk. } { by apply PBk. } { done. }
    rewrite F, obind. exists tb3. split; [done|].
    replace (@nil (K * V)) with (@nil (K * V) ++ []) by done. by eapply step_trans.
  - apply assoc_None in Nk as A. rewrite As, A. exists tb1. split; [done|]. by apply step_same.
Qed.

Lemma centry_sync_spec sg tb k (f : option V -> option V) m : wf_table hash CACHE tb -> tents CACHE tb ≡ₚ m ->
  exists tb' ev, centry_sync sg hash tb k f = Some (tb', (assoc k m, ev)) /\
    step hash CACHE tb tb' (match assoc k m, f (assoc k m) with
          | None, None => m
          | Some _, None => del k m
          | Some _, Some w => put k w m
          | None, Some w => (k, w) :: without ev m
          end) [] /\
    forall x, ev = Some x -> x ∈ m /\ assoc k m = None /\ f None <> None /\
      exists tb1 l, crowd tb1 l m x /\ lkey hash tb1 l k /\ located tb tb1 l.
Proof.
  intros W M. unfold centry_sync.
  destruct (writer_spec_size hash Hh CACHE sg tb k W) as (tb1 & l & b & E & S & Lk & Ow & Sz).
  rewrite E, obind. cbn [fst snd]. pose proof (sm_wf _ _ _ _ S) as W1.
  destruct (owns_lock _ _ _ _ _ W1 Ow) as [L Wb]. rewrite L, obind.
  assert (M1 : tents CACHE tb1 ≡ₚ m) by (by rewrite (sm_ents _ _ _ _ S)).
  destruct (owns_assoc hash CACHE tb1 l b k m W1 Ow Lk M1) as (R & RS & Hm & Kr & NDb & As & _ & _).
  destruct (lookup_ptr hash CACHE b k Wb) as (p & P & [[V1 (v0 & PT)]|[V1 Nk]]); rewrite P, obind, V1.
  - destruct (points_assoc _ _ _ _ _ _ Wb NDb PT) as [A _]. rewrite As, A.
    rewrite (points_to_get _ _ _ _ PT), obind. cbn [snd].
    destruct (finish_spec tb tb1 l b k v0 p (f (Some v0)) m) as (tb3 & F & St); try done.
    rewrite F, obind. exists tb3, None. split; [done|]. split; [|done].
    by destruct (f (Some v0)).
  - apply assoc_None in Nk as A. rewrite As, A. destruct (f None) as [w|] eqn:Fn.
    + destruct (put_bucket_step sg tb tb1 l b k w m W M S Lk Ow Nk) as (b' & ev & tb' & PBk & SL & St & _ & Ev).
      rewrite PBk, obind. cbn [fst snd]. rewrite SL, obind. exists tb', ev. split; [done|]. split; [done|].
      intros x Hx. destruct (Ev x Hx) as [Hin C]. split; [done|]. split; [done|]. split; [done|].
      exists tb1, l. split; [done|]. split; [done|]. intros c C0 y (a & La & By).
      destruct (Sz c C0) as (a' & La' & Za). congruence.
    + exists tb1, None. split; [done|]. split; [by apply step_same|done].
Qed.

Lemma cache_maximum_spec mn mx : exists n, cache_maximum mn mx = Some (2 ^ n)%N /\ (6 <= n <= 62)%N /\
  (N.min mx (2 ^ 62) <= 2 ^ n)%N /\
  (forall s, CapModel.arr_new mn = Some s -> (CapModel.num_slots s <= 2 ^ n)%N).
Proof.
  unfold cache_maximum, CapModel.cache_with_capacity, CapModel.with_capacity.
  destruct (CapFacts.capacity_rounding mn) as (s & E & (j & Pj) & [B1 B2] & _).
  assert (G : forall init, (init <= 2 ^ 62)%N -> (mn = 0%N \/ init = CapModel.num_slots s) -> exists n,
     CapModel.next_power_of_two (N.min (N.max (N.max mx init) CapModel.minimum_capacity_const) CapModel.MAXIMUM_CAPACITY_LIMIT)
       = Some (2 ^ n)%N /\ (6 <= n <= 62)%N /\ (N.min mx (2 ^ 62) <= 2 ^ n)%N /\
     (forall s, CapModel.arr_new mn = Some s -> (CapModel.num_slots s <= 2 ^ n)%N)).
  { intros init I1 I2. change CapModel.MAXIMUM_CAPACITY_LIMIT with (2 ^ 62)%N.
    change CapModel.minimum_capacity_const with 64%N.
    set (z := N.min _ _). assert (Hz : (z <= 2 ^ 63)%N) by (unfold z; lia).
    assert (Hz2 : (64 <= z)%N) by (unfold z; lia).
    destruct (CapFacts.npo2_spec z Hz) as (n & En & L & _ & _).
    assert (n <= 62)%N by (eapply CapFacts.npo2_least; [exact Hz|exact En|unfold z; lia]).
    exists n. split; [done|]. split; [split; [|done]|].
    { apply CapFacts.pow2_le_inv. change (2 ^ 6)%N with 64%N. lia. }
    split; [unfold z in *; lia|].
    intros s' E'. destruct I2 as [->|I2].
    - injection E' as <-. vm_compute CapModel.num_slots. lia.
    - assert (s' = s) as -> by congruence. rewrite <- I2. unfold z in *. lia. }
  destruct (N.eqb_spec mn 0) as [Hm|Hm]; cbn [CapModel.obind].
  - destruct (G 0%N) as (n & En & X); [lia|by left|]. exists n. split; [|exact X]. cbn [CapModel.initial_minimum].
    rewrite En. done.
  - rewrite E. cbn [CapModel.obind CapModel.initial_minimum].
    destruct (G (CapModel.num_slots s)) as (n & En & X); [lia|by right|]. exists n. rewrite E in X. split; [|exact X].
    rewrite En. done.
Qed.
Lemma new_cache_spec mn mx : exists tb : table K V, new_cache mn mx = Some tb /\ holds hash CACHE tb [] [] /\
  cache_maximum mn mx = Some (maxcap tb) /\ CapModel.guards (mst tb) = [].
Proof.
  destruct (cache_maximum_spec mn mx) as (n & E & [B1 B2] & _ & S). unfold new_cache. rewrite E, obind.
  destruct (new_table_spec (K:=K) (V:=V) hash CACHE mn (2 ^ n)) as (tb & Et & H & M & G).
  - by exists n.
  - split; [change 64%N with (2 ^ 6)%N|]; by apply CapFacts.pow2_le.
  - exact S.
  - exists tb. split; [done|]. split; [done|]. split; [by rewrite M|done].
Qed.
End cache_ops.
