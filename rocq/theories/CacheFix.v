(** A cache whose capacity cannot change, as a whole: every bucket evicts its least recently used
    entry exactly when it is full. *)
From Coq Require Import NArith Lia.
From stdpp Require Import numbers prelude list.
From Verif Require CapModel CapSpec CapFacts CapThms.
From Verif Require Import LruModel LruFacts BucketModel BucketSpec BucketFacts BucketOps BucketOps2 BucketOps3 BucketRunFacts
  MapSpec MapFacts TableModel TableSpec TableFacts TableReloc TableResize TableHouse TableAccess TableOps
  IterSpec TableIter MapFacts2 MapModel MapRef MapRunFacts CacheModel CacheSpec CacheFacts CacheOps CacheRunFacts CacheLru.

Section cache_fix.
Context {K V : Type} `{EqDecision K}.
Context (hash : K -> N) (Hh : forall k, (hash k < 2 ^ 64)%N).
Implicit Types (tb : table K V) (m : list (K * V)).

Definition sub (s : CapModel.arr) (i : N) m : list (K * V) :=
  filter (fun e => CapModel.bucket_index s (hash e.1) = i) m.
Lemma sub_del s i k m : sub s i (del k m) = del k (sub s i m).
Proof. unfold sub, del. rewrite !list_filter_filter. apply list_filter_iff. tauto. Qed.
Lemma sub_del_other s i k m : CapModel.bucket_index s (hash k) <> i -> sub s i (del k m) = sub s i m.
Proof.
  intros N. unfold sub, del. rewrite list_filter_filter. apply list_filter_iff. intros e. split; [tauto|].
  intros H. split; [done|]. congruence.
Qed.
Lemma sub_cons s k (v : V) m : sub s (CapModel.bucket_index s (hash k)) ((k, v) :: m) =
  (k, v) :: sub s (CapModel.bucket_index s (hash k)) m.
Proof. unfold sub. by rewrite filter_cons_True. Qed.
Lemma sub_cons_other s i k (v : V) m : CapModel.bucket_index s (hash k) <> i -> sub s i ((k, v) :: m) = sub s i m.
Proof. intros N. unfold sub. by rewrite filter_cons_False. Qed.
Lemma sub_map s i (g : K * V -> K * V) m : (forall e, (g e).1 = e.1) -> sub s i (map g m) = map g (sub s i m).
Proof.
  intros G. unfold sub. induction m as [|e m IH]; [done|]. cbn [map].
  destruct (decide (CapModel.bucket_index s (hash e.1) = i)) as [D|D].
  - rewrite !filter_cons_True by (by rewrite ?G). cbn [map]. by f_equal.
  - rewrite !filter_cons_False by (by rewrite ?G). done.
Qed.
Lemma sub_upd s i k w m : sub s i (upd k w m) = upd k w (sub s i m).
Proof. apply sub_map. intros e. case_decide; [by subst|done]. Qed.
Lemma sub_upd_other s i k w m : CapModel.bucket_index s (hash k) <> i -> sub s i (upd k w m) = sub s i m.
Proof.
  intros N. rewrite sub_upd. apply upd_notin. intros H. apply elem_of_list_fmap in H as (e & -> & He).
  apply elem_of_list_filter in He as [He _]. done.
Qed.
Lemma sub_kept s i q m : sub s i (kept_of q m) = kept_of q (sub s i m).
Proof.
  unfold kept_of. rewrite sub_map by done. f_equal. unfold sub. rewrite !list_filter_filter. apply list_filter_iff. tauto.
Qed.
Lemma sub_nodup s i m : NoDup m.*1 -> NoDup (sub s i m).*1.
Proof. intros ND. eapply sublist_nodup; [apply fmap_sublist, filter_sub|done]. Qed.
Lemma sub_assoc s k m : assoc k (sub s (CapModel.bucket_index s (hash k)) m) = assoc k m.
Proof.
  unfold sub. induction m as [|[a v] m IH]; [done|]. cbn [assoc].
  destruct (decide (CapModel.bucket_index s (hash a) = CapModel.bucket_index s (hash k))) as [D|D].
  - rewrite filter_cons_True by done. cbn [assoc]. by rewrite IH.
  - rewrite filter_cons_False by done. rewrite decide_False by congruence. done.
Qed.

Record fixed tb m : Prop := Fixed {
  fx_old : old tb = None;
  fx_min : minimum tb = maxcap tb;
  fx_pos : minimum tb <> 0%N;
  fx_cur : exists c, cur tb = Some c /\ CapModel.num_slots (sz c) = maxcap tb /\
    forall i x, cell_at c i = Some x -> dead x = false /\ lview hash (bkt x) (sub (sz c) i m) }.

Lemma fixed_prepare sg tb m i : fixed tb m -> prepare CACHE sg hash tb i = Some tb.
Proof.
  intros [O _ _ (c & C & _)]. unfold prepare, incremental_rehash. rewrite C, O, obind. cbn [fst].
  by rewrite C, O.
Qed.
Lemma fixed_shrink tb m i : fixed tb m -> try_shrink CACHE tb i = Some tb.
Proof.
  intros [O M _ (c & C & N & _)]. unfold try_shrink. rewrite C, O, M, N.
  by rewrite (proj2 (N.ltb_ge _ _)) by lia.
Qed.

(** The bucket of a key. *)
Lemma fixed_cell tb m k : fixed tb m -> wf_table hash CACHE tb ->
  exists c x, cur tb = Some c /\ cell_at c (CapModel.bucket_index (sz c) (hash k)) = Some x /\ dead x = false /\
    lview hash (bkt x) (sub (sz c) (CapModel.bucket_index (sz c) (hash k)) m).
Proof.
  intros [O M _ (c & C & N & L)] W.
  destruct (wf_tab_cur hash CACHE tb c W C) as [Wc _].
  destruct (lookup_lt_is_Some_2 (bks c) (N.to_nat (CapModel.bucket_index (sz c) (hash k)))) as (x & X).
  { rewrite (wa_len _ _ _ Wc). pose proof (index_lt hash Hh CACHE c k Wc) as I. lia. }
  exists c, x. split; [done|]. split; [done|]. by apply L.
Qed.
Lemma fixed_writer sg tb m k c x : fixed tb m -> cur tb = Some c ->
  cell_at c (CapModel.bucket_index (sz c) (hash k)) = Some x -> dead x = false ->
  writer CACHE sg hash tb (hash k) = Some (tb, (Cur, CapModel.bucket_index (sz c) (hash k))) /\
  optional_writer CACHE sg hash tb (hash k) = Some (tb, Some (Cur, CapModel.bucket_index (sz c) (hash k))) /\
  lock tb (Cur, CapModel.bucket_index (sz c) (hash k)) = Some (bkt x).
Proof.
  intros F C X D. pose proof (fx_cur _ _ F) as (c' & C' & N & _). assert (c' = c) as -> by congruence.
  assert (L : lock tb (Cur, CapModel.bucket_index (sz c) (hash k)) = Some (bkt x)).
  { unfold lock, loc_cell. cbn [loc_array fst snd]. rewrite C, obind, X, obind. by rewrite D. }
  split; [|split; [|done]].
  - unfold writer, create. rewrite C, !obind. rewrite C, obind. rewrite (fixed_prepare _ _ _ _ F), obind, C, obind, X, obind.
    rewrite (bool_decide_false (CACHE <> CACHE)) by (by intros H; apply H). cbn [orb].
    rewrite (proj2 (N.ltb_ge _ _)) by lia. cbn [andb]. rewrite obind. rewrite (fx_old _ _ F). by rewrite L, obind.
  - unfold optional_writer. rewrite C, (fixed_prepare _ _ _ _ F), obind, L, obind. done.
Qed.
Lemma fixed_set tb m c i x b' m' : fixed tb m -> cur tb = Some c -> cell_at c i = Some x ->
  lview hash b' (sub (sz c) i m') -> (forall j, j <> i -> sub (sz c) j m' = sub (sz c) j m) ->
  exists tb' c', set_loc tb (Cur, i) b' = Some tb' /\ fixed tb' m' /\ cur tb' = Some c' /\ sz c' = sz c /\
    cell_at c' i = Some (Cell b' false).
Proof.
  intros F C X LV Oth. pose proof (fx_cur _ _ F) as (c' & C' & N & L). assert (c' = c) as -> by congruence.
  destruct (L i x X) as [D _].
  exists (with_cur tb (Some (set_cell c i (Cell b' (dead x))))), (set_cell c i (Cell b' (dead x))).
  unfold set_loc. cbn [loc_array fst snd]. rewrite C, obind, X, obind. split; [done|].
  assert (X' : cell_at (set_cell c i (Cell b' (dead x))) i = Some (Cell b' false)).
  { unfold cell_at, set_cell; cbn [bks]. rewrite D. apply list_lookup_insert. by eapply lookup_lt_Some. }
  split; [|done]. split; cbn [with_cur old minimum mst maxcap cur].
  - apply F.
  - apply F.
  - apply F.
  - eexists. split; [done|]. cbn [set_cell sz]. split; [done|]. intros j y Y.
    destruct (decide (j = i)) as [->|Nj].
    + rewrite X' in Y. injection Y as <-. done.
    + rewrite Oth by done. apply L. unfold cell_at, set_cell in *; cbn [bks] in *.
      rewrite list_lookup_insert_ne in Y by lia. done.
Qed.

(** Looking up a key. *)
Lemma fixed_ptr (b : bucket K V) L k : lview hash b L -> NoDup L.*1 ->
  exists p, get_entry_ptr CACHE b k (hash k) = Some p /\
    match assoc k L with
    | Some v => is_valid p = true /\ points_to CACHE b p (k, v)
    | None => is_valid p = false
    end.
Proof.
  intros LV ND. destruct (lookup_ptr hash CACHE b k (lv_wf _ _ _ LV)) as (p & E & X). exists p. split; [done|].
  pose proof (lview_entries _ _ _ LV) as P.
  destruct X as [[V1 (v & PT)]|[V1 Nk]].
  - assert (In : (k, v) ∈ L). { rewrite <- P. apply (points_to_in hash _ _ p); [apply LV|done]. }
    apply assoc_Some in In; [|done]. by rewrite In.
  - rewrite P in Nk. apply assoc_None in Nk. by rewrite Nk.
Qed.

Lemma fixed_finish tb m c i x b k v p w : fixed tb m -> NoDup m.*1 -> cur tb = Some c -> cell_at c i = Some x -> bkt x = b ->
  i = CapModel.bucket_index (sz c) (hash k) -> points_to CACHE b p (k, v) -> forall tb',
  finish tb (Cur, i) b p w = Some tb' ->
  fixed tb' (match w with None => del k m | Some v => upd k v m end).
Proof.
  intros F ND C X <- -> PT tb'. pose proof (fx_cur _ _ F) as (c' & C' & N & L). assert (c' = c) as -> by congruence.
  destruct (L _ x X) as [D LV]. unfold finish. destruct w as [w|].
  - destruct (replace_value_spec hash CACHE (bkt x) p (k, v) w (lv_wf _ _ _ LV) PT) as (b1 & R & _). rewrite R, obind. cbn [fst].
    destruct (lview_replace hash _ _ _ _ w b1 _ LV (sub_nodup _ _ _ ND) PT R) as [LV1 _]. cbn [fst] in LV1.
    destruct (fixed_set tb m c _ x b1 (upd k w m) F C X) as (tb1 & c1 & S & F1 & _).
    { by rewrite sub_upd. } { intros j Hj. by apply sub_upd_other. }
    rewrite S. by intros [= <-].
  - unfold locked_remove, lock, loc_cell. cbn [loc_array fst snd]. rewrite C, !obind, X, !obind, D, !obind.
    destruct (remove_spec hash CACHE (bkt x) p (k, v) (lv_wf _ _ _ LV) PT) as (b1 & p1 & R & _). rewrite R, obind. cbn [fst].
    pose proof (lview_remove hash _ _ _ _ b1 p1 _ LV (sub_nodup _ _ _ ND) PT R) as LV1. cbn [fst] in LV1.
    destruct (fixed_set tb m c _ x b1 (del k m) F C X) as (tb1 & c1 & S & F1 & _).
    { by rewrite sub_del. } { intros j Hj. by apply sub_del_other. }
    rewrite S, obind. destruct (blen b1 =? 0)%nat.
    + unfold locked_try_shrink; cbn [fst snd]. rewrite (fixed_shrink _ _ _ F1), !obind. by intros [= <-].
    + rewrite !obind. by intros [= <-].
Qed.

(** The victim, seen from the bucket. *)
Lemma victim_sub (c : barray K V) m k : wf_array hash CACHE c ->
  neighbours hash (CapModel.num_slots (sz c)) m k = sub (sz c) (CapModel.bucket_index (sz c) (hash k)) m.
Proof. intros W. unfold neighbours, sub. apply list_filter_iff. intros e. by rewrite !(bucket_of_index hash c). Qed.

Lemma removelast_del (L : list (K * V)) (x : K * V) : NoDup L.*1 -> list.last L = Some x -> removelast L = del x.1 L.
Proof.
  intros ND H. pose proof (last_app_inv _ _ H) as E. rewrite E at 2. rewrite E in ND.
  set (r := removelast L) in *. clearbody r. clear E H. destruct x as [k v].
  rewrite del_split by done. by rewrite app_nil_r.
Qed.
Lemma fixed_put sg tb m c x k v : fixed tb m -> NoDup m.*1 -> wf_table hash CACHE tb -> cur tb = Some c ->
  cell_at c (CapModel.bucket_index (sz c) (hash k)) = Some x -> forall q tb',
  put_bucket sg (bkt x) (hash k) (k, v) = Some q ->
  set_loc tb (Cur, CapModel.bucket_index (sz c) (hash k)) q.1 = Some tb' ->
  q.2 = victim hash (maxcap tb) m k /\ fixed tb' ((k, v) :: without (victim hash (maxcap tb) m k) m).
Proof.
  intros F ND W C X [b' ev] tb' P S. cbn [fst snd] in *. pose proof (fx_cur _ _ F) as (c' & C' & N & L).
  assert (c' = c) as -> by congruence. destruct (L _ x X) as [D LV].
  destruct (wf_tab_cur hash CACHE tb c W C) as [Wc _].
  pose proof (lview_put hash sg _ _ k v b' ev LV P) as Q.
  unfold victim. rewrite <- N, victim_sub by done. set (i := CapModel.bucket_index (sz c) (hash k)) in *.
  set (L0 := sub (sz c) i m) in *.
  assert (ND0 : NoDup L0.*1) by (by apply sub_nodup).
  destruct (decide (length L0 < 32)) as [Hl|Hl].
  - rewrite (proj2 (Nat.ltb_lt _ _) Hl). destruct Q as [-> LV']. split; [done|].
    destruct (fixed_set tb m c i x b' ((k, v) :: m) F C X) as (tb1 & c1 & S1 & F1 & _).
    { unfold i. by rewrite sub_cons. } { intros j Hj. by apply sub_cons_other. }
    cbn [without]. congruence.
  - rewrite (proj2 (Nat.ltb_ge _ _)) by lia. destruct Q as [-> LV']. split; [done|].
    destruct (list.last L0) as [y|] eqn:El.
    2:{ apply last_None in El. rewrite El in Hl. cbn in Hl. lia. }
    cbn [without]. rewrite (removelast_del _ _ ND0 El) in LV'.
    assert (Hy : CapModel.bucket_index (sz c) (hash y.1) = i).
    { apply last_Some_elem_of in El. by apply elem_of_list_filter in El as [? _]. }
    destruct (fixed_set tb m c i x b' ((k, v) :: del y.1 m) F C X) as (tb1 & c1 & S1 & F1 & _).
    { unfold i. rewrite sub_cons, sub_del. done. }
    { intros j Hj. rewrite sub_cons_other by done. apply sub_del_other. congruence. }
    congruence.
Qed.

Lemma fixed_put_sync sg tb m k v tb' out : fixed tb m -> NoDup m.*1 -> wf_table hash CACHE tb ->
  put_sync sg hash tb k v = Some (tb', out) ->
  match assoc k m with
  | Some _ => out = inr (k, v) /\ fixed tb' m
  | None => out = inl (victim hash (maxcap tb) m k) /\ fixed tb' ((k, v) :: without (victim hash (maxcap tb) m k) m)
  end.
Proof.
  intros F ND W. destruct (fixed_cell tb m k F W) as (c & x & C & X & D & LV).
  destruct (fixed_writer sg tb m k c x F C X D) as (E1 & _ & E3). unfold put_sync. rewrite E1, obind. cbn [fst snd].
  rewrite E3, obind. destruct (fixed_ptr (bkt x) _ k LV (sub_nodup _ _ _ ND)) as (p & P & Q). rewrite P, obind.
  rewrite sub_assoc in Q. destruct (assoc k m) as [v0|].
  - destruct Q as [-> PT]. by intros [= <- <-].
  - rewrite Q. destruct (put_bucket sg (bkt x) (hash k) (k, v)) as [q|] eqn:PB; [|done]. rewrite obind.
    destruct (set_loc tb _ q.1) as [tb1|] eqn:S; [|done]. rewrite obind. intros [= <- <-].
    destruct (fixed_put sg tb m c x k v F ND W C X q tb1 PB S) as [-> F1]. done.
Qed.
Lemma fixed_centry_sync sg tb m k f tb' old ev : fixed tb m -> NoDup m.*1 -> wf_table hash CACHE tb ->
  centry_sync sg hash tb k f = Some (tb', (old, ev)) ->
  ev = match assoc k m, f None with None, Some _ => victim hash (maxcap tb) m k | _, _ => None end /\
  fixed tb' (match assoc k m, f (assoc k m) with
    | None, None => m
    | Some _, None => del k m
    | Some _, Some w => upd k w m
    | None, Some w => (k, w) :: without ev m
    end).
Proof.
  intros F ND W. destruct (fixed_cell tb m k F W) as (c & x & C & X & D & LV).
  destruct (fixed_writer sg tb m k c x F C X D) as (E1 & _ & E3). unfold centry_sync. rewrite E1, obind. cbn [fst snd].
  rewrite E3, obind. destruct (fixed_ptr (bkt x) _ k LV (sub_nodup _ _ _ ND)) as (p & P & Q). rewrite P, obind.
  rewrite sub_assoc in Q. destruct (assoc k m) as [v0|].
  - destruct Q as [-> PT]. rewrite (points_to_get _ _ _ _ PT), obind. cbn [snd].
    destruct (finish tb _ (bkt x) p (f (Some v0))) as [tb1|] eqn:Fi; [|done]. rewrite obind. intros [= <- <- <-].
    split; [done|]. apply (fixed_finish tb m c _ x _ k v0 p _ F ND C X eq_refl eq_refl PT) in Fi.
    by destruct (f (Some v0)).
  - rewrite Q. destruct (f None) as [w|].
    + destruct (put_bucket sg (bkt x) (hash k) (k, w)) as [q|] eqn:PB; [|done]. rewrite obind.
      destruct (set_loc tb _ q.1) as [tb1|] eqn:S; [|done]. rewrite obind. intros [= <- <- <-].
      destruct (fixed_put sg tb m c x k w F ND W C X q tb1 PB S) as [-> F1]. done.
    + by intros [= <- <- <-].
Qed.
Lemma fixed_get_sync sg tb m k f tb' r : fixed tb m -> NoDup m.*1 -> wf_table hash CACHE tb ->
  get_sync sg hash tb k f = Some (tb', r) ->
  fixed tb' (match assoc k m with
    | None => m
    | Some v => match f v with None => del k m | Some w => (k, w) :: del k m end
    end).
Proof.
  intros F ND W. destruct (fixed_cell tb m k F W) as (c & x & C & X & D & LV).
  destruct (fixed_writer sg tb m k c x F C X D) as (_ & E1 & E3). unfold get_sync. rewrite E1, obind. cbn [fst snd].
  rewrite E3, obind. destruct (fixed_ptr (bkt x) _ k LV (sub_nodup _ _ _ ND)) as (p & P & Q). rewrite P, obind.
  rewrite sub_assoc in Q. destruct (assoc k m) as [v0|] eqn:As; [|rewrite Q; by intros [= <- <-]].
  destruct Q as [-> PT]. rewrite (points_to_get _ _ _ _ PT), obind. cbn [snd].
  destruct (update_lru_tail_spec hash (bkt x) p (k, v0) (lv_wf _ _ _ LV) PT) as (b1 & U & W1 & _ & _ & PT1).
  rewrite U, obind. pose proof (lview_promote hash _ _ _ _ b1 LV (sub_nodup _ _ _ ND) PT U) as LV1. cbn [fst] in LV1.
  assert (ND1 : NoDup ((k, v0) :: del k m).*1) by (by apply put_NoDup).
  destruct (fixed_set tb m c _ x b1 ((k, v0) :: del k m) F C X) as (tb1 & c1 & S & F1 & C1 & Z1 & X1).
  { by rewrite sub_cons, sub_del. } { intros j Hj. rewrite sub_cons_other by done. by apply sub_del_other. }
  rewrite S, obind. destruct (finish tb1 _ b1 p (f v0)) as [tb2|] eqn:Fi; [|done]. rewrite obind. intros [= <- <-].
  eapply (fixed_finish tb1 _ c1 _ _ b1 k v0 p (f v0) F1 ND1 C1 X1 eq_refl) in Fi; [|by rewrite Z1|done].
  destruct (f v0) as [w|].
  - unfold upd in Fi. cbn [map fst] in Fi. rewrite decide_True in Fi by done.
    change (fixed tb2 ((k, w) :: upd k w (del k m))) in Fi. rewrite upd_notin in Fi; [done|]. by apply del_keys.
  - rewrite del_cons_eq, del_notin in Fi; [done|]. by apply del_keys.
Qed.
Lemma del_upd k (w : V) m : del k (upd k w m) = del k m.
Proof.
  unfold del, upd. induction m as [|[a v] m IH]; [done|]. cbn [map fst]. destruct (decide (a = k)) as [->|N].
  - rewrite !filter_cons_False by (cbn; tauto). done.
  - rewrite !filter_cons_True by done. by f_equal.
Qed.
Lemma fixed_remove_if sg tb m k cd tb' r : fixed tb m -> NoDup m.*1 -> wf_table hash CACHE tb ->
  remove_if_sync CACHE sg hash tb k cd = Some (tb', r) ->
  fixed tb' (match assoc k m with
    | None => m
    | Some v => if (cd v).2 then del k m else upd k (cd v).1 m
    end).
Proof.
  intros F ND W. destruct (fixed_cell tb m k F W) as (c & x & C & X & D & LV).
  destruct (fixed_writer sg tb m k c x F C X D) as (_ & E1 & E3). unfold remove_if_sync. rewrite E1, obind. cbn [fst snd].
  rewrite E3, obind. destruct (fixed_ptr (bkt x) _ k LV (sub_nodup _ _ _ ND)) as (p & P & Q). rewrite P, obind.
  rewrite sub_assoc in Q. destruct (assoc k m) as [v0|] eqn:As; [|rewrite Q; by intros [= <- <-]].
  destruct Q as [-> PT]. rewrite (points_to_get _ _ _ _ PT), obind. cbn [snd].
  destruct (replace_value_spec hash CACHE (bkt x) p (k, v0) (cd v0).1 (lv_wf _ _ _ LV) PT) as (b1 & R & W1 & _ & _ & _ & PT1 & _).
  rewrite R, obind. cbn [fst] in *. destruct (lview_replace hash _ _ _ _ (cd v0).1 b1 _ LV (sub_nodup _ _ _ ND) PT R) as [LV1 _].
  cbn [fst] in LV1.
  assert (ND1 : NoDup (upd k (cd v0).1 m).*1) by (by rewrite upd_keys).
  destruct (fixed_set tb m c _ x b1 (upd k (cd v0).1 m) F C X) as (tb1 & c1 & S & F1 & C1 & Z1 & X1).
  { by rewrite sub_upd. } { intros j Hj. by apply sub_upd_other. }
  rewrite S, obind. destruct (cd v0).2.
  - destruct (locked_remove CACHE tb1 _ p) as [z|] eqn:LR; [|done]. rewrite obind. intros [= <- <-].
    assert (Fi : finish tb1 (Cur, CapModel.bucket_index (sz c) (hash k)) b1 p None = Some z.1)
      by (unfold finish; by rewrite LR, obind).
    eapply (fixed_finish tb1 _ c1 _ _ b1 k _ p None F1 ND1 C1 X1 eq_refl) in Fi; [|by rewrite Z1|done].
    cbn beta iota in Fi. by rewrite del_upd in Fi.
  - by intros [= <- <-].
Qed.

(** Retaining. *)
Lemma kept_cons q (e : K * V) m : kept_of q (e :: m) = (if (q e).2 then [(e.1, (q e).1)] else []) ++ kept_of q m.
Proof.
  unfold kept_of. destruct (q e).2 eqn:E.
  - rewrite filter_cons_True by done. done.
  - rewrite filter_cons_False by (by rewrite E). done.
Qed.
Lemma kept_ext q q' m : (forall e, e ∈ m -> q e = q' e) -> kept_of q m = kept_of q' m.
Proof.
  induction m as [|e m IH]; intros H; [done|]. rewrite !kept_cons, (H e) by left. f_equal. apply IH. intros x Hx. apply H. by right.
Qed.
Definition partly (s : CapModel.arr) (is : list N) (q : K * V -> V * bool) (e : K * V) : V * bool :=
  if decide (CapModel.bucket_index s (hash e.1) ∈ is) then q e else (e.2, true).
Lemma kept_partly s i is q m : i ∉ is ->
  kept_of (partly s is q) (kept_of (partly s [i] q) m) = kept_of (partly s (i :: is) q) m.
Proof.
  intros Ni. induction m as [|[k v] m IH]; [done|]. rewrite !kept_cons. unfold partly at 2 3 5 6. cbn [fst snd].
  destruct (decide (CapModel.bucket_index s (hash k) = i)) as [D|D].
  - rewrite !decide_True by set_solver. destruct (q (k, v)).2; [|done]. cbn [app]. rewrite kept_cons.
    unfold partly at 1 2. cbn [fst snd]. rewrite !decide_False by (by rewrite D). cbn [fst snd app]. by f_equal.
  - rewrite !(decide_False (P := CapModel.bucket_index s (hash k) ∈ [i])) by set_solver. cbn [fst snd app].
    rewrite kept_cons. f_equal; [|done]. unfold partly; cbn [fst snd].
    destruct (decide (CapModel.bucket_index s (hash k) ∈ is)) as [H|H].
    + by rewrite !decide_True by set_solver.
    + by rewrite !decide_False by set_solver.
Qed.
Lemma kept_nodup q m : NoDup m.*1 -> NoDup (kept_of q m).*1.
Proof. intros ND. eapply sublist_nodup; [apply kept_keys|done]. Qed.
Lemma kept_id m : kept_of (fun e => (e.2, true)) m = m.
Proof. induction m as [|[k v] m IH]; [done|]. rewrite kept_cons. cbn. by f_equal. Qed.

Lemma fixed_writer_loop sg q (f : unit -> K * V -> verdict V unit) is : (forall e, f tt e = Verdict _ tt (q e).1 (q e).2 true) ->
   forall tb m c tb' s' out out' go, NoDup is -> fixed tb m -> cur tb = Some c -> NoDup m.*1 ->
  writer_loop CACHE sg hash tb is
    (fun s b => mut_loop (Datatypes.S (blen b)) CACHE f s b null_ptr [])
    tt out = Some (tb', s', out', go) ->
  fixed tb' (kept_of (partly (sz c) is q) m).
Proof.
  intros Hf. induction is as [|i is IH]; intros tb m c tb' s' out out' go NDi F C ND; cbn [writer_loop].
  - intros [= <- _ _ _]. rewrite (kept_ext _ (fun e => (e.2, true))), kept_id; [done|]. intros e _. unfold partly.
    by rewrite decide_False by apply not_elem_of_nil.
  - apply list.NoDup_cons in NDi as [Ni NDi]. rewrite (fixed_prepare _ _ _ _ F), obind.
    pose proof (fx_cur _ _ F) as (c' & C' & N & L). assert (c' = c) as -> by congruence.
    unfold lock, loc_cell. cbn [loc_array fst snd]. rewrite C, !obind.
    destruct (cell_at c i) as [x|] eqn:X; [|done]. rewrite !obind. destruct (L i x X) as [D LV]. rewrite D, obind.
    destruct (mut_loop_retain hash q f (Datatypes.S (blen (bkt x))) (bkt x) _ Hf LV (sub_nodup _ _ _ ND)) as (b1 & cons & E & LV1).
    { pose proof (wf_len _ _ _ (wf_bucket_core _ _ _ (lv_wf _ _ _ LV))). lia. }
    rewrite E, obind. cbn [fst snd].
    destruct (fixed_set tb m c i x b1 (kept_of (partly (sz c) [i] q) m) F C X) as (tb1 & c1 & S & F1 & C1 & Z1 & _).
    { rewrite sub_kept. rewrite (kept_ext _ q); [done|]. intros e He. apply elem_of_list_filter in He as [He _].
      unfold partly. rewrite decide_True by set_solver. done. }
    { intros j Hj. rewrite sub_kept. rewrite (kept_ext _ (fun e => (e.2, true))), kept_id; [done|].
      intros e He. apply elem_of_list_filter in He as [He _]. unfold partly. rewrite decide_False by set_solver. done. }
    rewrite S, obind. intros H.
    apply (IH tb1 _ c1 tb' s' _ out' go NDi F1 C1 (kept_nodup _ _ ND)) in H. rewrite Z1, kept_partly in H by done. done.
Qed.

Lemma range_nodup i j : NoDup (TableModel.range i j).
Proof. unfold TableModel.range. apply (NoDup_fmap_2_strong (fun d => (i + N.of_nat d)%N)); [lia|apply NoDup_seq]. Qed.
Lemma fixed_retain sg tb m q (pred : unit -> K * V -> unit * V * bool) tb' s' :
  (forall e, pred tt e = (tt, (q e).1, (q e).2)) -> fixed tb m -> NoDup m.*1 -> wf_table hash CACHE tb ->
  retain_sync CACHE sg hash tb pred tt = Some (tb', s') ->
  fixed tb' (kept_of q m).
Proof.
  intros Hp F ND W. pose proof (fx_cur _ _ F) as (c & C & N & L). unfold retain_sync, iter_mut_sync. rewrite C.
  destruct (wf_tab_cur hash CACHE tb c W C) as [Wc _].
  cbn [fst snd].
  destruct (writer_loop _ _ _ _ _ _ _ _) as [[[[tb1 s1] out1] go1]|] eqn:E; [|done]. rewrite !obind. cbn [fst snd].
  apply (fixed_writer_loop sg q _ (TableModel.range 0 (alen c))) with (m := m) (c := c) in E; [|by intros e; rewrite Hp|by apply range_nodup|done..].
  rewrite (kept_ext _ q) in E.
  2:{ intros e _. unfold partly. rewrite decide_True; [done|]. apply elem_of_range. pose proof (index_lt hash Hh CACHE c e.1 Wc). lia. }
  assert (G : forall es, fixed (release tb1 es) (kept_of q m)) by (intros es; destruct E; by split).
  destruct out1 as [|y out1]; [rewrite !obind; cbn [fst snd]; intros [= <- <-]; apply G|].
  rewrite (fixed_shrink _ _ _ E), !obind. cbn [fst snd]. intros [= <- <-]. apply G.
Qed.

(** One operation. *)
Lemma fixed_step sg tb m rel o tb' out : fixed tb m -> holds hash CACHE tb m rel -> cstep sg hash tb o = Some (tb', out) ->
  agree out (lru_out hash (maxcap tb) m o) /\ fixed tb' (next m o (lru_out hash (maxcap tb) m o)).
Proof.
  intros F H. pose proof (hd_wf _ _ _ _ _ H) as W. pose proof (hd_ents _ _ _ _ _ H) as P.
  assert (ND : NoDup m.*1) by (by apply (wf_nodup hash CACHE tb)).
  destruct (cstep_spec hash Hh sg tb m rel o H) as (tb1 & out1 & E1 & A & _). intros E. rewrite E in E1. injection E1 as <- <-.
  pose proof (fx_cur _ _ F) as (c & C & N & L). pose proof (fx_old _ _ F) as O.
  destruct o as [k v|k f|k f|k cd|k| | | | |p|]; cbn [cstep allowed next lru_out] in *.
  - destruct (put_sync sg hash tb k v) as [[tb1 r]|] eqn:Q; [|done]. rewrite obind in E. injection E as <- <-. cbn [fst snd].
    apply (fixed_put_sync sg tb m k v tb1 r F ND W) in Q. destruct (assoc k m); destruct Q as [-> F1]; done.
  - destruct (get_sync sg hash tb k f) as [[tb1 r]|] eqn:Q; [|done]. rewrite obind in E. injection E as <- <-. cbn [fst snd].
    apply (fixed_get_sync sg tb m k f tb1 r F ND W) in Q. split; [|done]. by rewrite A.
  - destruct (centry_sync sg hash tb k f) as [[tb1 [o1 ev]]|] eqn:Q; [|done]. rewrite obind in E. injection E as <- <-. cbn [fst snd] in *.
    apply (fixed_centry_sync sg tb m k f tb1 o1 ev F ND W) in Q as [-> F1]. destruct A as (ev & A & _). injection A as -> _.
    split; [done|]. destruct (assoc k m) as [v0|]; [done|]. by destruct (f None).
  - destruct (remove_if_sync CACHE sg hash tb k cd) as [[tb1 r]|] eqn:Q; [|done]. rewrite obind in E. injection E as <- <-. cbn [fst snd] in *.
    apply (fixed_remove_if sg tb m k cd tb1 r F ND W) in Q. split; [|done]. by rewrite A.
  - destruct (fixed_cell tb m k F W) as (c1 & x & C1 & X & D & LV). assert (c1 = c) as -> by congruence.
    destruct (fixed_writer sg tb m k c x F C X D) as (_ & Q & Lo). unfold read in E. rewrite Q, obind in E. cbn [fst snd] in E.
    rewrite Lo, obind in E. destruct (search_entry CACHE (bkt x) k (hash k)); [|done]. rewrite !obind in E. injection E as <- <-.
    split; [|done]. by rewrite A.
  - unfold len in E. rewrite C in E. unfold incremental_rehash in E. rewrite C, O, obind in E. cbn [fst snd] in E.
    rewrite C, obind in E. rewrite (proj2 (N.eqb_neq _ _) (fx_pos _ _ F)), andb_false_r, !obind in E. injection E as <- <-.
    split; [|done]. by rewrite A.
  - injection E as <- <-. split; [|done]. unfold capacity. by rewrite C, N.
  - unfold is_empty in E. rewrite C in E. unfold incremental_rehash in E. rewrite C, O, obind in E. cbn [fst snd] in E.
    rewrite C, obind in E. destruct (has_any c).
    + rewrite obind in E. injection E as <- <-. split; [|done]. by rewrite A.
    + rewrite (proj2 (N.eqb_neq _ _) (fx_pos _ _ F)), !obind in E. injection E as <- <-. split; [|done]. by rewrite A.
  - unfold iter_sync in E. rewrite C in E.
    assert (G : forall is g (s : list (K * V)) tb1 s1 go, reader_loop CACHE sg hash tb is g s = Some (tb1, s1, go) -> tb1 = tb).
    { clear -F. induction is as [|i is IH]; intros g s tb1 s1 go; cbn [reader_loop]; [by intros [= <- _ _]|].
      rewrite (fixed_prepare _ _ _ _ F), obind. destruct (lock tb (Cur, i)) as [b|]; [|done]. rewrite obind.
      destruct (g s b) as [[s2 []]|]; [|by intros [= <- _ _]|done]. rewrite obind. cbn [fst snd]. apply IH. }
    destruct (reader_loop _ _ _ _ _ _ _) as [[[tb1 s1] go]|] eqn:R; [|done]. rewrite obind in E. injection E as <- <-.
    apply G in R as ->. split; [|done]. cbn [fst snd] in *. by destruct A as (l & [= ->] & Pl).
  - destruct (retain_sync CACHE sg hash tb _ tt) as [[tb1 r]|] eqn:Q; [|done]. rewrite obind in E. injection E as <- <-. cbn [fst snd].
    split; [done|]. by apply (fixed_retain sg tb m p _ tb1 r (fun e => eq_refl) F ND W) in Q.
  - unfold clear_sync in E. destruct (retain_sync CACHE sg hash tb _ tt) as [[tb1 r]|] eqn:Q; [|done]. rewrite !obind in E.
    injection E as <- <-. cbn [fst snd]. split; [done|].
    apply (fixed_retain sg tb m (fun e => (e.2, false)) _ tb1 r (fun e => eq_refl) F ND W) in Q.
    assert (G : kept_of (fun e : K * V => (e.2, false)) m = []).
    { clear. induction m as [|e m IH]; [done|]. by rewrite kept_cons. }
    by rewrite G in Q.
Qed.
Lemma fixed_run sg (os : list (cop K V)) : forall tb m rel, fixed tb m -> holds hash CACHE tb m rel ->
  exists tb' outs, crun sg hash tb os = Some (tb', outs) /\ Forall2 agree outs (lru_run hash (maxcap tb) m os).
Proof.
  induction os as [|o os IH]; intros tb m rel F H; cbn [crun lru_run].
  - exists tb, []. split; [done|constructor].
  - destruct (cstep_spec hash Hh sg tb m rel o H) as (tb1 & out & E & A & H1 & X1 & _). rewrite E, obind. cbn [fst snd].
    destruct (fixed_step sg tb m rel o tb1 out F H E) as [Ag F1].
    assert (EN : next m o out = next m o (lru_out hash (maxcap tb) m o)).
    { assert (G : forall x y : cout K V, agree x y -> (forall l, y <> COEntries l) -> x = y).
      { intros x y Axy Ny. destruct x, y; try exact Axy. by destruct (Ny l0). }
      destruct o; try reflexivity; by rewrite (G _ _ Ag). }
    rewrite EN in H1. destruct (IH tb1 _ _ F1 H1) as (tb2 & outs & E2 & O2). rewrite E2, obind. cbn [fst snd].
    exists tb2, (out :: outs). split; [done|]. constructor; [exact Ag|]. rewrite X1 in O2. exact O2.
Qed.

Lemma new_fixed mn mx tb : (0 < mn)%N -> (mx <= mn)%N -> new_cache mn mx = Some tb -> fixed tb [].
Proof.
  intros P Le. unfold new_cache.
  destruct (CapFacts.capacity_rounding mn) as (s & E & (j & Pj) & [B1 B2] & B3).
  assert (M : cache_maximum mn mx = Some (CapModel.num_slots s)).
  { unfold cache_maximum, CapModel.cache_with_capacity, CapModel.with_capacity.
    rewrite (proj2 (N.eqb_neq _ _)) by lia. rewrite E. cbn [CapModel.obind CapModel.initial_minimum].
    change CapModel.MAXIMUM_CAPACITY_LIMIT with (2 ^ 62)%N. change CapModel.minimum_capacity_const with 64%N.
    assert (EZ : N.min (N.max (N.max mx (CapModel.num_slots s)) 64) (2 ^ 62) = CapModel.num_slots s) by lia.
    rewrite EZ. destruct (CapFacts.npo2_spec (CapModel.num_slots s)) as (n & En & L1 & _); [lia|].
    assert (EE : CapModel.next_power_of_two (CapModel.num_slots s) = Some (CapModel.num_slots s)); [|by rewrite EE].
    rewrite En. f_equal. apply N.le_antisymm; [|done]. rewrite Pj in *. apply N.pow_le_mono_r; [done|].
    eapply CapFacts.npo2_least; [|exact En|]; lia. }
  rewrite M, obind. unfold new_table. rewrite (proj2 (N.eqb_neq _ _)) by lia.
  destruct (new_barray_spec (K:=K) (V:=V) hash CACHE mn) as (a & Ea & Wa & Ia & Sa & Ca & La & Na). rewrite Ea, obind.
  assert (sz a = s) as Hs by congruence. intros [= <-].
  assert (MM : minimum (Table (Some a) None {| CapModel.word := CapModel.num_slots (sz a); CapModel.guards := []; CapModel.resizing := false |}
     (CapModel.num_slots s) [] []) = CapModel.num_slots s).
  { unfold minimum; cbn [mst]. rewrite Hs. unfold CapModel.minimum_capacity; cbn [CapModel.word].
    apply CapFacts.masked_small. unfold CapModel.RESIZING. lia. }
  split; cbn [old maxcap cur]; [done|done|rewrite MM; lia|].
  exists a. split; [done|]. rewrite Hs. split; [done|]. intros i x X.
  split; [by eapply La|]. unfold new_barray in Ea. rewrite E, obind in Ea. injection Ea as <-.
  unfold cell_at in X; cbn [bks] in X. apply lookup_replicate in X as [-> _]. cbn [bkt]. apply lview_new.
Qed.
End cache_fix.
