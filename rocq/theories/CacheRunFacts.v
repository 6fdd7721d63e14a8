(** Histories of cache operations on a table of any layout. *)
From Coq Require Import NArith Lia.
From stdpp Require Import numbers prelude list.
From Verif Require CapModel CapSpec CapFacts CapThms.
From Verif Require Import LruModel BucketModel BucketSpec BucketFacts BucketOps BucketOps2 BucketOps3 BucketRunFacts
  MapSpec MapFacts TableModel TableSpec TableFacts TableReloc TableResize TableHouse TableAccess TableOps
  IterSpec TableIter MapFacts2 MapModel MapRef MapRunFacts MapWhole CacheModel CacheSpec CacheFacts CacheOps.

Section cache_run.
Context {K V : Type} `{EqDecision K}.
Context (hash : K -> N).
Context (Hh : forall k, (hash k < 2 ^ 64)%N).
Implicit Types (tb : table K V) (m : list (K * V)).

Lemma upd_notin k (w : V) m : k ∉ m.*1 -> upd k w m = m.
Proof.
  induction m as [|[k' v'] m IH]; intros N; [done|]. cbn [upd map fst]. cbn in N. apply not_elem_of_cons in N as [N1 N2].
  rewrite decide_False by congruence. f_equal. by apply IH.
Qed.
Lemma upd_put k (v w : V) m : NoDup m.*1 -> assoc k m = Some v -> upd k w m ≡ₚ put k w m.
Proof.
  intros ND A. apply assoc_Some in A; [|done]. apply elem_of_list_split in A as (l1 & l2 & ->).
  unfold put. rewrite del_split by done.
  rewrite fmap_app in ND. cbn in ND. apply NoDup_app in ND as (_ & N1 & N2). apply list.NoDup_cons in N2 as [N2 _].
  unfold upd. rewrite map_app. cbn [map fst]. rewrite decide_True by done.
  change (upd k w l1 ++ (k, w) :: upd k w l2 ≡ₚ (k, w) :: l1 ++ l2).
  rewrite !upd_notin; [symmetry; apply Permutation_middle|done|].
  intros H. apply (N1 k H). left.
Qed.
Lemma upd_keys k (w : V) m : (upd k w m).*1 = m.*1.
Proof.
  induction m as [|[k' v'] m IH]; [done|]. cbn [upd map fst fmap list_fmap].
  f_equal; [|exact IH]. case_decide; [done|done].
Qed.
Lemma assoc_upd k k' (v w : V) m : assoc k' m = Some v -> assoc k (upd k' w m) = if decide (k = k') then Some w else assoc k m.
Proof.
  intros A. assert (G : forall m, k' ∈ m.*1 \/ k <> k' -> assoc k (upd k' w m) = if decide (k = k') then Some w else assoc k m).
  { clear A m. induction m as [|[a b] m IH]; intros Hk; cbn [upd map assoc fst].
    - destruct (decide (k = k')); [|done]. destruct Hk as [Hk|Hk]; [by apply elem_of_nil in Hk|done].
    - destruct (decide (a = k')) as [->|Na].
      + cbn [assoc]. destruct (decide (k = k')); [done|]. change (assoc k (upd k' w m) = assoc k m).
        rewrite IH by (by right). repeat case_decide; done.
      + cbn [assoc]. destruct (decide (k = a)) as [->|Nk].
        * by rewrite decide_False by done.
        * apply IH. destruct Hk as [Hk|Hk]; [|by right]. left. cbn in Hk. apply elem_of_cons in Hk as [->|Hk]; [done|done]. }
  apply G. left. destruct (decide (k' ∈ m.*1)) as [|N]; [done|]. apply assoc_None in N. congruence.
Qed.

(** Who was crowding, when a step evicts [x]. *)
Definition evicts (out : cout K V) (x : K * V) : Prop :=
  out = COPut (inl (Some x)) \/ exists v, out = COFound v (Some x).
Definition crowding tb m (k : K) (x : K * V) : Prop :=
  exists tb1 l, crowd hash tb1 l m x /\ lkey hash tb1 l k /\ located hash tb tb1 l.

Lemma cstep_spec sg tb m rel (o : cop K V) : holds hash CACHE tb m rel ->
  exists tb' out, cstep sg hash tb o = Some (tb', out) /\ allowed m o out /\
    holds hash CACHE tb' (next m o out) (rel ++ drops m o) /\ maxcap tb' = maxcap tb /\ mst tb' = mst tb /\
    forall x k v, o = CPut k v -> evicts out x -> crowding tb m k x.
Proof.
  intros H. pose proof (hd_wf _ _ _ _ _ H) as W. pose proof (hd_ents _ _ _ _ _ H) as P.
  assert (Ht : CACHE <> INDEX) by done.
  assert (ND : NoDup m.*1) by (by apply (wf_nodup hash CACHE tb)).
  assert (HS0 : forall tb' m', step hash CACHE tb tb' m' [] ->
     holds hash CACHE tb' m' (rel ++ []) /\ maxcap tb' = maxcap tb /\ mst tb' = mst tb).
  { intros tb' m' S. split; [by apply (holds_step0 hash CACHE tb tb' m rel)|]. split; apply S. }
  assert (HSP : forall tb' m' m'', step hash CACHE tb tb' m' [] -> m' ≡ₚ m'' ->
     holds hash CACHE tb' m'' (rel ++ []) /\ maxcap tb' = maxcap tb /\ mst tb' = mst tb).
  { intros tb' m' m'' S Pm. apply HS0. by eapply step_perm. }
  destruct o as [k v|k f|k f|k c|k| | | | |p|]; cbn [cstep allowed next drops].
  - destruct (put_sync_spec hash Hh sg tb k v m W P) as (tb' & out & E & X). rewrite E, obind. cbn [fst snd].
    exists tb', (COPut out). split; [done|]. destruct (assoc k m) as [v0|].
    + destruct X as [-> S]. split; [done|]. destruct (HS0 _ _ S) as (A & B & C). split; [done|]. split; [done|]. split; [done|].
      intros x k0 v1 _ [Y|(? & Y)]; congruence.
    + destruct X as (ev & -> & S & Ev). split.
      { exists ev. split; [done|]. intros x Hx. by destruct (Ev x Hx). }
      destruct (HS0 _ _ S) as (A & B & C). split; [done|]. split; [done|]. split; [done|].
      intros x k0 v1 [= <- <-] [Y|(? & Y)]; [|congruence]. assert (ev = Some x) as -> by congruence.
      destruct (Ev x eq_refl) as (_ & tb1 & l & Q). by exists tb1, l.
  - destruct (get_sync_spec hash Hh sg tb k f m W P) as (tb' & E & S). rewrite E, obind. cbn [fst snd].
    exists tb', (COFound (assoc k m) None). split; [done|]. split; [done|].
    destruct (HS0 _ _ S) as (A & B & C). split; [|done].
    destruct (assoc k m) as [v0|]; [|done]. by destruct (f v0).
  - destruct (centry_sync_spec hash Hh sg tb k f m W P) as (tb' & ev & E & S & Ev). rewrite E, obind. cbn [fst snd].
    exists tb', (COFound (assoc k m) ev). split; [done|]. split.
    { exists ev. split; [done|]. intros x Hx. destruct (Ev x Hx) as (? & ? & ? & _). done. }
    destruct (assoc k m) as [v0|] eqn:A; destruct (f _) as [w|].
    + destruct (HSP _ _ (upd k w m) S) as (X & B & C); [symmetry; by eapply upd_put|done].
    + destruct (HS0 _ _ S) as (X & B & C); done.
    + destruct (HS0 _ _ S) as (X & B & C); done.
    + destruct (HS0 _ _ S) as (X & B & C); done.
  - destruct (remove_if_sync_spec hash Hh CACHE sg tb k c m Ht W P) as (tb' & E & S). rewrite E, obind. cbn [fst snd].
    eexists _, _. split; [done|]. split; [done|]. destruct (assoc k m) as [v|] eqn:A; [destruct (c v).2|].
    + destruct (HS0 _ _ S) as (X & B & C); done.
    + destruct (HSP _ _ (upd k (c v).1 m) S) as (X & B & C); [symmetry; by eapply upd_put|done].
    + destruct (HS0 _ _ S) as (X & B & C); done.
  - destruct (read_spec hash Hh CACHE sg tb k m Ht W P) as (tb' & r & E & S & A & Ke). rewrite E, obind. cbn [fst snd].
    eexists _, _. split; [done|]. destruct (HS0 _ _ S) as (X & B & C). split; [|done].
    rewrite <- A. destruct r as [[k' v']|]; [|done]. cbn. specialize (Ke _ eq_refl). cbn in Ke. by rewrite Ke.
  - destruct (len_spec hash Hh CACHE sg tb m Ht W P) as (tb' & E & S). rewrite E, obind. cbn [fst snd].
    eexists _, _. split; [done|]. split; [done|]. destruct (HS0 _ _ S) as (X & B & C); done.
  - eexists _, _. split; [done|]. split; [by eexists|]. rewrite app_nil_r. done.
  - destruct (is_empty_spec hash Hh CACHE sg tb m Ht W P) as (tb' & E & S). rewrite E, obind. cbn [fst snd].
    eexists _, _. split; [done|]. destruct (HS0 _ _ S) as (X & B & C). split; [|done].
    f_equal. destruct m; [by rewrite bool_decide_true|by rewrite bool_decide_false].
  - destruct (iter_sync_spec hash Hh CACHE sg tb (fun s e => (s ++ [e], true)) [] W) as (tb' & vs & E & Pv & S).
    rewrite E, obind. cbn [fst snd]. rewrite visit_collect. cbn [fst snd app].
    eexists _, _. split; [done|]. split; [eexists; split; [done|]; by rewrite Pv|].
    rewrite app_nil_r. split; [by apply (holds_same hash CACHE tb tb')|]. split; [apply S|]. split; [apply S|done].
  - destruct (retain_sync_spec hash Hh CACHE sg tb (fun (s : unit) e => (s, (p e).1, (p e).2)) tt Ht W)
      as (tb' & vs & s' & kept & cons & E & Pv & Vm & S).
    rewrite E, obind. cbn [fst snd]. rewrite visit_retain in Vm. injection Vm as <- <- <-.
    eexists _, _. split; [done|]. split; [done|].
    rewrite P in Pv. split; [|split; [apply S|split; [apply S|done]]].
    eapply holds_perm; [eapply (holds_step hash CACHE tb tb' m rel); [done|exact S|reflexivity]|..].
    + by rewrite Pv.
    + by rewrite Pv.
  - unfold clear_sync.
    destruct (retain_sync_spec hash Hh CACHE sg tb (fun (_ : unit) e => (tt, e.2, false)) tt Ht W)
      as (tb' & vs & s' & kept & cons & E & Pv & Vm & S).
    rewrite E, obind. cbn [fst snd].
    assert (Vm' : visit_mut (fun (s : unit) (e : K * V) => (tt, e.2, false, true)) tt vs = (tt, [], vs, true)).
    { clear. induction vs as [|[k v] vs IH]; [done|]. cbn [visit_mut]. rewrite IH. done. }
    rewrite Vm' in Vm. injection Vm as <- <- <-. rewrite obind.
    eexists _, _. split; [done|]. split; [done|].
    rewrite P in Pv. split; [|split; [apply S|split; [apply S|done]]].
    by eapply (holds_step hash CACHE tb tb' m rel).
Qed.

Lemma crun_spec sg (os : list (cop K V)) : forall tb m rel, holds hash CACHE tb m rel ->
  exists tb' outs, crun sg hash tb os = Some (tb', outs) /\ conforms m os outs /\
    holds hash CACHE tb' (contents m os outs) (rel ++ all_drops m os outs) /\
    maxcap tb' = maxcap tb /\ mst tb' = mst tb.
Proof.
  induction os as [|o os IH]; intros tb m rel H; cbn [crun].
  - exists tb, []. split; [done|]. split; [done|]. cbn. by rewrite app_nil_r.
  - destruct (cstep_spec sg tb m rel o H) as (tb1 & out & E & A & H1 & X1 & X2 & _). rewrite E, obind. cbn [fst snd].
    destruct (IH tb1 _ _ H1) as (tb2 & outs & E2 & O2 & H2 & Y1 & Y2). rewrite E2, obind. cbn [fst snd].
    exists tb2, (out :: outs). split; [done|]. split; [done|]. cbn [contents all_drops].
    rewrite app_assoc. split; [done|]. split; congruence.
Qed.
Lemma run_cache_spec sg mn mx (os : list (cop K V)) :
  exists tb outs, run_cache sg hash mn mx os = Some (tb, outs) /\ conforms [] os outs /\
    holds hash CACHE tb (contents [] os outs) (all_drops [] os outs) /\
    cache_maximum mn mx = Some (maxcap tb).
Proof.
  unfold run_cache. destruct (new_cache_spec (V:=V) hash mn mx) as (tb0 & E & H & M & _). rewrite E, obind.
  destruct (crun_spec sg os tb0 [] [] H) as (tb & outs & E2 & O2 & H2 & X & _). exists tb, outs.
  split; [done|]. split; [done|]. split; [done|]. by rewrite X.
Qed.

Lemma crun_app sg (os os' : list (cop K V)) : forall tb,
  crun sg hash tb (os ++ os') = r ← crun sg hash tb os; q ← crun sg hash r.1 os'; Some (q.1, r.2 ++ q.2).
Proof.
  induction os as [|o os IH]; intros tb; cbn [crun app].
  - rewrite obind. cbn [fst snd]. destruct (crun sg hash tb os') as [[]|]; done.
  - destruct (cstep sg hash tb o) as [[tb1 out]|]; [|done]. rewrite !obind. cbn [fst snd]. rewrite IH.
    destruct (crun sg hash tb1 os) as [[tb2 outs]|]; [|done]. rewrite !obind. cbn [fst snd].
    destruct (crun sg hash tb2 os') as [[tb3 outs']|]; done.
Qed.

(** What [look] and [cap_after] see. *)
Lemma look_spec sg mn mx os tb outs m rel k : run_cache sg hash mn mx os = Some (tb, outs) -> holds hash CACHE tb m rel ->
  look sg hash mn mx os k = assoc k m.
Proof.
  intros E H. unfold look, cafter. rewrite E, obind. cbn [fst].
  destruct (cstep_spec sg tb m rel (CRead k) H) as (tb' & out & E2 & A & _). rewrite E2, obind. cbn [snd].
  cbn [allowed] in A. rewrite A. by destruct (assoc k m).
Qed.
Lemma cap_after_spec sg mn mx os tb outs : run_cache sg hash mn mx os = Some (tb, outs) ->
  cap_after sg hash mn mx os = capacity tb.
Proof. intros E. unfold cap_after, cafter. rewrite E. done. Qed.

Lemma bucket_of_index (c : barray K V) h : wf_array hash CACHE c ->
  bucket_of (CapModel.num_slots (sz c)) h = CapModel.bucket_index (sz c) h.
Proof.
  intros W. destruct (table_wf _ (wa_table _ _ _ W)) as (k & s & E & Kb & _). rewrite E.
  unfold bucket_of, CapModel.num_slots. cbn [CapModel.array_len]. change CapModel.BUCKET_LEN with 32%N.
  rewrite N.div_mul by done. rewrite CapFacts.bucket_index_div. cbn [CapModel.hash_offset].
  replace (2 ^ 64)%N with (2 ^ (64 - k) * 2 ^ k)%N by (rewrite <- N.pow_add_r; f_equal; lia).
  rewrite <- N.div_div by (apply N.pow_nonzero; done).
  rewrite N.mul_comm. 
  rewrite (N.mul_comm (2 ^ k) h).
  rewrite N.div_div by (apply N.pow_nonzero; done).
  rewrite N.div_mul_cancel_r by (apply N.pow_nonzero; done). done.
Qed.

(** ** Accounting *)
Lemma del_one k (v : V) m : NoDup m.*1 -> assoc k m = Some v -> m ≡ₚ (k, v) :: del k m.
Proof.
  intros ND A. apply assoc_Some in A; [|done]. apply elem_of_list_split in A as (l1 & l2 & ->).
  rewrite del_split by done. symmetry. apply Permutation_middle.
Qed.
Lemma split_filter (q : K * V -> bool) m : m ≡ₚ filter (fun e => q e = false) m ++ filter (fun e => q e = true) m.
Proof.
  induction m as [|e m IH]; [done|]. destruct (q e) eqn:E.
  - rewrite filter_cons_False, filter_cons_True by congruence. rewrite <- Permutation_middle. by rewrite <- IH.
  - rewrite filter_cons_True, filter_cons_False by congruence. cbn [app]. by rewrite <- IH.
Qed.
Lemma step_account m o out : NoDup m.*1 -> allowed m o out -> cin_place o ->
  cgiven o out ++ m ≡ₚ creturned o out ++ drops m o ++ next m o out.
Proof.
  intros ND A IP. destruct o as [k v|k f|k f|k c|k| | | | |p|]; cbn [allowed cgiven next drops creturned cin_place] in *.
  - destruct (assoc k m) as [v0|] eqn:E; [by subst out|]. destruct A as (ev & -> & Ev). cbn [app].
    destruct ev as [[k1 v1]|]; cbn [without fst app]; [|done].
    assert (A1 : assoc k1 m = Some v1) by (apply assoc_Some; [done|by apply Ev]).
    rewrite (del_one k1 v1 m ND A1) at 1. by apply Permutation_swap.
  - subst out. destruct (assoc k m) as [v0|] eqn:E; [|done]. destruct (f v0) as [w|]; cbn [app].
    + rewrite (del_one k v0 m ND E) at 1. by apply Permutation_swap.
    + by apply del_one.
  - destruct A as (ev & -> & Ev). destruct (assoc k m) as [v0|] eqn:E.
    + destruct ev as [x|]; [destruct (Ev x eq_refl) as (_ & ? & _); done|]. cbn [option_list app].
      destruct (f (Some v0)) as [w|]; cbn [app].
      * rewrite (upd_put k v0 w m ND E). unfold put. rewrite (del_one k v0 m ND E) at 1. by apply Permutation_swap.
      * by apply del_one.
    + destruct (f None) as [w|] eqn:F.
      * destruct ev as [[k1 v1]|]; cbn [option_list app without fst]; [|done].
        assert (A1 : assoc k1 m = Some v1) by (apply assoc_Some; [done|by apply Ev]).
        rewrite (del_one k1 v1 m ND A1) at 1. by apply Permutation_swap.
      * destruct ev as [x|]; [destruct (Ev x eq_refl) as (_ & _ & ?); done|done].
  - subst out. destruct (assoc k m) as [v0|] eqn:E; [|done]. rewrite IP. destruct (c v0).2.
    + by apply del_one.
    + cbn [app]. rewrite (upd_put k v0 v0 m ND E). by apply del_one.
  - by subst out.
  - by subst out.
  - by destruct A as (n & ->).
  - by subst out.
  - by destruct A as (l & -> & _).
  - subst out. cbn [app]. assert (forall l : list (K * V), map (fun e => (e.1, (p e).1)) l = l) as Id.
    { intros l. induction l as [|e l IH]; [done|]. cbn [map]. rewrite IH, IP. by destruct e. }
    rewrite !Id. apply (split_filter (fun e => (p e).2)).
  - subst out. cbn [app]. by rewrite app_nil_r.
Qed.
Lemma next_nodup m o out : NoDup m.*1 -> allowed m o out -> NoDup (next m o out).*1.
Proof.
  intros ND A.
  assert (F : forall (q : K * V -> V * bool), NoDup (map (fun e => (e.1, (q e).1)) (filter (fun e => (q e).2 = true) m)).*1).
  { intros q. assert ((map (fun e : K * V => (e.1, (q e).1)) (filter (fun e => (q e).2 = true) m)).*1
       = (filter (fun e => (q e).2 = true) m).*1) as ->.
    { generalize (filter (fun e => (q e).2 = true) m). intros l. induction l; [done|]. cbn. by f_equal. }
    eapply sublist_nodup; [|exact ND]. apply fmap_sublist, filter_sub. }
  assert (Wo : forall k v ev, k ∉ m.*1 -> NoDup ((k, v) :: without ev m).*1).
  { intros k v ev Hk. cbn. destruct ev as [x|]; cbn [without]; apply list.NoDup_cons.
    - split; [intros X; apply Hk; by eapply del_sub|by apply del_NoDup].
    - done. }
  assert (Pt : forall k v, NoDup ((k, v) :: del k m).*1).
  { intros k v. apply (put_NoDup k v m ND). }
  destruct o as [k v|k f|k f|k c|k| | | | |p|]; cbn [allowed next] in *; try done.
  - destruct (assoc k m) as [v0|] eqn:E; [by subst out|]. destruct A as (ev & -> & Ev).
    apply Wo. by apply assoc_None.
  - destruct (assoc k m) as [v0|] eqn:E; [|done]. destruct (f v0); [done|by apply del_NoDup].
  - destruct A as (ev & -> & Ev). destruct (assoc k m) as [v0|] eqn:E.
    + destruct (f (Some v0)); [by rewrite upd_keys|by apply del_NoDup].
    + destruct (f None); [|done]. apply Wo. by apply assoc_None.
  - destruct (assoc k m) as [v0|] eqn:E; [|done]. destruct (c v0).2; [by apply del_NoDup|by rewrite upd_keys].
  - constructor.
Qed.
Lemma run_account os : forall m outs, NoDup m.*1 -> conforms m os outs -> Forall cin_place os ->
  concat (zip_with cgiven os outs) ++ m ≡ₚ
  concat (zip_with creturned os outs) ++ all_drops m os outs ++ contents m os outs.
Proof.
  induction os as [|o os IH]; intros m [|out outs] ND C IP; cbn [conforms zip_with concat all_drops contents app] in *; try done.
  destruct C as [A C]. inversion IP as [|? ? I1 I2]; subst.
  pose proof (step_account m o out ND A I1) as P1.
  pose proof (IH _ _ (next_nodup m o out ND A) C I2) as P2.
  rewrite <- app_assoc. rewrite (Permutation_app_swap_app (cgiven o out)). rewrite P1.
  rewrite (Permutation_app_swap_app _ (creturned o out)). rewrite <- !app_assoc. apply Permutation_app_head.
  rewrite (Permutation_app_swap_app _ (drops m o)). rewrite P2.
  rewrite (Permutation_app_swap_app (drops m o)). done.
Qed.
End cache_run.
