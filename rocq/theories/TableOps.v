(** The keyed operations of the table against an association list (HashMap and HashCache buckets,
    i.e. everything except HashIndex). *)
From Coq Require Import NArith Lia.
From stdpp Require Import numbers prelude list.
From Verif Require CapModel CapSpec CapFacts CapThms.
From Verif Require Import LruModel BucketModel BucketSpec BucketFacts BucketOps BucketOps2 BucketOps3
  MapSpec MapFacts BucketRun BucketRunFacts TableModel TableSpec TableFacts TableReloc TableHouse TableResize TableAccess.

Section ops.
Context {K V : Type} `{EqDecision K}.
Context (hash : K -> N).
Context (Hh : forall k, (hash k < 2 ^ 64)%N).
Implicit Types (a c o : barray K V) (x : cell K V) (tb : table K V) (b : bucket K V) (l : loc).
Implicit Types (m : list (K * V)).

(** The table now holds [m] and has dropped [rel] in addition. *)
Record step t tb tb' m rel : Prop := Step {
  sp_wf : wf_table hash t tb';
  sp_ents : tents t tb' ≡ₚ m;
  sp_rel : released tb' = released tb ++ rel;
  sp_garb : garbage tb' = garbage tb;
  sp_mst : mst tb' = mst tb;
  sp_max : maxcap tb' = maxcap tb }.
Lemma step_same t tb tb' m : t <> INDEX -> tents t tb ≡ₚ m -> same hash t tb tb' -> step t tb tb' m [].
Proof.
  intros Ht P S. destruct (sm_rel _ _ _ _ S Ht) as [R G].
  split; [apply S|by rewrite (sm_ents _ _ _ _ S)|by rewrite R, app_nil_r|done|apply S|apply S].
Qed.
Lemma step_trans t tb tb1 tb2 m1 r1 m2 r2 : step t tb tb1 m1 r1 -> step t tb1 tb2 m2 r2 -> step t tb tb2 m2 (r1 ++ r2).
Proof.
  intros S1 S2. split; [apply S2|apply S2|..].
  - by rewrite (sp_rel _ _ _ _ _ S2), (sp_rel _ _ _ _ _ S1), app_assoc.
  - by rewrite (sp_garb _ _ _ _ _ S2), (sp_garb _ _ _ _ _ S1).
  - by rewrite (sp_mst _ _ _ _ _ S2), (sp_mst _ _ _ _ _ S1).
  - by rewrite (sp_max _ _ _ _ _ S2), (sp_max _ _ _ _ _ S1).
Qed.
Lemma step_perm t tb tb' m m' rel : step t tb tb' m rel -> m ≡ₚ m' -> step t tb tb' m' rel.
Proof. intros [] P. split; try done. by rewrite <- P. Qed.
Lemma wf_nodup t tb m : wf_table hash t tb -> tents t tb ≡ₚ m -> NoDup m.*1.
Proof. intros W P. rewrite <- P. apply W. Qed.

(** Looking a key up in its bucket gives the table's answer. *)
Lemma owns_assoc t tb l b k m : wf_table hash t tb -> owns hash tb l b -> lkey hash tb l k -> tents t tb ≡ₚ m ->
  exists R RS, m ≡ₚ entries t b ++ R /\ k ∉ R.*1 /\ NoDup (entries t b).*1 /\ assoc k m = assoc k (entries t b) /\
    tstored tb ≡ₚ stored b ++ RS /\
    forall b', wf_bucket hash t b' -> (forall e, e ∈ entries t b' -> e.1 = k \/ e.1 ∈ (entries t b).*1) ->
      NoDup (entries t b').*1 -> exists tb', put_back hash t tb l R RS b' tb'.
Proof.
  intros W Ow Lk P. destruct (owns_split hash t tb l b W Ow) as (R & RS & TE & TS & Nk & PB).
  assert (NR : k ∉ R.*1).
  { intros (e & -> & He)%elem_of_list_fmap. by apply (Nk e He). }
  assert (ND : NoDup (entries t b ++ R).*1) by (rewrite <- TE; apply W).
  exists R, RS. split; [by rewrite <- P|]. split; [done|].
  split; [rewrite fmap_app in ND; by apply NoDup_app in ND as (? & _)|].
  split.
  - rewrite <- (assoc_perm k _ m ND) by (by rewrite <- TE).
    clear -NR. induction (entries t b) as [|[k' v] es IH]; cbn [app assoc].
    + by apply assoc_None.
    + by rewrite IH.
  - split; [done|]. intros b' Wb Kb NDb. apply PB; [done| |done].
    intros e He. destruct (Kb e He) as [->|Hk]; [done|].
    apply elem_of_list_fmap in Hk as (e' & -> & He'). by apply (owns_lkey hash t tb l b e').
Qed.

Lemma put_step t tb tb1 l R RS b' tb' m : t <> INDEX -> same hash t tb tb1 ->
  put_back hash t tb1 l R RS b' tb' -> entries t b' ++ R ≡ₚ m -> step t tb tb' m [].
Proof.
  intros Ht S PB P. destruct (sm_rel _ _ _ _ S Ht) as [Rl G]. split.
  - apply PB.
  - by rewrite (pb_ents _ _ _ _ _ _ _ _ PB).
  - by rewrite (pb_rel _ _ _ _ _ _ _ _ PB), Rl, app_nil_r.
  - by rewrite (pb_garb _ _ _ _ _ _ _ _ PB).
  - rewrite (pb_mst _ _ _ _ _ _ _ _ PB). apply S.
  - rewrite (pb_max _ _ _ _ _ _ _ _ PB). apply S.
Qed.
Lemma release_nil tb : release tb [] = tb.
Proof. destruct tb. unfold release. cbn. by rewrite app_nil_r. Qed.

Lemma read_spec t sg tb k m : t <> INDEX -> wf_table hash t tb -> tents t tb ≡ₚ m ->
  exists tb' r, read t sg hash tb k = Some (tb', r) /\ step t tb tb' m [] /\
    option_map snd r = assoc k m /\ (forall e, r = Some e -> e.1 = k).
Proof.
  intros Ht W P. unfold read.
  destruct (optional_writer_spec hash Hh t sg tb k W) as (tb1 & r & E & S & H). rewrite E, obind. cbn [fst snd].
  pose proof (step_same _ _ _ _ Ht P S) as St.
  destruct r as [l|].
  - destruct H as (_ & Lk & b & Ow). destruct (owns_lock hash t tb1 l b (sm_wf _ _ _ _ S) Ow) as [L Wb]. rewrite L, obind.
    destruct (owns_assoc t tb1 l b k m (sm_wf _ _ _ _ S) Ow Lk) as (R & RS & _ & _ & ND & A & _); [by rewrite (sm_ents _ _ _ _ S)|].
    destruct (search_entry_assoc hash t b k Wb ND) as (q & Eq & Aq & Kq). rewrite Eq, obind.
    exists tb1, q. split; [done|]. split; [done|]. split; [congruence|done].
  - exists tb1, None. split; [done|]. split; [done|]. split; [|done].
    rewrite H in P. apply Permutation_nil in P as ->. done.
Qed.

Lemma points_assoc t b k v p : wf_bucket hash t b -> NoDup (entries t b).*1 -> points_to t b p (k, v) ->
  assoc k (entries t b) = Some v /\ del k (entries t b) = before (live_at t) b p ++ after (live_at t) b p.
Proof.
  intros W ND Pt. pose proof (points_to_split _ _ _ _ _ W Pt) as Sp. rewrite Sp in *.
  split; [by apply assoc_split|by apply del_split].
Qed.
Lemma del_out k (v : V) (q : list (K * V)) R m : m ≡ₚ q ++ R -> k ∉ R.*1 -> del k m ≡ₚ del k q ++ R.
Proof. intros P N. by rewrite P, del_app, (del_notin k R N). Qed.

Lemma insert_sync_spec t sg tb k v m : t <> INDEX -> wf_table hash t tb -> tents t tb ≡ₚ m ->
  exists tb', insert_sync t sg hash tb k v =
      Some (tb', match assoc k m with None => None | Some _ => Some (k, v) end) /\
    step t tb tb' (match assoc k m with None => put k v m | Some _ => m end) [].
Proof.
  intros Ht W P. unfold insert_sync.
  destruct (writer_spec hash Hh t sg tb k W) as (tb1 & l & b & E & S & Lk & Ow). rewrite E, obind. cbn [fst snd].
  pose proof (sm_wf _ _ _ _ S) as W1. destruct (owns_lock hash t tb1 l b W1 Ow) as [L Wb]. rewrite L, obind.
  destruct (owns_assoc t tb1 l b k m W1 Ow Lk) as (R & RS & Pm & NR & ND & A & _ & PB); [by rewrite (sm_ents _ _ _ _ S)|].
  destruct (lookup_ptr hash t b k Wb) as (p & Ep & [[V1 (v0 & Pt)]|[V1 N]]); rewrite Ep, obind, V1.
  - destruct (points_assoc t b k v0 p Wb ND Pt) as [A' _]. rewrite A, A'. exists tb1. split; [done|].
    by apply step_same.
  - rewrite A, (proj2 (assoc_None k _) N).
    destruct (insert_spec hash t sg b (hash k) (k, v) Wb eq_refl) as (b' & p' & d & E' & W' & E1 & _ & _ & Hd & _).
    rewrite E', obind. cbn [fst snd]. rewrite (Hd Ht).
    destruct (PB b' W') as (tb2 & PBk).
    { intros e He. rewrite E1 in He. apply elem_of_cons in He as [->|He]; [by left|]. right. apply elem_of_list_fmap. eauto. }
    { rewrite E1. cbn. by apply NoDup_cons. }
    rewrite (pb_set _ _ _ _ _ _ _ _ PBk), obind, release_nil. exists tb2. split; [done|].
    eapply put_step; [done|exact S|exact PBk|]. rewrite E1. cbn [app]. unfold put.
    constructor. rewrite (del_out k v _ _ _ Pm NR), (del_notin k _ N). done.
Qed.

(** Replacing the value of the entry at [p]. *)
Lemma replace_step t tb tb1 l b k v0 v p m R RS : t <> INDEX -> same hash t tb tb1 ->
  wf_bucket hash t b -> NoDup (entries t b).*1 -> points_to t b p (k, v0) -> m ≡ₚ entries t b ++ R -> k ∉ R.*1 ->
  (forall b', wf_bucket hash t b' -> (forall e, e ∈ entries t b' -> e.1 = k \/ e.1 ∈ (entries t b).*1) ->
      NoDup (entries t b').*1 -> exists tb', put_back hash t tb1 l R RS b' tb') ->
  exists b' tb', replace_value b p v = Some (b', v0) /\ set_loc tb1 l b' = Some tb' /\
    step t tb tb' (put k v m) [] /\ owns hash tb' l b' /\ (forall k, lkey hash tb' l k <-> lkey hash tb1 l k) /\
    points_to t b' p (k, v) /\ wf_bucket hash t b'.
Proof.
  intros Ht S Wb ND Pt Pm NR PB.
  destruct (points_assoc t b k v0 p Wb ND Pt) as [A' D].
  pose proof (points_to_split _ _ _ _ _ Wb Pt) as Sp.
  destruct (replace_value_spec hash t b p (k, v0) v Wb Pt) as (b' & E' & W' & E1 & _ & _ & Pt' & _).
  cbn [fst snd] in *. exists b'.
  assert (Kk : (entries t b').*1 = (entries t b).*1).
  { rewrite E1, Sp, !fmap_app. done. }
  destruct (PB b' W') as (tb2 & PBk).
  { intros e He. right. rewrite <- Kk. apply elem_of_list_fmap. eauto. }
  { by rewrite Kk. }
  exists tb2. split; [done|]. split; [apply PBk|]. split; [|split; [apply PBk|split; [apply PBk|done]]].
  eapply put_step; [done|exact S|exact PBk|]. unfold put.
  rewrite (del_out k v _ _ _ Pm NR), D, E1, <- !app_assoc. symmetry. apply Permutation_middle.
Qed.

Lemma upsert_sync_spec t sg tb k v m : t <> INDEX -> wf_table hash t tb -> tents t tb ≡ₚ m ->
  exists tb', upsert_sync t sg hash tb k v = Some (tb', assoc k m) /\ step t tb tb' (put k v m) [].
Proof.
  intros Ht W P. unfold upsert_sync.
  destruct (writer_spec hash Hh t sg tb k W) as (tb1 & l & b & E & S & Lk & Ow). rewrite E, obind. cbn [fst snd].
  pose proof (sm_wf _ _ _ _ S) as W1. destruct (owns_lock hash t tb1 l b W1 Ow) as [L Wb]. rewrite L, obind.
  destruct (owns_assoc t tb1 l b k m W1 Ow Lk) as (R & RS & Pm & NR & ND & A & _ & PB); [by rewrite (sm_ents _ _ _ _ S)|].
  destruct (lookup_ptr hash t b k Wb) as (p & Ep & [[V1 (v0 & Pt)]|[V1 N]]); rewrite Ep, obind, V1.
  - destruct (points_assoc t b k v0 p Wb ND Pt) as [A' _]. rewrite A, A'.
    destruct (replace_step t tb tb1 l b k v0 v p m R RS Ht S Wb ND Pt Pm NR PB) as (b' & tb' & E1 & E2 & St & _).
    rewrite E1, obind. cbn [fst snd]. rewrite E2, obind. eauto.
  - rewrite A, (proj2 (assoc_None k _) N).
    destruct (insert_spec hash t sg b (hash k) (k, v) Wb eq_refl) as (b' & p' & d & E' & W' & E1 & _ & _ & Hd & _).
    rewrite E', obind. cbn [fst snd]. rewrite (Hd Ht).
    destruct (PB b' W') as (tb2 & PBk).
    { intros e He. rewrite E1 in He. apply elem_of_cons in He as [->|He]; [by left|]. right. apply elem_of_list_fmap. eauto. }
    { rewrite E1. cbn. by apply NoDup_cons. }
    rewrite (pb_set _ _ _ _ _ _ _ _ PBk), obind, release_nil. exists tb2. split; [done|].
    eapply put_step; [done|exact S|exact PBk|]. rewrite E1. cbn [app]. unfold put.
    constructor. rewrite (del_out k v _ _ _ Pm NR), (del_notin k _ N). done.
Qed.

Lemma update_sync_spec {X} t sg tb k (f : K -> V -> V * X) m : t <> INDEX -> wf_table hash t tb -> tents t tb ≡ₚ m ->
  exists tb', update_sync t sg hash tb k f =
      Some (tb', match assoc k m with Some v => Some (f k v).2 | None => None end) /\
    step t tb tb' (match assoc k m with Some v => put k (f k v).1 m | None => m end) [].
Proof.
  intros Ht W P. unfold update_sync.
  destruct (optional_writer_spec hash Hh t sg tb k W) as (tb1 & r & E & S & H). rewrite E, obind. cbn [fst snd].
  pose proof (step_same _ _ _ _ Ht P S) as St.
  destruct r as [l|].
  - destruct H as (_ & Lk & b & Ow). pose proof (sm_wf _ _ _ _ S) as W1.
    destruct (owns_lock hash t tb1 l b W1 Ow) as [L Wb]. rewrite L, obind.
    destruct (owns_assoc t tb1 l b k m W1 Ow Lk) as (R & RS & Pm & NR & ND & A & _ & PB); [by rewrite (sm_ents _ _ _ _ S)|].
    destruct (lookup_ptr hash t b k Wb) as (p & Ep & [[V1 (v0 & Pt)]|[V1 N]]); rewrite Ep, obind, V1.
    + destruct (points_assoc t b k v0 p Wb ND Pt) as [A' _]. rewrite A, A'.
      rewrite (points_to_get _ _ _ _ Pt), obind. cbn [fst snd].
      destruct (replace_step t tb tb1 l b k v0 (f k v0).1 p m R RS Ht S Wb ND Pt Pm NR PB) as (b' & tb' & E1 & E2 & St' & _).
      rewrite E1, obind. cbn [fst snd]. rewrite E2, obind. eauto.
    + rewrite A, (proj2 (assoc_None k _) N). eauto.
  - rewrite H in P. apply Permutation_nil in P as ->. eauto.
Qed.

(** [LockedBucket::remove]. *)
Lemma locked_remove_spec t tb l b k v p m : t <> INDEX -> wf_table hash t tb -> tents t tb ≡ₚ m ->
  owns hash tb l b -> lkey hash tb l k -> points_to t b p (k, v) ->
  exists tb', locked_remove t tb l p = Some (tb', (k, v)) /\ step t tb tb' (del k m) [].
Proof.
  intros Ht W P Ow Lk Pt. unfold locked_remove.
  destruct (owns_lock hash t tb l b W Ow) as [L Wb]. rewrite L, obind.
  destruct (owns_assoc t tb l b k m W Ow Lk P) as (R & RS & Pm & NR & ND & A & _ & PB).
  destruct (points_assoc t b k v p Wb ND Pt) as [A' D].
  destruct (remove_spec hash t b p (k, v) Wb Pt) as (b' & p' & E' & W' & T). rewrite E', obind. cbn [fst snd].
  pose proof (taken_entries _ _ _ _ _ _ _ T) as E1. rewrite <- D in E1.
  destruct (PB b' W') as (tb1 & PBk).
  { intros e He. right. rewrite E1 in He. apply (del_sub k). apply elem_of_list_fmap. eauto. }
  { rewrite E1. by apply del_NoDup. }
  rewrite (pb_set _ _ _ _ _ _ _ _ PBk), obind.
  assert (S1 : step t tb tb1 (del k m) []).
  { eapply put_step; [done|by apply same_refl|exact PBk|]. rewrite E1. symmetry. by apply (del_out k v). }
  destruct (blen b' =? 0).
  - destruct (locked_try_shrink_spec hash Hh t tb1 l b') as (tb2 & E2 & S2); [apply PBk|apply PBk|].
    rewrite E2, obind. exists tb2. split; [done|]. change (@nil (K * V)) with (@nil (K * V) ++ []).
    eapply step_trans; [exact S1|]. apply step_same; [done|apply S1|done].
  - rewrite obind. eauto.
Qed.

Lemma del_put k v m : del k (put k v m) = del k m.
Proof. unfold put. rewrite del_cons_eq. apply del_notin, del_keys. Qed.

Lemma remove_if_sync_spec t sg tb k (cond : V -> V * bool) m : t <> INDEX -> wf_table hash t tb -> tents t tb ≡ₚ m ->
  exists tb', remove_if_sync t sg hash tb k cond =
      Some (tb', match assoc k m with
                 | Some v => if (cond v).2 then Some (k, (cond v).1) else None
                 | None => None end) /\
    step t tb tb' (match assoc k m with
                   | Some v => if (cond v).2 then del k m else put k (cond v).1 m
                   | None => m end) [].
Proof.
  intros Ht W P. unfold remove_if_sync.
  destruct (optional_writer_spec hash Hh t sg tb k W) as (tb1 & r & E & S & H). rewrite E, obind. cbn [fst snd].
  pose proof (step_same _ _ _ _ Ht P S) as St.
  destruct r as [l|].
  - destruct H as (_ & Lk & b & Ow). pose proof (sm_wf _ _ _ _ S) as W1.
    destruct (owns_lock hash t tb1 l b W1 Ow) as [L Wb]. rewrite L, obind.
    destruct (owns_assoc t tb1 l b k m W1 Ow Lk) as (R & RS & Pm & NR & ND & A & _ & PB); [by rewrite (sm_ents _ _ _ _ S)|].
    destruct (lookup_ptr hash t b k Wb) as (p & Ep & [[V1 (v0 & Pt)]|[V1 N]]); rewrite Ep, obind, V1.
    + destruct (points_assoc t b k v0 p Wb ND Pt) as [A' _]. rewrite A, A'.
      rewrite (points_to_get _ _ _ _ Pt), obind. cbn [fst snd].
      destruct (replace_step t tb tb1 l b k v0 (cond v0).1 p m R RS Ht S Wb ND Pt Pm NR PB)
        as (b' & tb' & E1 & E2 & St' & Ow' & Lk' & Pt' & Wb').
      rewrite E1, obind. cbn [fst snd]. rewrite E2, obind.
      destruct (cond v0).2; [|eauto].
      destruct (locked_remove_spec t tb' l b' k (cond v0).1 p (put k (cond v0).1 m) Ht) as (tb2 & E3 & S3).
      { apply St'. } { apply St'. } { done. } { by apply Lk'. } { done. }
      rewrite E3, obind. exists tb2. split; [done|]. change (@nil (K * V)) with (@nil (K * V) ++ []).
      rewrite <- (del_put k (cond v0).1 m). by eapply step_trans.
    + rewrite A, (proj2 (assoc_None k _) N). eauto.
  - rewrite H in P. apply Permutation_nil in P as ->. eauto.
Qed.

(** ** Counting *)
Lemma sum_len_spec t a n : wf_array hash t a -> (n <= usize_max)%N ->
  sum_len n a = N.min (n + N.of_nat (length (aents t a))) usize_max.
Proof.
  intros W. unfold sum_len, aents.
  assert (C : forall x, x ∈ bks a -> clen x = N.of_nat (length (entries t (bkt x)))).
  { intros x Hx. unfold clen. f_equal. apply (wf_len hash). by apply (wf_cores hash t a W). }
  revert n C. induction (bks a) as [|x cs IH]; intros n C Hn; cbn [fold_left map concat].
  - change (length (@nil (K * V))) with 0. rewrite N.min_l; lia.
  - rewrite IH; [|intros y Hy; apply C; set_solver|unfold saturating_add; lia].
    rewrite (C x) by set_solver. rewrite app_length. unfold saturating_add. lia.
Qed.
Lemma has_any_spec t a : wf_array hash t a -> has_any a = negb (bool_decide (aents t a = [])).
Proof.
  intros W. unfold has_any, aents. pose proof (wf_cores hash t a W) as C.
  induction (bks a) as [|x cs IH]; [done|]. cbn [existsb map concat].
  rewrite IH by (intros y Hy; apply C; set_solver).
  unfold clen. rewrite (wf_len hash t (bkt x)) by (apply C; set_solver).
  destruct (entries t (bkt x)) as [|e es]; [done|]. cbn [app length].
  symmetry. apply negb_true_iff. apply bool_decide_eq_false_2. done.
Qed.

Lemma try_resize0 t tb : wf_table hash t tb -> exists tb', try_resize t tb 0 = Some tb' /\ same hash t tb tb'.
Proof.
  intros W. destruct (try_resize_any hash Hh t tb 0 W) as (tb' & E & S & _); [|eauto].
  intros c C. apply alen_pos. by apply (wf_tab_cur hash t tb c W C).
Qed.

Lemma len_same t sg tb m : wf_table hash t tb -> tents t tb ≡ₚ m ->
  exists tb', len t sg hash tb = Some (tb', N.min (N.of_nat (length m)) usize_max) /\ same hash t tb tb'.
Proof.
  intros W P. unfold len. destruct (cur tb) as [c|] eqn:C.
  2:{ exists tb. unfold tents in P. rewrite C, (wf_tab_none _ _ _ W C) in P. apply Permutation_nil in P as ->.
      split; [done|by apply same_refl]. }
  destruct (incremental_rehash_spec hash Hh t sg tb W) as (tb1 & held & E1 & S1 & Ho & Wh). rewrite E1, obind. cbn [fst snd].
  destruct (st_cur _ _ _ _ S1 c C) as (c1 & C1 & Z1 & _). rewrite C1, obind.
  pose proof (sm_wf _ _ _ _ (st_same _ _ _ _ S1)) as W1. destruct (wf_tab_cur _ _ _ _ W1 C1) as (Wc1 & _).
  assert (P1 : oents t held ++ aents t c1 ≡ₚ m).
  { rewrite <- P, <- (sm_ents _ _ _ _ (st_same _ _ _ _ S1)). unfold tents. by rewrite Ho, C1. }
  assert (EN : sum_len match held with Some o => sum_len 0 o | None => 0%N end c1 = N.min (N.of_nat (length m)) usize_max).
  { rewrite (sum_len_spec t); [|done|].
    - rewrite <- P1, app_length. destruct held as [o|]; cbn [oents].
      + rewrite (sum_len_spec t) by (by apply Wh || done). lia.
      + change (length (@nil (K * V))) with 0. f_equal.
    - destruct held as [o|]; [|done]. rewrite (sum_len_spec t) by (by apply Wh || done). lia. }
  rewrite EN.
  destruct ((N.min (N.of_nat (length m)) usize_max =? 0)%N && (minimum tb1 =? 0)%N).
  - destruct (try_resize0 t tb1 W1) as (tb2 & E2 & S2). rewrite E2, obind. exists tb2. split; [done|].
    eapply same_trans; [apply S1|done].
  - rewrite obind. exists tb1. split; [done|]. apply S1.
Qed.

Lemma is_empty_same t sg tb m : wf_table hash t tb -> tents t tb ≡ₚ m ->
  exists tb', is_empty t sg hash tb = Some (tb', bool_decide (m = [])) /\ same hash t tb tb'.
Proof.
  intros W P. unfold is_empty. destruct (cur tb) as [c|] eqn:C.
  2:{ exists tb. unfold tents in P. rewrite C, (wf_tab_none _ _ _ W C) in P. apply Permutation_nil in P as ->.
      split; [done|by apply same_refl]. }
  destruct (incremental_rehash_spec hash Hh t sg tb W) as (tb1 & held & E1 & S1 & Ho & Wh). rewrite E1, obind. cbn [fst snd].
  destruct (st_cur _ _ _ _ S1 c C) as (c1 & C1 & Z1 & _). rewrite C1, obind.
  pose proof (sm_wf _ _ _ _ (st_same _ _ _ _ S1)) as W1. destruct (wf_tab_cur _ _ _ _ W1 C1) as (Wc1 & _).
  assert (P1 : oents t held ++ aents t c1 ≡ₚ m).
  { rewrite <- P, <- (sm_ents _ _ _ _ (st_same _ _ _ _ S1)). unfold tents. by rewrite Ho, C1. }
  assert (H1 : match held with Some o => has_any o | None => false end = negb (bool_decide (oents t held = []))).
  { destruct held as [o|]; [|done]. cbn [oents]. apply has_any_spec. by apply Wh. }
  rewrite H1, (has_any_spec t c1 Wc1).
  pose proof (st_same _ _ _ _ S1) as St.
  destruct (bool_decide_reflect (oents t held = [])) as [E0|E0]; cbn [negb].
  - rewrite E0 in P1. cbn [app] in P1. destruct (bool_decide_reflect (aents t c1 = [])) as [E3|E3]; cbn [negb].
    + rewrite E3 in P1. apply Permutation_nil in P1 as ->. rewrite bool_decide_true by done.
      destruct (minimum tb1 =? 0)%N.
      * destruct (try_resize0 t tb1 W1) as (tb2 & E2 & S2). rewrite E2, obind. exists tb2. split; [done|].
        eapply same_trans; [apply S1|done].
      * rewrite obind. eauto.
    + rewrite bool_decide_false; [eauto|]. intros ->. by apply Permutation_nil_r in P1.
  - rewrite bool_decide_false; [eauto|]. intros ->. apply Permutation_nil_r in P1.
    by apply app_nil in P1 as [? _].
Qed.

Lemma len_spec t sg tb m : t <> INDEX -> wf_table hash t tb -> tents t tb ≡ₚ m ->
  exists tb', len t sg hash tb = Some (tb', N.min (N.of_nat (length m)) usize_max) /\ step t tb tb' m [].
Proof.
  intros Ht W P. destruct (len_same t sg tb m W P) as (tb' & E & S). exists tb'. split; [done|]. by apply step_same.
Qed.
Lemma is_empty_spec t sg tb m : t <> INDEX -> wf_table hash t tb -> tents t tb ≡ₚ m ->
  exists tb', is_empty t sg hash tb = Some (tb', bool_decide (m = [])) /\ step t tb tb' m [].
Proof.
  intros Ht W P. destruct (is_empty_same t sg tb m W P) as (tb' & E & S). exists tb'. split; [done|]. by apply step_same.
Qed.
End ops.
