(** As long as a cache does not shrink: whole operations and histories. *)
From Coq Require Import NArith Lia.
From stdpp Require Import numbers prelude list.
From Verif Require CapModel CapSpec CapFacts CapThms.
From Verif Require Import LruModel LruFacts BucketModel BucketSpec BucketFacts BucketOps BucketOps2 BucketOps3 BucketRunFacts
  MapSpec MapFacts TableModel TableSpec TableFacts TableReloc TableResize TableHouse TableAccess TableOps
  IterSpec TableIter MapFacts2 MapModel MapRef MapRunFacts CacheModel CacheSpec CacheFacts CacheOps CacheRunFacts CacheTidy.

Section tidy2.
Context {K V : Type} `{EqDecision K}.
Context (hash : K -> N) (Hh : forall k, (hash k < 2 ^ 64)%N).
Implicit Types (tb : table K V) (m : list (K * V)) (b : bucket K V) (a c o : barray K V) (x : cell K V).

Lemma seq_tidy tb1 tb2 tb3 : tidy tb1 -> plainT tb2 -> shape tb2 = shape tb1 -> ro tb2 tb3 -> (capacity tb1 <= capacity tb3)%N -> tidy tb3.
Proof.
  intros T P S R Le. eapply ro_tidy; [|exact R|by rewrite (shape_cap _ _ S)]. by eapply shape_tidy.
Qed.
Lemma stay_cap tb tb' : stay hash CACHE tb tb' -> capacity tb' = capacity tb.
Proof.
  intros S. unfold capacity. destruct (cur tb) as [c|] eqn:C.
  - destruct (st_cur _ _ _ _ S c C) as (c' & -> & -> & _). done.
  - by rewrite (st_none _ _ _ _ S C).
Qed.
Lemma prep tb c i : wf_table hash CACHE tb -> cur tb = Some c -> (i < alen c)%N -> tidy tb -> forall sg, exists tb1,
  prepare CACHE sg hash tb i = Some tb1 /\ tidy tb1 /\ capacity tb1 = capacity tb /\ wf_table hash CACHE tb1 /\ stay hash CACHE tb tb1.
Proof.
  intros W C Hi T sg. destruct (prepare_spec hash Hh CACHE sg tb c i W C Hi) as (tb1 & E & S & _). exists tb1.
  split; [done|]. split; [by eapply prepare_tidy|]. split; [by apply stay_cap|]. split; [apply S|done].
Qed.
Lemma optional_tidy sg tb k tb1 r : wf_table hash CACHE tb -> tidy tb -> optional_writer CACHE sg hash tb (hash k) = Some (tb1, r) ->
  tidy tb1 /\ capacity tb1 = capacity tb /\ wf_table hash CACHE tb1.
Proof.
  intros W T. unfold optional_writer. destruct (cur tb) as [c|] eqn:C; [|by intros [= <- _]].
  destruct (wf_tab_cur _ _ _ _ W C) as (Wc & _). pose proof (index_lt hash Hh CACHE c k Wc) as Hi.
  destruct (prep tb c _ W C Hi T sg) as (tb' & E & T1 & Cp & W1 & _). rewrite E, obind.
  destruct (lock tb' _); [|done]. rewrite obind. by intros [= <- _].
Qed.
(** Either nothing was resized, or the old array is there now. *)
Lemma writer_tidy sg tb k tb1 l : wf_table hash CACHE tb -> tidy tb -> writer CACHE sg hash tb (hash k) = Some (tb1, l) ->
  wf_table hash CACHE tb1 /\ plainT tb1 /\
  ((tidy tb1 /\ (capacity tb1 = capacity tb \/ tents CACHE tb = [])) \/
   (old tb1 <> None /\ ((capacity tb <= capacity tb1)%N -> tidy tb1))).
Proof.
  intros W T E. destruct (writer_spec hash Hh CACHE sg tb k W) as (tb1' & l' & b & E' & S & _).
  assert (tb1' = tb1) as -> by congruence. pose proof (sm_wf _ _ _ _ S) as W1. split; [done|]. clear E' l' b.
  revert E. unfold writer.
  destruct (create_spec hash CACHE tb W) as (tb0 & c0 & E0 & S0 & C0 & K0). rewrite E0, obind, C0, obind.
  pose proof (sm_wf _ _ _ _ S0) as W0. destruct (wf_tab_cur _ _ _ _ W0 C0) as (Wc0 & _).
  assert (T0 : tidy tb0 /\ (tb0 = tb \/ tents CACHE tb = [])).
  { unfold create in E0. destruct (cur tb) as [c|] eqn:C; [injection E0 as <-; split; [done|by left]|].
    destruct (new_barray _) as [a|] eqn:Ea; [|done]. rewrite obind in E0. injection E0 as <-.
    pose proof (wf_tab_none _ _ _ W C) as O. split; [split; [split|]|right].
    - cbn [with_cur cur]. intros ? [= <-]. by eapply plain_new.
    - cbn [with_cur old]. by rewrite O.
    - intros ? ?. cbn [with_cur cur old]. by rewrite O.
    - unfold tents. by rewrite C, O. }
  destruct T0 as [T0 Or].
  destruct (prep tb0 c0 _ W0 C0 (index_lt hash Hh CACHE c0 k Wc0) T0 sg) as (tb2 & E2 & T2 & Cp & W2 & S2).
  rewrite E2, obind. destruct (st_cur _ _ _ _ S2 c0 C0) as (c & C2 & Z2 & _). rewrite C2, obind.
  destruct (cell_at c _) as [x|] eqn:X; [|done]. rewrite obind.
  assert (Cp2 : capacity tb2 = capacity tb \/ tents CACHE tb = []). { rewrite Cp. destruct Or as [->|Z]; [by left|by right]. }
  match goal with |- context [if ?t then try_enlarge _ _ _ _ else _] => destruct t eqn:Te end.
  - destruct (try_enlarge _ _ _ _) as [tb3|] eqn:En; [|done]. rewrite obind. destruct (lock tb3 _); [|done]. rewrite obind.
    intros [= <- _]. pose proof (try_enlarge_ro tb2 _ _ _ (wf_okay hash _ W2) En) as R.
    assert (Ne : tents CACHE tb <> []).
    { rewrite !andb_true_iff in Te. destruct Te as [[_ H] _]. apply Nat.leb_le in H. intros Z.
      assert (Z2' : tents CACHE tb2 = []).
      { apply Permutation_nil. rewrite <- Z. rewrite <- (sm_ents _ _ _ _ S0). symmetry. apply S2. }
      destruct (wf_tab_cur _ _ _ _ W2 C2) as (Wc2 & _).
      rewrite (wf_len _ _ _ (wc_core _ _ _ (wa_cells _ _ _ Wc2 _ _ X))) in H.
      destruct (entries CACHE (bkt x)) as [|e r] eqn:Ex; [unfold BUCKET_LEN in H; cbn in H; lia|].
      assert (He : e ∈ tents CACHE tb2).
      { unfold tents. apply elem_of_app. right. rewrite C2. cbn [oents]. apply elem_of_aents. eexists _, x. split; [exact X|]. rewrite Ex. left. }
      rewrite Z2' in He. by apply elem_of_nil in He. }
    destruct Cp2 as [Cp2|]; [|done].
    destruct R as [->|[[Cn On]|(O2 & c1 & a & C1 & C3 & O3 & P & N)]].
    + split; [apply T2|]. left. split; [done|by left].
    + split; [split; by rewrite ?Cn, ?On|]. left. split; [split; [split; by rewrite ?Cn, ?On|intros ? ?; by rewrite Cn]|].
      exfalso. pose proof (writer_spec_size hash Hh CACHE sg tb k W) as (tb4 & l4 & b4 & _). 
      apply Ne. apply Permutation_nil. rewrite <- (sm_ents _ _ _ _ S). unfold tents. by rewrite Cn, On.
    + split.
      { split; [rewrite C3; by intros ? [= <-]|rewrite O3; intros ? [= <-]; by apply (proj1 (proj1 T2))]. }
      right. split; [by rewrite O3|]. intros Le. eapply ro_tidy; [exact T2| |by rewrite Cp2].
      right. right. split; [done|]. by exists c1, a.
  - rewrite obind. destruct (lock tb2 _); [|done]. rewrite obind. intros [= <- _].
    split; [apply T2|]. left. split; [done|done].
Qed.
Lemma lock_wf tb l b : wf_table hash CACHE tb -> lock tb l = Some b -> wf_bucket hash CACHE b.
Proof.
  intros W. unfold lock, loc_cell. destruct (loc_array tb l.1) as [a|] eqn:A; [|done]. rewrite obind.
  destruct (cell_at a l.2) as [x|] eqn:X; [|done]. rewrite obind. destruct (dead x) eqn:D; [done|]. intros [= <-].
  assert (Wa : wf_array hash CACHE a).
  { pose proof (wt_arrays _ _ _ W) as Wt. destruct l as [[] i]; cbn [fst loc_array] in A; rewrite A in Wt.
    - destruct (old tb); [apply Wt|apply Wt].
    - destruct (cur tb); [apply Wt|done]. }
  pose proof (wa_cells _ _ _ Wa _ _ X) as Wx. split; [apply Wx|by apply Wx].
Qed.

(** The end of an operation. *)
Lemma locked_remove_ro tb l p tb' y : okay tb -> plainT tb -> locked_remove CACHE tb l p = Some (tb', y) ->
  exists tb1, plainT tb1 /\ shape tb1 = shape tb /\ ro tb1 tb'.
Proof.
  intros Ok P. unfold locked_remove. destruct (lock tb l) as [b|] eqn:L; [|done]. rewrite obind.
  destruct (remove CACHE b p) as [[[b' p'] z]|] eqn:R; [|done]. rewrite obind. cbn [fst snd].
  apply plain_remove in R; [|by eapply lock_plain].
  destruct (set_loc tb l b') as [tb1|] eqn:Sl; [|done]. rewrite obind. cbn [fst snd].
  pose proof (set_loc_okay _ _ _ _ Ok Sl) as Ok1. destruct (set_loc_plain _ _ _ _ P R Sl) as [P1 S1].
  destruct (blen b' =? 0).
  - unfold locked_try_shrink. destruct l as [[] i]; cbn [fst snd].
    + destruct (try_shrink CACHE tb1 i) as [tb2|] eqn:Ts; [|done]. rewrite obind. intros [= <- _]. exists tb1. split; [done|]. split; [done|].
      by eapply try_shrink_ro.
    + rewrite obind. intros [= <- _]. exists tb1. split; [done|]. split; [done|by left].
  - rewrite obind. intros [= <- _]. exists tb1. split; [done|]. split; [done|by left].
Qed.
Lemma finish_ro tb l b p w tb' : okay tb -> plainT tb -> lock tb l = Some b -> finish tb l b p w = Some tb' ->
  exists tb1, plainT tb1 /\ shape tb1 = shape tb /\ ro tb1 tb'.
Proof.
  intros Ok P L. unfold finish. destruct w as [v|].
  - destruct (replace_value b p v) as [[b' y]|] eqn:R; [|done]. rewrite obind. cbn [fst snd]. intros Sl.
    apply plain_replace in R; [|by eapply lock_plain]. destruct (set_loc_plain _ _ _ _ P R Sl) as [P1 S1].
    exists tb'. split; [done|]. split; [done|by left].
  - destruct (locked_remove CACHE tb l p) as [[tb1 y]|] eqn:R; [|done]. rewrite obind. cbn [fst snd]. intros [= <-].
    by eapply locked_remove_ro.
Qed.
Lemma lock_set tb l b b' tb' : lock tb l = Some b -> set_loc tb l b' = Some tb' -> lock tb' l = Some b'.
Proof.
  unfold lock, set_loc, loc_cell. destruct (loc_array tb l.1) as [a|] eqn:A; [|done]. rewrite !obind.
  destruct (cell_at a l.2) as [x|] eqn:X; [|done]. rewrite !obind. destruct (dead x) eqn:D; [done|]. intros _.
  assert (Y : cell_at (set_cell a l.2 (Cell b' false)) l.2 = Some (Cell b' false)).
  { unfold cell_at, set_cell in *; cbn [bks]. apply list_lookup_insert. by eapply lookup_lt_Some. }
  destruct l as [[] i]; cbn [fst snd loc_array] in *; intros [= <-]; cbn [with_cur with_old cur old]; by rewrite obind, Y, obind.
Qed.
Lemma finish_old tb l b p w tb' : old tb <> None -> finish tb l b p w = Some tb' -> plainT tb -> lock tb l = Some b ->
  plainT tb' /\ shape tb' = shape tb.
Proof.
  intros O E P L. revert E. unfold finish. destruct w as [v|].
  - destruct (replace_value b p v) as [[b' y]|] eqn:R; [|done]. rewrite obind. cbn [fst snd]. intros Sl.
    apply plain_replace in R; [|by eapply lock_plain]. by eapply set_loc_plain.
  - unfold locked_remove. rewrite L, obind. destruct (remove CACHE b p) as [[[b' p'] z]|] eqn:R; [|done]. rewrite obind. cbn [fst snd].
    apply plain_remove in R; [|by eapply lock_plain].
    destruct (set_loc tb l b') as [tb1|] eqn:Sl; [|done]. rewrite obind. cbn [fst snd].
    destruct (set_loc_plain _ _ _ _ P R Sl) as [P1 S1].
    assert (O1 : old tb1 <> None).
    { intros O1. apply O. symmetry in S1. by eapply shape_old. }
    assert (X : (if blen b' =? 0 then locked_try_shrink CACHE tb1 l else Some tb1) = Some tb1).
    { destruct (_ =? _); [|done]. unfold locked_try_shrink. destruct l as [[] i]; cbn [fst]; [|done].
      unfold try_shrink. destruct (cur tb1); [|done]. by destruct (old tb1). }
    rewrite X, !obind. cbn [fst]. by intros [= <-].
Qed.

(** ** Operations *)
Lemma put_tidy sg tb k v tb' r : wf_table hash CACHE tb -> tidy tb -> put_sync sg hash tb k v = Some (tb', r) ->
  (capacity tb <= capacity tb')%N -> tidy tb'.
Proof.
  intros W T. unfold put_sync. destruct (writer CACHE sg hash tb (hash k)) as [[tb1 l]|] eqn:E; [|done]. rewrite obind. cbn [fst snd].
  destruct (writer_tidy sg tb k tb1 l W T E) as (W1 & P1 & D).
  assert (G : forall tb2, plainT tb2 -> shape tb2 = shape tb1 -> (capacity tb <= capacity tb2)%N -> tidy tb2).
  { intros tb2 P2 S2 Le. rewrite (shape_cap _ _ S2) in Le. eapply shape_tidy; [exact S2| |done].
    destruct D as [[D _]|[_ D]]; [done|by apply D]. }
  destruct (lock tb1 l) as [b|] eqn:L; [|done]. rewrite obind. destruct (get_entry_ptr _ _ _ _) as [p|]; [|done]. rewrite obind.
  destruct (is_valid p); [intros [= <- _]; by apply G|].
  destruct (put_bucket sg b (hash k) (k, v)) as [[b' ev]|] eqn:Pb; [|done]. rewrite obind. cbn [fst snd].
  apply (plain_put hash) in Pb; [|by eapply lock_wf|by eapply lock_plain].
  destruct (set_loc tb1 l b') as [tb2|] eqn:Sl; [|done]. rewrite obind. intros [= <- _].
  destruct (set_loc_plain _ _ _ _ P1 Pb Sl) as [P2 S2]. by apply G.
Qed.
Lemma get_tidy sg tb k (f : V -> option V) tb' r : wf_table hash CACHE tb -> tidy tb -> get_sync sg hash tb k f = Some (tb', r) ->
  (capacity tb <= capacity tb')%N -> tidy tb'.
Proof.
  intros W T. unfold get_sync. destruct (optional_writer CACHE sg hash tb (hash k)) as [[tb1 l]|] eqn:E; [|done]. rewrite obind. cbn [fst snd].
  destruct (optional_tidy sg tb k tb1 l W T E) as (T1 & C1 & W1). destruct l as [l|]; [|by intros [= <- _]].
  destruct (lock tb1 l) as [b|] eqn:L; [|done]. rewrite obind. destruct (get_entry_ptr _ _ _ _) as [p|]; [|done]. rewrite obind.
  destruct (is_valid p); [|by intros [= <- _]].
  destruct (get b p) as [e|]; [|done]. rewrite obind. destruct (update_lru_tail b p) as [b'|] eqn:U; [|done]. rewrite obind.
  apply plain_promote in U; [|by apply (lock_plain tb1 l); [apply T1|]].
  destruct (set_loc tb1 l b') as [tb2|] eqn:Sl; [|done]. rewrite obind.
  destruct (set_loc_plain _ _ _ _ (proj1 T1) U Sl) as [P2 S2]. pose proof (set_loc_okay _ _ _ _ (wf_okay hash _ W1) Sl) as Ok2.
  destruct (finish tb2 l b' p (f e.2)) as [tb3|] eqn:F; [|done]. rewrite obind. intros [= <- _] Le.
  apply finish_ro in F as (tb4 & P4 & S4 & R); [|done|done|by eapply lock_set].
  eapply (seq_tidy tb1 tb4 tb3); [done|done|by rewrite S4|done|by rewrite C1].
Qed.
Lemma centry_tidy sg tb k (f : option V -> option V) tb' r : wf_table hash CACHE tb -> tidy tb ->
  centry_sync sg hash tb k f = Some (tb', r) -> (capacity tb <= capacity tb')%N -> tidy tb'.
Proof.
  intros W T. unfold centry_sync. destruct (writer CACHE sg hash tb (hash k)) as [[tb1 l]|] eqn:E; [|done]. rewrite obind. cbn [fst snd].
  destruct (writer_tidy sg tb k tb1 l W T E) as (W1 & P1 & D).
  assert (G : forall tb2, plainT tb2 -> shape tb2 = shape tb1 -> (capacity tb <= capacity tb2)%N -> tidy tb2).
  { intros tb2 P2 S2 Le. rewrite (shape_cap _ _ S2) in Le. eapply shape_tidy; [exact S2| |done].
    destruct D as [[D _]|[_ D]]; [done|by apply D]. }
  destruct (lock tb1 l) as [b|] eqn:L; [|done]. rewrite obind.
  destruct (get_entry_ptr CACHE b k (hash k)) as [p|] eqn:Gp; [|done]. rewrite obind.
  destruct (is_valid p) eqn:Vp.
  - destruct (get b p) as [e|] eqn:Ge; [|done]. rewrite obind.
    destruct (finish tb1 l b p (f (Some e.2))) as [tb2|] eqn:F; [|done]. rewrite obind. intros [= <- _] Le.
    destruct D as [[D Cp]|[O D]].
    + assert (Ne : tents CACHE tb <> []).
      { destruct (writer_spec hash Hh CACHE sg tb k W) as (tb1' & l' & b1 & E' & S & Lk & Ow).
        rewrite E in E'. injection E' as <- <-. destruct (owns_lock _ _ _ _ _ W1 Ow) as [L' Wb].
        assert (b1 = b) as -> by congruence. intros Z.
        assert (Z1 : tents CACHE tb1 ≡ₚ []) by (by rewrite (sm_ents _ _ _ _ S), Z).
        destruct (owns_assoc hash CACHE tb1 l b k [] W1 Ow Lk Z1) as (R & RS & Hm & _).
        apply Permutation_nil in Hm. apply app_eq_nil in Hm as [Hm _].
        destruct (lookup_ptr hash CACHE b k Wb) as (p0 & P0 & [[V1 (v0 & PT)]|[V1 Nk]]); [|congruence].
        pose proof (points_to_in _ _ _ _ _ (wf_bucket_core _ _ _ Wb) PT) as Hin. rewrite Hm in Hin. by apply elem_of_nil in Hin. }
      destruct Cp as [Cp|]; [|done].
      apply finish_ro in F as (tb4 & P4 & S4 & R); [|by eapply wf_okay|done|done].
      eapply (seq_tidy tb1 tb4 tb2); [done|done|done|done|by rewrite Cp].
    + apply finish_old in F as [P2 S2]; [|done|done|done]. by apply G.
  - destruct (f None) as [v|]; [|intros [= <- _]; by apply G].
    destruct (put_bucket sg b (hash k) (k, v)) as [[b' ev]|] eqn:Pb; [|done]. rewrite obind. cbn [fst snd].
    apply (plain_put hash) in Pb; [|by eapply lock_wf|by eapply lock_plain].
    destruct (set_loc tb1 l b') as [tb2|] eqn:Sl; [|done]. rewrite obind. intros [= <- _].
    destruct (set_loc_plain _ _ _ _ P1 Pb Sl) as [P2 S2]. by apply G.
Qed.
Lemma remove_if_tidy sg tb k (cond : V -> V * bool) tb' r : wf_table hash CACHE tb -> tidy tb ->
  remove_if_sync CACHE sg hash tb k cond = Some (tb', r) -> (capacity tb <= capacity tb')%N -> tidy tb'.
Proof.
  intros W T. unfold remove_if_sync. destruct (optional_writer CACHE sg hash tb (hash k)) as [[tb1 l]|] eqn:E; [|done]. rewrite obind. cbn [fst snd].
  destruct (optional_tidy sg tb k tb1 l W T E) as (T1 & C1 & W1). destruct l as [l|]; [|by intros [= <- _]].
  destruct (lock tb1 l) as [b|] eqn:L; [|done]. rewrite obind. destruct (get_entry_ptr _ _ _ _) as [p|]; [|done]. rewrite obind.
  destruct (is_valid p); [|by intros [= <- _]].
  destruct (get b p) as [e|]; [|done]. rewrite obind. destruct (replace_value b p _) as [[b' y]|] eqn:U; [|done]. rewrite obind. cbn [fst snd].
  apply plain_replace in U; [|by apply (lock_plain tb1 l); [apply T1|]].
  destruct (set_loc tb1 l b') as [tb2|] eqn:Sl; [|done]. rewrite obind.
  destruct (set_loc_plain _ _ _ _ (proj1 T1) U Sl) as [P2 S2]. pose proof (set_loc_okay _ _ _ _ (wf_okay hash _ W1) Sl) as Ok2.
  destruct (cond e.2).2.
  - destruct (locked_remove CACHE tb2 l p) as [[tb3 z]|] eqn:F; [|done]. rewrite obind. cbn [fst snd]. intros [= <- _] Le.
    apply locked_remove_ro in F as (tb4 & P4 & S4 & R); [|done|done].
    eapply (seq_tidy tb1 tb4 tb3); [done|done|by rewrite S4|done|by rewrite C1].
  - intros [= <- _] Le. by eapply shape_tidy.
Qed.
Lemma read_tidy sg tb k tb' r : wf_table hash CACHE tb -> tidy tb -> read CACHE sg hash tb k = Some (tb', r) -> tidy tb'.
Proof.
  intros W T. unfold read. destruct (optional_writer CACHE sg hash tb (hash k)) as [[tb1 l]|] eqn:E; [|done]. rewrite obind. cbn [fst snd].
  destruct (optional_tidy sg tb k tb1 l W T E) as (T1 & C1 & W1). destruct l as [l|]; [|by intros [= <- _]].
  destruct (lock tb1 l) as [b|] eqn:L; [|done]. rewrite obind.
  destruct (search_entry _ _ _ _) as [z|]; [|done]. rewrite obind. by intros [= <- _].
Qed.
Lemma len_tidy sg tb tb' n : wf_table hash CACHE tb -> tidy tb -> len CACHE sg hash tb = Some (tb', n) ->
  (capacity tb <= capacity tb')%N -> tidy tb'.
Proof.
  intros W T. unfold len. destruct (cur tb) as [c|] eqn:C; [|by intros [= <- _]].
  destruct (incremental_rehash_spec hash Hh CACHE sg tb W) as (tb1 & held & E & S & _). rewrite E, obind. cbn [fst snd].
  pose proof (incremental_tidy hash Hh sg tb tb1 held W T E) as T1.
  destruct (cur tb1) as [c1|]; [|done]. rewrite obind. destruct (_ && _).
  - destruct (try_resize CACHE tb1 0) as [tb2|] eqn:R; [|done]. rewrite obind. intros [= <- _] Le.
    apply try_resize_ro in R; [|eapply wf_okay; apply S]. eapply ro_tidy; [exact T1|exact R|]. by rewrite (stay_cap _ _ S).
  - rewrite obind. by intros [= <- _].
Qed.
Lemma is_empty_tidy sg tb tb' n : wf_table hash CACHE tb -> tidy tb -> is_empty CACHE sg hash tb = Some (tb', n) ->
  (capacity tb <= capacity tb')%N -> tidy tb'.
Proof.
  intros W T. unfold is_empty. destruct (cur tb) as [c|] eqn:C; [|by intros [= <- _]].
  destruct (incremental_rehash_spec hash Hh CACHE sg tb W) as (tb1 & held & E & S & _). rewrite E, obind. cbn [fst snd].
  pose proof (incremental_tidy hash Hh sg tb tb1 held W T E) as T1.
  destruct (match held with Some o => has_any o | None => false end); [by intros [= <- _]|].
  destruct (cur tb1) as [c1|]; [|done]. rewrite obind. destruct (has_any c1); [by intros [= <- _]|].
  destruct (_ =? _)%N.
  - destruct (try_resize CACHE tb1 0) as [tb2|] eqn:R; [|done]. rewrite obind. intros [= <- _] Le.
    apply try_resize_ro in R; [|eapply wf_okay; apply S]. eapply ro_tidy; [exact T1|exact R|]. by rewrite (stay_cap _ _ S).
  - rewrite obind. by intros [= <- _].
Qed.
Lemma reader_loop_tidy {S} sg (g : S -> bucket K V -> option (S * bool)) is : forall tb c s tb' s' go,
  wf_table hash CACHE tb -> tidy tb -> cur tb = Some c -> Forall (fun i => i < alen c)%N is ->
  reader_loop CACHE sg hash tb is g s = Some (tb', s', go) -> tidy tb'.
Proof.
  induction is as [|i is IH]; intros tb c s tb' s' go W T C F; cbn [reader_loop]; [by intros [= <- _ _]|].
  inversion F as [|? ? Hi F']; subst.
  destruct (prep tb c i W C Hi T sg) as (tb1 & E & T1 & Cp & W1 & S1). rewrite E, obind.
  destruct (lock tb1 _); [|done]. rewrite obind. destruct (g s _) as [[s1 go1]|]; [|done]. rewrite obind. cbn [fst snd].
  destruct go1; [|by intros [= <- _ _]]. destruct (st_cur _ _ _ _ S1 c C) as (c1 & C1 & Z1 & _).
  apply (IH tb1 c1); [done|done|done|]. unfold alen. by rewrite Z1.
Qed.
Lemma writer_loop_tidy {S} sg (f : S -> K * V -> verdict V S) is : forall tb c s out tb' s' cons go,
  wf_table hash CACHE tb -> tidy tb -> cur tb = Some c -> Forall (fun i => i < alen c)%N is ->
  writer_loop CACHE sg hash tb is (fun s b => mut_loop (Datatypes.S (blen b)) CACHE f s b null_ptr []) s out = Some (tb', s', cons, go) ->
  tidy tb' /\ capacity tb' = capacity tb /\ okay tb'.
Proof.
  induction is as [|i is IH]; intros tb c s out tb' s' cons go W T C F; cbn [writer_loop].
  { intros [= <- _ _ _]. split; [done|]. split; [done|]. by eapply wf_okay. }
  inversion F as [|? ? Hi F']; subst.
  destruct (prepare_spec hash Hh CACHE sg tb c i W C Hi) as (tb1 & E & S1 & Rd). rewrite E, obind.
  pose proof (prepare_tidy hash Hh sg tb i tb1 W T E) as T1. pose proof (stay_cap _ _ S1) as Cp.
  pose proof (sm_wf _ _ _ _ (st_same _ _ _ _ S1)) as W1.
  destruct (st_cur _ _ _ _ S1 c C) as (c1 & C1 & Z1 & _).
  destruct (wf_tab_cur _ _ _ _ W1 C1) as (Wc1 & Al & _).
  assert (Hi1 : (i < alen c1)%N) by (unfold alen; by rewrite Z1).
  destruct (cell_some hash CACHE c1 i Wc1 Hi1) as (x & X).
  assert (Ow : owns hash tb1 (Cur, i) (bkt x)) by (by exists c1, x).
  destruct (owns_lock hash CACHE tb1 _ _ W1 Ow) as [Lk Wb]. rewrite Lk, obind.
  destruct (mut_loop_spec hash CACHE f (Datatypes.S (blen (bkt x))) ltac:(done) s (bkt x) null_ptr [] []) as (b' & s1 & kept & con & go1 & E2 & V2 & Wb' & En).
  { done. } { apply wf_null. } { by rewrite after_null. } { rewrite after_null, (wf_len _ _ _ Wb). lia. }
  rewrite E2, obind. cbn [fst snd app]. rewrite after_null in V2. cbn [app] in En.
  destruct (owns_split hash CACHE tb1 (Cur, i) (bkt x) W1 Ow) as (R & RS & TE & _ & Nk & PB).
  pose proof (visit_mut_keys _ _ _ _ _ _ _ V2) as Sub. rewrite <- En in Sub.
  destruct (PB b' Wb') as (tb2 & PBk).
  { intros e He. assert (e.1 ∈ (entries CACHE (bkt x)).*1) as He'.
    { eapply elem_of_submseteq; [|by apply sublist_submseteq]. apply elem_of_list_fmap. eauto. }
    apply elem_of_list_fmap in He' as (e' & -> & He'). by apply (owns_lkey hash CACHE tb1 (Cur, i) (bkt x)). }
  { eapply sublist_nodup; [exact Sub|]. assert (NoDup (tents CACHE tb1).*1) as ND by apply W1.
    rewrite TE, fmap_app in ND. by apply NoDup_app in ND as (? & _). }
  apply plain_mut_loop in E2; [|by apply (lock_plain tb1 (Cur, i)); [apply T1|]].
  pose proof (pb_set _ _ _ _ _ _ _ _ PBk) as Sl. rewrite Sl, obind.
  destruct (set_loc_plain _ _ _ _ (proj1 T1) E2 Sl) as [P2 S2].
  pose proof (pb_wf _ _ _ _ _ _ _ _ PBk) as W2. assert (T2 : tidy tb2) by (by eapply shape_tidy).
  assert (Cp2 : capacity tb2 = capacity tb) by (by rewrite (shape_cap _ _ S2)).
  destruct go1.
  - pose proof (pb_other _ _ _ _ _ _ _ _ PBk c1 i x eq_refl C1 X) as C2. rewrite <- Cp2.
    apply (IH tb2 (set_cell c1 i (Cell b' (dead x)))); [done|done|exact C2|]. unfold alen, set_cell; cbn [sz]. by rewrite Z1.
  - intros [= <- _ _ _]. split; [done|]. split; [done|]. by eapply wf_okay.
Qed.
Lemma range_lt n : Forall (fun i => i < n)%N (TableModel.range 0 n).
Proof. apply Forall_forall. intros i Hi. apply elem_of_range in Hi. lia. Qed.
Lemma iter_tidy {S} sg (f : S -> K * V -> S * bool) s tb tb' s' go : wf_table hash CACHE tb -> tidy tb ->
  iter_sync CACHE sg hash tb f s = Some (tb', s', go) -> tidy tb'.
Proof.
  intros W T. unfold iter_sync. destruct (cur tb) as [c|] eqn:C; [|by intros [= <- _ _]].
  apply (reader_loop_tidy _ _ _ _ c); [done|done|done|apply range_lt].
Qed.
Lemma retain_tidy {S} sg (pred : S -> K * V -> S * V * bool) s tb tb' s' : wf_table hash CACHE tb -> tidy tb ->
  retain_sync CACHE sg hash tb pred s = Some (tb', s') -> (capacity tb <= capacity tb')%N -> tidy tb'.
Proof.
  intros W T. unfold retain_sync, iter_mut_sync. destruct (cur tb) as [c|] eqn:C; [|rewrite obind; intros [= <- _]; done].
  destruct (writer_loop _ _ _ _ _ _ _ _) as [[[[tb1 s1] con] go]|] eqn:E; [|done]. rewrite !obind. cbn [fst snd].
  apply (writer_loop_tidy sg _ _ tb c) in E as (T1 & Cp & Ok); [|done|done|done|apply range_lt].
  destruct con as [|e con].
  - rewrite !obind. cbn [fst snd]. intros [= <- _] _. exact T1.
  - destruct (try_shrink CACHE tb1 0) as [tb2|] eqn:R; [|done]. rewrite !obind. cbn [fst snd]. intros [= <- _] Le.
    apply try_shrink_ro in R; [|done]. assert (T2 : tidy tb2).
    { eapply ro_tidy; [exact T1|exact R|]. by rewrite Cp. }
    exact T2.
Qed.

Lemma cstep_tidy sg tb m rel (o : cop K V) tb' out : holds hash CACHE tb m rel -> tidy tb -> cstep sg hash tb o = Some (tb', out) ->
  ((capacity tb <= capacity tb')%N \/ capacity tb' = 0%N) -> tidy tb'.
Proof.
  intros H T E [Le|Z].
  2:{ destruct (cstep_spec hash Hh sg tb m rel o H) as (tb1 & out1 & E1 & _ & H1 & _). apply (zero_tidy hash); [|done].
      rewrite E in E1. injection E1 as <- _. apply H1. }
  pose proof (hd_wf _ _ _ _ _ H) as W. revert E.
  destruct o as [k v|k f|k f|k c|k| | | | |p|]; cbn [cstep].
  - destruct (put_sync sg hash tb k v) as [[tb1 r]|] eqn:E; [|done]. rewrite obind. intros [= <- _]. by eapply put_tidy.
  - destruct (get_sync sg hash tb k f) as [[tb1 r]|] eqn:E; [|done]. rewrite obind. intros [= <- _]. by eapply get_tidy.
  - destruct (centry_sync sg hash tb k f) as [[tb1 r]|] eqn:E; [|done]. rewrite obind. intros [= <- _]. by eapply centry_tidy.
  - destruct (remove_if_sync CACHE sg hash tb k c) as [[tb1 r]|] eqn:E; [|done]. rewrite obind. intros [= <- _]. by eapply remove_if_tidy.
  - destruct (read CACHE sg hash tb k) as [[tb1 r]|] eqn:E; [|done]. rewrite obind. intros [= <- _]. by eapply read_tidy.
  - destruct (len CACHE sg hash tb) as [[tb1 r]|] eqn:E; [|done]. rewrite obind. intros [= <- _]. by eapply len_tidy.
  - by intros [= <- _].
  - destruct (is_empty CACHE sg hash tb) as [[tb1 r]|] eqn:E; [|done]. rewrite obind. intros [= <- _]. by eapply is_empty_tidy.
  - destruct (iter_sync CACHE sg hash tb _ _) as [[[tb1 r] go]|] eqn:E; [|done]. rewrite obind. intros [= <- _]. by eapply iter_tidy.
  - destruct (retain_sync CACHE sg hash tb _ _) as [[tb1 r]|] eqn:E; [|done]. rewrite obind. intros [= <- _]. by eapply retain_tidy.
  - unfold clear_sync. destruct (retain_sync CACHE sg hash tb _ _) as [[tb1 r]|] eqn:E; [|done]. rewrite !obind. intros [= <- _]. by eapply retain_tidy.
Qed.

(** ** Counting *)
Lemma count_by {A} (f : A -> nat) n : forall l, (forall e, e ∈ l -> f e < n) ->
  (forall j, j < n -> length (filter (fun e => f e = j) l) <= 32) -> length l <= 32 * n.
Proof.
  induction n as [|n IH]; intros l L C.
  - destruct l as [|e l]; [done|]. specialize (L e ltac:(left)). lia.
  - assert (S : length l = length (filter (fun e => f e = n) l) + length (filter (fun e => f e <> n) l)).
    { clear. induction l as [|e l IH]; [done|]. rewrite !filter_cons. destruct (decide (f e = n)), (decide (f e <> n)); cbn [length]; lia || done. }
    rewrite S. specialize (C n ltac:(lia)) as C1.
    assert (length (filter (fun e => f e <> n) l) <= 32 * n); [|lia]. apply IH.
    + intros e He. apply elem_of_list_filter in He as [Hn He]. specialize (L e He). lia.
    + intros j Hj. etrans; [|apply (C j); lia]. rewrite list_filter_filter. apply Nat.eq_le_incl. f_equal.
      apply list_filter_iff. intros e. split; [by intros [? _]|]. intros ->. split; [done|lia].
Qed.
Lemma filter_cell a i x (P : K * V -> Prop) `{forall e, Decision (P e)} : wf_array hash CACHE a -> plain a -> NoDup (aents CACHE a) -> bks a !! i = Some x ->
  (forall e, e ∈ aents CACHE a -> P e -> e ∈ entries CACHE (bkt x)) -> length (filter P (aents CACHE a)) <= 32.
Proof.
  intros W Pl ND X A. etrans; [|apply (plain_len (bkt x)); by eapply Pl].
  apply submseteq_length. apply NoDup_submseteq; [by apply NoDup_filter|].
  intros e He. apply elem_of_list_filter in He as [HP He]. by apply A.
Qed.
Lemma tidy_len tb : wf_table hash CACHE tb -> tidy tb -> (N.of_nat (length (tents CACHE tb)) <= capacity tb)%N.
Proof.
  intros W T. unfold capacity. destruct (cur tb) as [c|] eqn:C.
  2:{ unfold tents. by rewrite C, (wf_tab_none _ _ _ W C). }
  destruct (wf_tab_cur _ _ _ _ W C) as (Wc & _).
  assert (ND : NoDup (tents CACHE tb)) by (by apply (NoDup_fmap_1 fst); apply W).
  assert (G : length (tents CACHE tb) <= 32 * length (bks c)).
  { apply (count_by (fun e => bi hash c e.1)).
    - intros e _. by apply (bi_lt hash Hh CACHE).
    - intros j Hj. destruct (lookup_lt_is_Some_2 (bks c) j Hj) as (x & X).
      assert (GC : length (filter (fun e => bi hash c e.1 = j) (aents CACHE c)) <= 32).
      { eapply (filter_cell c j x); [done|by apply (proj1 (proj1 T))|..|exact X|].
        - unfold tents in ND. rewrite C in ND. cbn [oents] in ND. by apply NoDup_app in ND as (_ & _ & ?).
        - intros e He <-. apply (elem_of_aents_bi hash CACHE) in He; [|done]. destruct He as (x' & X' & He).
          rewrite X in X'. by injection X' as <-. }
      unfold tents in *. rewrite C in *. cbn [oents] in *. destruct (old tb) as [o|] eqn:O; cbn [oents app] in *.
      2:{ done. }
      destruct (wf_tab_pair _ _ _ _ _ W C O) as (WP & _). pose proof (wp_old _ _ _ _ WP) as Wo.
      rewrite filter_app, app_length.
      destruct (filter (fun e => bi hash c e.1 = j) (aents CACHE o)) as [|e0 l0] eqn:Fo; [cbn; done|].
      assert (H0 : e0 ∈ aents CACHE o /\ bi hash c e0.1 = j).
      { assert (e0 ∈ filter (fun e => bi hash c e.1 = j) (aents CACHE o)) as X0 by (rewrite Fo; left).
        by apply elem_of_list_filter in X0 as [? ?]. }
      destruct H0 as [H0 J0]. apply (elem_of_aents_bi hash CACHE) in H0 as (y & Y & H0); [|done].
      assert (SO : forall k, bi hash c k = j -> bi hash o k = bi hash o e0.1).
      { intros k Hk. unfold bi. f_equal. apply (same_old hash Hh c o); [apply Wc|apply Wo|apply N.lt_le_incl; by apply (proj2 T)|].
        unfold bi in Hk, J0. lia. }
      assert (Dy : dead y = false).
      { destruct (dead y) eqn:D; [|done]. rewrite (wc_dead _ _ _ (wa_cells _ _ _ Wo _ _ Y) D) in H0. by apply elem_of_nil in H0. }
      assert (Z : filter (fun e => bi hash c e.1 = j) (aents CACHE c) = []).
      { destruct (filter (fun e => bi hash c e.1 = j) (aents CACHE c)) as [|e1 l1] eqn:F1; [done|]. exfalso.
        assert (X0 : e1 ∈ filter (fun e => bi hash c e.1 = j) (aents CACHE c)) by (rewrite F1; left).
        apply elem_of_list_filter in X0 as [J1 H1].
        apply (wp_sep _ _ _ _ WP eq_refl _ y e1 Y Dy H1). specialize (SO e1.1 J1). unfold bi in SO. unfold bi. lia. }
      rewrite Z, <- Fo. change (length []) with 0. rewrite Nat.add_0_r.
      eapply (filter_cell o (bi hash o e0.1) y); [done|by apply (proj2 (proj1 T))|by apply NoDup_app in ND as (? & _)|done|].
      intros e He Je. apply (elem_of_aents_bi hash CACHE) in He as (y' & Y' & He); [|done].
      rewrite (SO e.1 Je), Y in Y'. by injection Y' as <-. }
  unfold CapModel.num_slots. change CapModel.BUCKET_LEN with 32%N.
  pose proof (wa_len _ _ _ Wc) as L. unfold alen in L. lia.
Qed.
End tidy2.
