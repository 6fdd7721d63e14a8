(** As long as a cache does not shrink, no bucket has an overflow chain, and the number of entries
    stays within the capacity. *)
From Coq Require Import NArith Lia.
From stdpp Require Import numbers prelude list.
From Verif Require CapModel CapSpec CapFacts CapThms.
From Verif Require Import LruModel LruFacts BucketModel BucketSpec BucketFacts BucketOps BucketOps2 BucketOps3 BucketRunFacts
  MapSpec MapFacts TableModel TableSpec TableFacts TableReloc TableResize TableHouse TableAccess TableOps
  IterSpec TableIter MapFacts2 MapModel MapRef MapRunFacts CacheModel CacheSpec CacheFacts CacheOps CacheRunFacts.

Section tidy.
Context {K V : Type} `{EqDecision K}.
Context (hash : K -> N) (Hh : forall k, (hash k < 2 ^ 64)%N).
Implicit Types (tb : table K V) (m : list (K * V)) (b : bucket K V) (a c o : barray K V) (x : cell K V).

(** ** One bucket *)
Lemma omap_seq_len {A} (f : nat -> option A) (a n : nat) : length (omap f (seq a n)) <= n.
Proof. revert a. induction n as [|n IH]; intros a; [done|]. rewrite omap_seq_cons, app_length. specialize (IH (S a)). destruct (f a); cbn; lia. Qed.
Lemma plain_len b : links b = [] -> length (entries CACHE b) <= 32.
Proof.
  intros L. unfold entries, all_ents. rewrite L, lents_nil, app_nil_r, ents_eq.
  etrans; [apply omap_seq_len|done].
Qed.
Lemma plain_block b p bl : links b = [] -> ptr_block b p = Some bl -> link_ptr p = None.
Proof. intros L. unfold ptr_block. destruct (link_ptr p); [|done]. by rewrite L. Qed.
Lemma plain_replace b p v b' y : links b = [] -> replace_value b p v = Some (b', y) -> links b' = [].
Proof.
  intros L. unfold replace_value. destruct (ptr_block b p) as [bl|] eqn:E; [|done]. rewrite obind.
  destruct (index p); [|done]. rewrite obind. destruct (get b p); [|done]. rewrite obind. intros [= <- _].
  unfold set_ptr_block. by rewrite (plain_block b p bl L E).
Qed.
Lemma plain_remove b p b' p' y : links b = [] -> remove CACHE b p = Some (b', p', y) -> links b' = [].
Proof.
  intros L. unfold remove. destruct (dec_len _); [|done]. rewrite obind. destruct (index p) as [i|]; [|done]. rewrite obind.
  destruct (get b p); [|done]. rewrite obind. destruct (link_ptr p); [by rewrite L|].
  rewrite decide_True by done. unfold remove_from_lru_list. destruct (LruModel.lru_remove _ _); [|done]. rewrite !obind.
  by intros [= <- _ _].
Qed.
Lemma plain_promote b p b' : links b = [] -> update_lru_tail b p = Some b' -> links b' = [].
Proof.
  intros L. unfold update_lru_tail. destruct (link_ptr p); [by intros [= <-]|]. destruct (index p); [|done]. rewrite obind.
  destruct (lru_promote _ _); [|done]. rewrite obind. by intros [= <-].
Qed.
Lemma plain_put sg b k v b' ev : wf_bucket hash CACHE b -> links b = [] ->
  put_bucket sg b (hash k) (k, v) = Some (b', ev) -> links b' = [].
Proof.
  intros W L E. destruct (tracks_exists hash b W) as (r & T).
  destruct (put_bucket_spec hash sg b (hash k) (k, v) r W T eq_refl) as (b1 & ev1 & i & P1 & W1 & Lk1 & _). congruence.
Qed.
Lemma plain_mut_loop {S} (f : S -> K * V -> verdict V S) n : forall s b p out b' s' (oo : list (K * V)) (g : bool),
  links b = [] -> mut_loop n CACHE f s b p out = Some (b', s', oo, g) -> links b' = [].
Proof.
  induction n as [|n IH]; intros s b p out b' s' oo g L; cbn [mut_loop]; [done|].
  destruct (move_to_next CACHE b p) as [p1 []]; [|by intros [= <- _ _ _]].
  destruct (get b p1) as [e|]; [|done]. rewrite obind.
  destruct (replace_value b p1 (v_value (f s e))) as [[b1 y]|] eqn:R; [|done]. rewrite obind. cbn [fst snd].
  apply plain_replace in R; [|done]. destruct (v_keep (f s e)).
  - rewrite obind. cbn [fst snd]. destruct (v_go (f s e)); [by apply IH|by intros [= <- _ _ _]].
  - destruct (remove CACHE b1 p1) as [[[b2 p2] x]|] eqn:Rm; [|done]. rewrite !obind. cbn [fst snd].
    apply plain_remove in Rm; [|done]. destruct (v_go (f s e)); [by apply IH|by intros [= <- _ _ _]].
Qed.

(** ** Arrays *)
Definition plain a : Prop := forall i x, bks a !! i = Some x -> links (bkt x) = [].
Lemma plain_new n a : new_barray n = Some a -> plain a.
Proof.
  unfold new_barray. destruct (CapModel.arr_new n); [|done]. rewrite obind. intros [= <-] i x H. cbn [bks] in H.
  by apply lookup_replicate in H as [-> _].
Qed.
Lemma plain_set a i b d : plain a -> links b = [] -> plain (set_cell a i (Cell b d)).
Proof.
  intros P L j x. unfold set_cell; cbn [bks]. destruct (decide (j = N.to_nat i)) as [->|N].
  - intros H. destruct (decide (N.to_nat i < length (bks a))) as [Lt|Ge].
    + rewrite list_lookup_insert in H by done. by injection H as <-.
    + rewrite list_insert_ge in H by lia. by eapply P.
  - rewrite list_lookup_insert_ne by done. apply P.
Qed.

Lemma direct_loop_plain sg target fuel : forall a b p acc a' b' d,
  wf_array hash CACHE a -> (forall j x, bks a !! j = Some x -> dead x = false) ->
  wf_core hash CACHE b -> wf_ptr b p -> plain a ->
  (forall e, e ∈ BucketSpec.after (live_at CACHE) b p -> (target <= N.of_nat (bi hash a e.1))%N) ->
  (forall e x, e ∈ BucketSpec.after (live_at CACHE) b p -> bks a !! bi hash a e.1 = Some x ->
     length (entries CACHE (bkt x)) + length (BucketSpec.after (live_at CACHE) b p) <= 32) ->
  direct_loop fuel CACHE sg hash false target a b p acc = Some (a', b', d) -> plain a'.
Proof.
  induction fuel as [|f IH]; intros a b p acc a' b' d W A Wb Wp P T C; cbn [direct_loop]; [done|].
  pose proof (move_to_next_spec hash CACHE b p Wb Wp) as M. destruct (move_to_next CACHE b p) as [p' []].
  2:{ by intros [= <- _ _]. }
  destruct M as (e & Pt & Ae). rewrite Ae in T, C.
  assert (T1 : (target <= N.of_nat (bi hash a e.1))%N) by (apply T; left).
  destruct (entry_target_spec hash CACHE false a target b p' e W Wb Pt T1) as (off & h & Et & Ph & Hi & _); [done|].
  rewrite Et, obind. cbn [fst snd].
  destruct (move_entry_spec hash Hh CACHE sg a (target + off) h b p' e W A Wb Pt Ph Hi)
    as (a1 & b1 & d1 & E1 & W1 & A1 & S1 & C1 & En1 & St1 & D1 & O1 & Tk).
  rewrite E1, obind. cbn [fst snd].
  assert (X : exists x, bks a !! bi hash a e.1 = Some x) by (apply lookup_lt_is_Some_2; by apply (bi_lt hash Hh CACHE)).
  destruct X as (x & X). pose proof (C e x (elem_of_list_here _ _) X) as Cx. cbn [length] in Cx.
  assert (Y : exists to', bks a1 !! bi hash a e.1 = Some (Cell to' (dead x)) /\ links to' = [] /\
     length (entries CACHE to') = S (length (entries CACHE (bkt x))) /\ plain a1).
  { unfold move_entry in E1. unfold cell_at in E1. rewrite Hi, X, obind in E1.
    pose proof (wa_cells _ _ _ W _ _ X) as Wx. pose proof (A _ _ X) as Ax.
    assert (Wbx : wf_bucket hash CACHE (bkt x)) by (split; [apply Wx|by apply Wx]).
    destruct (extract_from_spec hash CACHE sg (bkt x) h b p' e Wbx Wb Pt Ph) as (b2 & to' & d2 & E2 & _ & _ & E' & _).
    rewrite E2, obind in E1. cbn [fst snd] in E1. injection E1 as <- <- <-.
    assert (Lt : links to' = []).
    { unfold extract_from in E2. rewrite (points_to_get _ _ _ _ Pt), obind in E2.
      destruct (insert CACHE sg (bkt x) h e) as [[[to2 p2] dd]|] eqn:I; [|done]. rewrite obind in E2.
      assert (O : occ (main (bkt x)) <> u32_max).
      { intros O. pose proof (full_len hash (bkt x) (wc_core _ _ _ Wx) O). lia. }
      destruct (insert_slots hash sg (bkt x) h e to2 p2 dd Wbx O Ph I) as (ii & _ & _ & L2 & _).
      destruct (ptr_block b p'); [|done]. rewrite obind in E2. destruct (index p'); [|done]. rewrite obind in E2.
      destruct (dec_len (blen b)); [|done]. rewrite obind in E2. cbn [fst snd] in E2. injection E2 as _ <- _.
      rewrite L2. by eapply P. }
    exists to'. split; [|split; [done|split]].
    - unfold set_cell; cbn [bks]. rewrite Hi. apply list_lookup_insert. by eapply lookup_lt_Some.
    - by rewrite E'.
    - by apply plain_set. }
  destruct Y as (to' & Y1 & Y2 & Y3 & Y4).
  apply IH; [done|done|apply Tk|apply Tk|done|..]; rewrite (taken_after _ _ _ _ _ _ _ Tk).
  - intros y Hy. unfold bi. rewrite S1. apply T. by right.
  - intros y z Hy Hz. unfold bi in Hz. rewrite S1 in Hz. change (bks a1 !! bi hash a y.1 = Some z) in Hz.
    destruct (decide (bi hash a y.1 = bi hash a e.1)) as [Eq|Ne].
    + rewrite Eq, Y1 in Hz. injection Hz as <-. cbn [bkt]. lia.
    + rewrite O1 in Hz by done. pose proof (C y z (elem_of_list_further _ _ _ Hy) Hz) as Q. cbn [length] in Q. lia.
Qed.

(** Growing: keys of one new bucket come from one old bucket. *)
Lemma same_old c o k k' : CapSpec.table (sz c) -> CapSpec.table (sz o) -> (alen o <= alen c)%N ->
  CapModel.bucket_index (sz c) (hash k) = CapModel.bucket_index (sz c) (hash k') ->
  CapModel.bucket_index (sz o) (hash k) = CapModel.bucket_index (sz o) (hash k').
Proof.
  intros Tc To Le E.
  destruct (CapModel.from_index_to_range (alen c) (alen o) (CapModel.bucket_index (sz c) (hash k))) as [s e] eqn:R.
  pose proof (range_shape o c _ _ _ R Le) as Es.
  destruct (CapThms.lC03_relocation_range (sz c) (sz o) (hash k) s e Tc To (Hh k) R) as [X1 _].
  rewrite E in R.
  destruct (CapThms.lC03_relocation_range (sz c) (sz o) (hash k') s e Tc To (Hh k') R) as [X2 _]. lia.
Qed.

Lemma relocate_cell_plain sg c o i x c' o' d : wf_pair hash CACHE c o -> plain c -> plain o -> (alen o < alen c)%N ->
  cell_at o i = Some x -> relocate_cell CACHE sg hash c o i = Some (c', o', d) -> plain c' /\ plain o'.
Proof.
  intros W Pc Po Lt Hx. unfold relocate_cell. rewrite Hx, obind.
  pose proof (wa_cells _ _ _ (wp_old _ _ _ _ W) _ _ Hx) as Wx.
  assert (KL : forall b b' dd, kill CACHE b = Some (b', dd) -> links b' = []).
  { intros b b' dd. unfold kill. rewrite decide_False by done. destruct (drop_links (links b)); [|done]. rewrite obind.
    by intros [= <- <-]. }
  destruct (dead x) eqn:Dx; [by intros [= <- <- <-]|].
  destruct (Nat.eqb_spec (blen (bkt x)) 0) as [L0|L0].
  - destruct (kill CACHE (bkt x)) as [[b' dd]|] eqn:Ek; [|done]. rewrite obind. cbn [fst snd]. intros [= <- <- <-].
    split; [done|]. apply plain_set; [done|]. by eapply KL.
  - destruct (CapModel.from_index_to_range (alen o) (alen c) i) as [s e] eqn:R. cbn [fst snd].
    assert (Hi : forall y, y ∈ entries CACHE (bkt x) -> CapModel.bucket_index (sz o) (hash y.1) = i).
    { intros y Hy. rewrite (wa_place _ _ _ (wp_old _ _ _ _ W) _ x y Hx Hy). lia. }
    assert (Lx : links (bkt x) = []) by (by eapply Po).
    unfold relocate_bucket. rewrite (proj2 (N.leb_gt _ _)) by lia. rewrite (proj2 (N.ltb_ge _ _)) by lia.
    rewrite (proj2 (Nat.ltb_ge _ _)). 2:{ rewrite (wf_len _ _ _ (wc_core _ _ _ Wx)). by apply plain_len. }
    cbn [orb].
    destruct (direct_loop _ _ _ _ _ _ _ _ _ _) as [[[c1 b1] d1]|] eqn:E1; [|done]. rewrite obind. cbn [fst snd].
    destruct (kill CACHE b1) as [[b' dd]|] eqn:Ek; [|done]. rewrite obind. cbn [fst snd]. intros [= <- <- <-].
    split; [|apply plain_set; [done|by eapply KL]].
    apply direct_loop_plain in E1; [done|apply W|apply W|apply Wx|apply wf_null|done|..]; rewrite after_null.
    + intros y Hy. pose proof (Hi y Hy) as Hiy.
      destruct (CapThms.lC03_relocation_range (sz o) (sz c) (hash y.1) s e) as [X1 X2].
      { apply (wp_old _ _ _ _ W). } { apply (wp_cur _ _ _ _ W). } { apply Hh. } { by rewrite Hiy. }
      unfold bi. rewrite N2Nat.id. lia.
    + intros y z Hy Hz. pose proof (plain_len _ Lx) as PL.
      destruct (entries CACHE (bkt z)) as [|w l] eqn:Ez; [cbn; lia|]. exfalso.
      assert (Hw : w ∈ aents CACHE c). { apply elem_of_aents. exists (bi hash c y.1), z. split; [done|]. rewrite Ez. left. }
      apply (wp_sep _ _ _ _ W eq_refl (N.to_nat i) x w Hx Dx Hw). rewrite N2Nat.id, <- (Hi y Hy).
      apply (same_old c); [apply W|apply W|lia|].
      rewrite (wa_place _ _ _ (wp_cur _ _ _ _ W) _ z w Hz) by (rewrite Ez; left). unfold bi. lia.
Qed.
Lemma relocate_cells_plain sg is : forall c o acc c' o' d, wf_pair hash CACHE c o -> plain c -> plain o -> (alen o < alen c)%N ->
  relocate_cells CACHE sg hash c o is acc = Some (c', o', d) -> plain c' /\ plain o' /\ sz c' = sz c /\ sz o' = sz o.
Proof.
  induction is as [|i is IH]; intros c o acc c' o' d W Pc Po Lt; cbn [relocate_cells]; [by intros [= <- <- <-]|].
  destruct (cell_at o i) as [x|] eqn:X.
  2:{ unfold relocate_cell. by rewrite X. }
  destruct (relocate_cell_spec hash Hh CACHE sg c o i x W X) as (c1 & o1 & d1 & E1 & R1 & _). rewrite E1, obind. cbn [fst snd].
  destruct (relocate_cell_plain sg c o i x c1 o1 d1 W Pc Po Lt X E1) as [P1 P2]. intros E2.
  apply IH in E2 as (Q1 & Q2 & Q3 & Q4); [|apply R1|done|done|].
  - split; [done|]. split; [done|]. rewrite Q3, Q4. split; apply R1.
  - unfold alen. rewrite (rl_szc _ _ _ _ _ _ _ R1), (rl_szo _ _ _ _ _ _ _ R1). exact Lt.
Qed.

(** ** Tables *)
Definition plainT tb : Prop := (forall c, cur tb = Some c -> plain c) /\ (forall o, old tb = Some o -> plain o).
Definition growing tb : Prop := forall c o, cur tb = Some c -> old tb = Some o -> (alen o < alen c)%N.
Definition tidy tb : Prop := plainT tb /\ growing tb.
Definition shape tb := (option_map sz (cur tb), option_map sz (old tb)).
Lemma shape_cap tb tb' : shape tb' = shape tb -> capacity tb' = capacity tb.
Proof. unfold shape, capacity. destruct (cur tb') as [c'|], (cur tb) as [c|]; cbn; intros E; simplify_eq; congruence. Qed.
Lemma shape_growing tb tb' : shape tb' = shape tb -> growing tb -> growing tb'.
Proof.
  unfold shape, growing, alen. intros E G c o C O. rewrite C, O in E. cbn in E.
  destruct (cur tb) as [c1|]; [|done]. destruct (old tb) as [o1|]; [|done]. injection E as E1 E2.
  rewrite E1, E2. by apply G.
Qed.
Lemma shape_old tb tb' : shape tb' = shape tb -> old tb = None -> old tb' = None.
Proof. unfold shape. destruct (old tb') as [c'|], (old tb) as [c|]; cbn; intros E; simplify_eq; congruence. Qed.
Lemma shape_tidy tb tb' : shape tb' = shape tb -> tidy tb -> plainT tb' -> tidy tb'.
Proof. intros E [_ G] P. split; [done|]. by eapply shape_growing. Qed.

Lemma incremental_tidy sg tb tb' held : wf_table hash CACHE tb -> tidy tb ->
  incremental_rehash CACHE sg hash tb = Some (tb', held) -> tidy tb'.
Proof.
  intros W T. unfold incremental_rehash. destruct (cur tb) as [c|] eqn:C; [|by intros [= <- <-]].
  destruct (old tb) as [o|] eqn:O; [|by intros [= <- <-]].
  destruct (wf_tab_pair _ _ _ _ _ W C O) as (WP & _).
  destruct (_ || _); [by intros [= <- <-]|].
  destruct (relocate_cells _ _ _ _ _ _ _) as [[[c1 o1] d1]|] eqn:E; [|done]. rewrite obind. cbn [fst snd].
  pose proof (proj2 T c o C O) as Gr.
  apply relocate_cells_plain in E as (P1 & P2 & Z1 & Z2); [|done|by apply (proj1 (proj1 T))|by apply (proj2 (proj1 T))|done].
  destruct (_ && _).
  - unfold defer_reclaim. rewrite decide_False by done. destruct (drop_array _ _); [|done]. rewrite !obind.
    intros [= <- <-]. split; [split|]; cbn [release with_old with_arrays cur old]; [by intros ? [= <-]|done|].
    intros ? ?. done.
  - intros [= <- <-]. split; [split|]; cbn [release with_arrays cur old].
    + by intros ? [= <-].
    + by intros ? [= <-].
    + intros ? ? [= <-] [= <-]. unfold alen in *; cbn [sz]. by rewrite Z1, Z2.
Qed.
Lemma prepare_tidy sg tb i tb' : wf_table hash CACHE tb -> tidy tb -> prepare CACHE sg hash tb i = Some tb' -> tidy tb'.
Proof.
  intros W T. unfold prepare. destruct (incremental_rehash_spec hash Hh CACHE sg tb W) as (tb1 & held & E & S & _).
  rewrite E, obind. cbn [fst snd]. pose proof (incremental_tidy sg tb tb1 held W T E) as T1.
  destruct (cur tb1) as [c|] eqn:C; [|by intros [= <-]]. destruct (old tb1) as [o|] eqn:O; [|by intros [= <-]].
  destruct (wf_tab_pair _ _ _ _ _ (sm_wf _ _ _ _ (st_same _ _ _ _ S)) C O) as (WP & _).
  unfold dedup_bucket. destruct (relocate_cells _ _ _ _ _ _ _) as [[[c1 o1] d1]|] eqn:R; [|done]. rewrite obind. cbn [fst snd].
  pose proof (proj2 T1 c o C O) as Gr.
  apply relocate_cells_plain in R as (P1 & P2 & Z1 & Z2); [|done|by apply (proj1 (proj1 T1))|by apply (proj2 (proj1 T1))|done].
  intros [= <-]. split; [split|]; cbn [release with_arrays cur old].
  - by intros ? [= <-].
  - by intros ? [= <-].
  - intros ? ? [= <-] [= <-]. unfold alen in *. by rewrite Z1, Z2.
Qed.
Lemma set_loc_plain tb l b tb' : plainT tb -> links b = [] -> set_loc tb l b = Some tb' ->
  plainT tb' /\ shape tb' = shape tb.
Proof.
  intros [T1 T2] L. unfold set_loc. destruct (loc_array tb l.1) as [a|] eqn:A; [|done]. rewrite obind.
  destruct (cell_at a l.2) as [x|] eqn:X; [|done]. rewrite obind. unfold shape.
  destruct l as [[] i]; cbn [fst snd loc_array] in *; intros [= <-]; cbn [with_cur with_old cur old]; rewrite A; (split; [|done]);
    split; cbn [with_cur with_old cur old]; try done; intros ? [= <-]; (apply plain_set; [|done]); [by apply T1|by apply T2].
Qed.
Lemma lock_plain tb l b : plainT tb -> lock tb l = Some b -> links b = [].
Proof.
  intros [T1 T2]. unfold lock, loc_cell. destruct (loc_array tb l.1) as [a|] eqn:A; [|done]. rewrite obind.
  destruct (cell_at a l.2) as [x|] eqn:X; [|done]. rewrite obind. destruct (dead x); [done|]. intros [= <-].
  destruct l as [[] i]; cbn [fst snd loc_array] in *; [by eapply T1|by eapply T2].
Qed.

(** What a resize may do. *)
Definition ro tb tb' : Prop := tb' = tb \/ (cur tb' = None /\ old tb' = None) \/
  (old tb = None /\ exists c a, cur tb = Some c /\ cur tb' = Some a /\ old tb' = Some c /\ plain a /\ capacity tb <> capacity tb').
Lemma ro_tidy tb tb' : tidy tb -> ro tb tb' -> (capacity tb <= capacity tb')%N -> tidy tb'.
Proof.
  intros T [->|[[C O]|(O & c & a & C & C' & O' & P & N)]] Le; [done| |].
  - split; [split|]; try by rewrite ?C, ?O. intros ? ?. by rewrite C.
  - split; [split|].
    + rewrite C'. by intros ? [= <-].
    + rewrite O'. intros ? [= <-]. by apply (proj1 (proj1 T)).
    + intros c1 o1. rewrite C', O'. intros [= <-] [= <-]. unfold capacity in *. rewrite C, C' in *.
      unfold CapModel.num_slots, alen in *. change CapModel.BUCKET_LEN with 32%N in *. lia.
Qed.
Lemma zero_tidy tb : wf_table hash CACHE tb -> capacity tb = 0%N -> tidy tb.
Proof.
  intros W Z. assert (C : cur tb = None).
  { destruct (cur tb) as [c|] eqn:C; [|done]. exfalso. destruct (wf_tab_cur _ _ _ _ W C) as (Wc & _).
    destruct (slots_pow _ (wa_table _ _ _ Wc)) as [_ L]. unfold capacity in Z. rewrite C in Z. lia. }
  pose proof (wf_tab_none _ _ _ W C) as O. split; [split|]; try by rewrite ?C, ?O. intros ? ?. by rewrite C.
Qed.
(** The sizes are in order. *)
Definition okay tb : Prop := wf_min tb /\ forall c, cur tb = Some c ->
  CapSpec.power_of_two (CapModel.num_slots (sz c)) /\ (64 <= CapModel.num_slots (sz c) <= maxcap tb)%N.
Lemma wf_okay tb : wf_table hash CACHE tb -> okay tb.
Proof.
  intros W. split; [apply W|]. intros c C. destruct (wf_tab_cur _ _ _ _ W C) as (Wc & _).
  destruct (slots_pow _ (wa_table _ _ _ Wc)) as [Pc Lc]. pose proof (wt_size _ _ _ W c C). done.
Qed.
Lemma set_loc_okay tb l b tb' : okay tb -> set_loc tb l b = Some tb' -> okay tb'.
Proof.
  intros [M T]. unfold set_loc. destruct (loc_array tb l.1) as [a|] eqn:A; [|done]. rewrite obind.
  destruct (cell_at a l.2) as [x|] eqn:X; [|done]. rewrite obind.
  destruct l as [[] i]; cbn [fst snd loc_array] in *; intros [= <-]; (split; [by apply (wf_min_eq tb)|]);
    cbn [with_cur with_old cur old maxcap]; try done.
  intros c [= <-]. exact (T a A).
Qed.
Lemma try_resize_ro tb i tb' : okay tb -> try_resize CACHE tb i = Some tb' -> ro tb tb'.
Proof.
  intros W. unfold try_resize. destruct (cur tb) as [c|] eqn:C; [|intros [= <-]; by left].
  destruct (old tb) as [o|] eqn:O; [intros [= <-]; by left|].
  destruct (CapModel.sample _ _ _) as [est|]; [|done]. rewrite obind.
  destruct W as [Wm Wc]. destruct (Wc c C) as (Pc & Lc & Sc). pose proof (minimum_le _ Wm) as Mle.
  destruct (CapThms.lC04_resize_bounds (CapModel.num_slots (sz c)) (minimum tb) (maxcap tb) est Pc)
    as (n & En & Pn & Bn & Mn & _); [apply Wm|lia|apply Wm|lia|].
  unfold CapModel.resize_decision. rewrite En. cbn [CapModel.obind]. rewrite obind.
  destruct (N.eqb_spec n (CapModel.num_slots (sz c))) as [Eq|Ne]; cbn [negb andb].
  - destruct (_ && _); cbn [negb]; [|intros [= <-]; by left].
    destruct (forallb _ _); [|intros [= <-]; by left]. destruct (kill_all _ _) as [[]|]; [|done]. rewrite obind.
    unfold defer_reclaim. rewrite decide_False by done. destruct (drop_array _ _); [|done]. rewrite obind.
    intros [= <-]. right. left. done.
  - destruct (_ && _); cbn [negb].
    + destruct (forallb _ _); [|intros [= <-]; by left]. destruct (kill_all _ _) as [[]|]; [|done]. rewrite obind.
      unfold defer_reclaim. rewrite decide_False by done. destruct (drop_array _ _); [|done]. rewrite obind.
      intros [= <-]. right. left. done.
    + destruct (new_barray n) as [a|] eqn:Ea; [|done]. rewrite obind. intros [= <-]. right. right. split; [done|].
      exists c, a. split; [done|]. split; [done|]. split; [done|]. split; [by eapply plain_new|].
      unfold capacity. rewrite C. cbn [with_arrays cur].
      unfold new_barray in Ea. destruct (CapFacts.capacity_rounding n) as (s & E & (j & Pj) & [B1 B2] & B3).
      rewrite E, obind in Ea. injection Ea as <-. cbn [sz].
      assert (CapModel.num_slots s <= n)%N by (apply (arr_new_le n n s); [done|lia|lia|done]).
      intros X. apply Ne. destruct Wm as [_ _ _ Wl]. lia.
Qed.
Lemma try_enlarge_ro tb i num tb' : okay tb -> try_enlarge CACHE tb i num = Some tb' -> ro tb tb'.
Proof.
  intros W. unfold try_enlarge. destruct (cur tb) as [c|] eqn:C; [|intros [= <-]; by left].
  destruct (old tb) as [o|] eqn:O; [intros [= <-]; by left|].
  destruct (if (_ <? num)%N then _ else _) as [[]|]; [|rewrite obind; intros [= <-]; by left|done].
  rewrite obind. by apply try_resize_ro.
Qed.
Lemma try_shrink_ro tb i tb' : okay tb -> try_shrink CACHE tb i = Some tb' -> ro tb tb'.
Proof.
  intros W. unfold try_shrink. destruct (cur tb) as [c|] eqn:C; [|intros [= <-]; by left].
  destruct (old tb) as [o|] eqn:O; [intros [= <-]; by left|].
  destruct (_ <? _)%N; [|intros [= <-]; by left]. destruct (shrink_count _ _ _ _ _ _) as [[n|]|]; [|rewrite obind; intros [= <-]; by left|done].
  rewrite obind. destruct (_ <=? _)%N; [by apply try_resize_ro|intros [= <-]; by left].
Qed.
End tidy.
