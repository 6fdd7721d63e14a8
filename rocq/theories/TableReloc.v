(** Relocation between the two arrays: [relocate_cell], [dedup_bucket], [incremental_rehash],
    [prepare]. *)
From Coq Require Import NArith Lia.
From stdpp Require Import numbers prelude list.
From Verif Require CapModel CapSpec CapFacts CapThms.
From Verif Require Import LruModel BucketModel BucketSpec BucketFacts BucketOps BucketOps2 BucketOps3
  TableModel TableSpec TableFacts.

Section reloc.
Context {K V : Type} `{EqDecision K}.
Context (hash : K -> N).
Context (Hh : forall k, (hash k < 2 ^ 64)%N).
Implicit Types (a c o : barray K V) (x : cell K V) (tb : table K V) (b : bucket K V).

Lemma kill_empty t b : wf_core hash t b -> entries t b = [] ->
  exists b', kill t b = Some (b', []) /\ wf_core hash t b' /\ entries t b' = [] /\ stored b' ≡ₚ stored b.
Proof.
  intros W E. destruct (kill_spec hash t b W) as (b' & d & Ek & Sk & Xk). destruct (Xk E) as [-> E'].
  exists b'. split; [done|]. split; [|split; [done|by rewrite Sk]].
  unfold kill in Ek. destruct (decide (t = INDEX)).
  - by injection Ek as <-.
  - destruct (drop_links (links b)) as [r|]; [|done]. rewrite obind in Ek. injection Ek as <- Hr.
    split; cbn [main links blen]; [apply W|constructor|].
    rewrite E'. rewrite (wf_len _ _ _ W), E. done.
Qed.

Record reloc t c o c' o' d : Prop := Reloc {
  rl_pair : wf_pair hash t c' o';
  rl_szc : sz c' = sz c;
  rl_szo : sz o' = sz o;
  rl_clc : cleared c' = cleared c;
  rl_clo : cleared o' = cleared o;
  rl_ents : aents t o' ++ aents t c' ≡ₚ aents t o ++ aents t c;
  rl_stored : astored o' ++ astored c' ++ d ≡ₚ astored o ++ astored c;
  rl_drop : t <> INDEX -> d = [];
  rl_dead : forall j x, bks o' !! j = Some x -> dead x = true \/ bks o !! j = Some x;
  rl_other : forall j, (forall e, e ∈ aents t o -> bi hash c e.1 <> j) -> bks c' !! j = bks c !! j }.

Lemma reloc_refl t c o : wf_pair hash t c o -> reloc t c o c o [].
Proof. intros W. split; try done; [by rewrite app_nil_r|by right]. Qed.

Lemma reloc_sub t c o c' o' d e : reloc t c o c' o' d -> e ∈ aents t o' -> e ∈ aents t o.
Proof.
  intros R (i & x & H1 & H2)%elem_of_aents. apply elem_of_aents. exists i, x. split; [|done].
  destruct (rl_dead _ _ _ _ _ _ R i x H1) as [D|D]; [|done].
  exfalso. pose proof (wa_cells _ _ _ (wp_old _ _ _ _ (rl_pair _ _ _ _ _ _ R)) i x H1) as Wx.
  rewrite (wc_dead _ _ _ Wx D) in H2. by apply elem_of_nil in H2.
Qed.
Lemma perm_swap3 {A} (o2 c2 d1 d2 o1 c1 o c : list A) :
  o2 ++ c2 ++ d2 ≡ₚ o1 ++ c1 -> o1 ++ c1 ++ d1 ≡ₚ o ++ c -> o2 ++ c2 ++ d1 ++ d2 ≡ₚ o ++ c.
Proof.
  intros H1 H2. rewrite <- H2. rewrite (app_assoc o1), <- H1.
  rewrite <- !app_assoc. apply Permutation_app_head, Permutation_app_head, Permutation_app_comm.
Qed.
Lemma reloc_trans t c o c1 o1 d1 c2 o2 d2 :
  reloc t c o c1 o1 d1 -> reloc t c1 o1 c2 o2 d2 -> reloc t c o c2 o2 (d1 ++ d2).
Proof.
  intros R1 R2. split.
  - apply R2.
  - by rewrite (rl_szc _ _ _ _ _ _ R2), (rl_szc _ _ _ _ _ _ R1).
  - by rewrite (rl_szo _ _ _ _ _ _ R2), (rl_szo _ _ _ _ _ _ R1).
  - by rewrite (rl_clc _ _ _ _ _ _ R2), (rl_clc _ _ _ _ _ _ R1).
  - by rewrite (rl_clo _ _ _ _ _ _ R2), (rl_clo _ _ _ _ _ _ R1).
  - by rewrite (rl_ents _ _ _ _ _ _ R2), (rl_ents _ _ _ _ _ _ R1).
  - eapply perm_swap3; [apply R2|apply R1].
  - intros Ht. by rewrite (rl_drop _ _ _ _ _ _ R2 Ht), (rl_drop _ _ _ _ _ _ R1 Ht).
  - intros j x H2. destruct (rl_dead _ _ _ _ _ _ R2 j x H2) as [D|H1]; [by left|].
    exact (rl_dead _ _ _ _ _ _ R1 j x H1).
  - intros j Hj. rewrite (rl_other _ _ _ _ _ _ R2), (rl_other _ _ _ _ _ _ R1); [done|done|].
    intros e He. unfold bi. rewrite (rl_szc _ _ _ _ _ _ R1). apply Hj. by eapply reloc_sub.
Qed.

(** Killing an empty old bucket. *)
Lemma set_dead t c o i x b' : wf_pair hash t c o -> cell_at o i = Some x ->
  wf_core hash t b' -> entries t b' = [] -> wf_array hash t (set_cell o i (Cell b' true)).
Proof.
  intros W Hx Wb E. apply wf_set_cell; [apply W|..]; cbn [bkt].
  - by split; cbn [bkt dead].
  - intros e He. rewrite E in He. by apply elem_of_nil in He.
Qed.
Lemma set_cell_lookup o i x y j z : cell_at o i = Some x -> bks (set_cell o i y) !! j = Some z ->
  (j = N.to_nat i /\ z = y) \/ (j <> N.to_nat i /\ bks o !! j = Some z).
Proof.
  intros Hx. rewrite set_cell_bks. destruct (decide (j = N.to_nat i)) as [->|Hj].
  - rewrite list_lookup_insert by (by eapply cell_at_lt). intros [= ->]. by left.
  - rewrite list_lookup_insert_ne by done. by right.
Qed.

Lemma range_shape c o i s e : CapModel.from_index_to_range (alen o) (alen c) i = (s, e) ->
  (alen c <= alen o)%N -> e = (s + 1)%N.
Proof.
  unfold CapModel.from_index_to_range. destruct (N.ltb_spec (alen o) (alen c)); [lia|]. intros [= <- <-] _. done.
Qed.

Lemma app4 {A} (x b' ro ac : list A) : (b' ++ ro) ++ x ++ ac ≡ₚ ((x ++ b') ++ ro) ++ ac.
Proof.
  rewrite <- !app_assoc. rewrite (Permutation_app_comm x (b' ++ ro ++ ac)), <- !app_assoc.
  apply Permutation_app_head, Permutation_app_head, Permutation_app_comm.
Qed.

Lemma relocate_cell_spec t sg c o i x : wf_pair hash t c o -> cell_at o i = Some x ->
  exists c' o' d, relocate_cell t sg hash c o i = Some (c', o', d) /\ reloc t c o c' o' d /\
    (exists y, bks o' !! N.to_nat i = Some y /\ dead y = true).
Proof.
  intros W Hx. unfold relocate_cell. rewrite Hx, obind.
  pose proof (wa_cells _ _ _ (wp_old _ _ _ _ W) _ _ Hx) as Wx.
  destruct (dead x) eqn:Dx.
  { exists c, o, []. split; [done|]. split; [by apply reloc_refl|]. by exists x. }
  pose proof (cell_at_lt _ _ _ Hx) as Li.
  destruct (Nat.eqb_spec (blen (bkt x)) 0) as [L0|L0].
  - assert (E0 : entries t (bkt x) = []).
    { apply length_zero_iff_nil. by rewrite <- (wf_len _ _ _ (wc_core _ _ _ Wx)). }
    destruct (kill_empty t (bkt x) (wc_core _ _ _ Wx) E0) as (b' & Ek & Wb' & E' & S'). rewrite Ek, obind. cbn [fst snd].
    eexists _, _, _. split; [done|]. split.
    + split; try done.
      * split; [apply W|by eapply set_dead|apply W|].
        intros Ht j y e Hy Dy. destruct (set_cell_lookup _ _ _ _ _ _ Hx Hy) as [[_ ->]|[_ Hy']]; [done|].
        by eapply (wp_sep _ _ _ _ W).
      * rewrite (aents_set t o i x) by done. cbn [bkt]. rewrite E', (aents_split t o i x) by done. by rewrite E0.
      * rewrite app_nil_r, (astored_set o i x) by done. cbn [bkt]. rewrite S', <- (astored_split o i x) by done. done.
      * intros j y Hy. destruct (set_cell_lookup _ _ _ _ _ _ Hx Hy) as [[_ ->]|[_ Hy']]; [by left|by right].
    + exists (Cell b' true). rewrite set_cell_bks. by rewrite list_lookup_insert by done.
  - destruct (CapModel.from_index_to_range (alen o) (alen c) i) as [s e] eqn:R. cbn [fst snd].
    assert (Hi : forall y, y ∈ entries t (bkt x) -> CapModel.bucket_index (sz o) (hash y.1) = i).
    { intros y Hy. rewrite (wa_place _ _ _ (wp_old _ _ _ _ W) _ x y Hx Hy). lia. }
    destruct (relocate_bucket_spec hash Hh t sg c s (alen o) (bkt x)) as (c' & b1 & d & E1 & M).
    { apply W. } { apply W. } { apply Wx. }
    { intros y Hy. pose proof (Hi y Hy) as Hiy.
      destruct (CapThms.lC03_relocation_range (sz o) (sz c) (hash y.1) s e) as [X1 X2].
      { apply (wp_old _ _ _ _ W). } { apply (wp_cur _ _ _ _ W). } { apply (usize_hash _ Hh). }
      { by rewrite Hiy. }
      unfold bi. rewrite N2Nat.id. split; [lia|]. intros Hle. pose proof (range_shape _ _ _ _ _ R Hle). lia. }
    rewrite E1, obind. cbn [fst snd].
    pose proof (after_null t (bkt x)) as An.
    assert (E0 : entries t b1 = []) by (rewrite (mv_left _ _ _ _ _ _ _ _ M); apply before_null).
    destruct (kill_empty t b1 (mv_core _ _ _ _ _ _ _ _ M) E0) as (b' & Ek & Wb' & E' & S'). rewrite Ek, obind. cbn [fst snd].
    eexists _, _, _. split; [done|]. rewrite app_nil_r. split.
    + split; try done.
      * split; [apply M|by eapply set_dead|apply M|].
        intros Ht j y z Hy Dy Hz. change (sz (set_cell o i (Cell b' true))) with (sz o).
        destruct (set_cell_lookup _ _ _ _ _ _ Hx Hy) as [[_ ->]|[Hj Hy']]; [done|].
        rewrite (mv_ents _ _ _ _ _ _ _ _ M), An, elem_of_app in Hz. destruct Hz as [Hz|Hz].
        -- rewrite (Hi z Hz). lia.
        -- by eapply (wp_sep _ _ _ _ W).
      * apply M.
      * apply M.
      * rewrite (aents_set t o i x) by done. cbn [bkt]. rewrite E', (mv_ents _ _ _ _ _ _ _ _ M), An.
        rewrite (aents_split t o i x) by done. cbn [app]. rewrite <- !app_assoc.
        rewrite (Permutation_app_comm (entries t (bkt x)) (aents t c)), app_assoc. apply Permutation_app_comm.
      * rewrite (astored_set o i x) by done. cbn [bkt]. rewrite S', (mv_stored _ _ _ _ _ _ _ _ M), An.
        rewrite (astored_split o i x) by done. rewrite (mv_bstored _ _ _ _ _ _ _ _ M), An. apply app4.
      * apply M.
      * intros j y Hy. destruct (set_cell_lookup _ _ _ _ _ _ Hx Hy) as [[_ ->]|[_ Hy']]; [by left|by right].
      * intros j Hj. apply (mv_other _ _ _ _ _ _ _ _ M). rewrite An. intros e' He'. apply Hj. apply elem_of_aents. eauto.
    + exists (Cell b' true). rewrite set_cell_bks. by rewrite list_lookup_insert by done.
Qed.

Lemma reloc_length t c o c' o' d : reloc t c o c' o' d -> wf_pair hash t c o ->
  length (bks o') = length (bks o) /\ length (bks c') = length (bks c).
Proof.
  intros R W. pose proof (rl_pair _ _ _ _ _ _ R) as W'.
  rewrite (wa_len _ _ _ (wp_old _ _ _ _ W')), (wa_len _ _ _ (wp_old _ _ _ _ W)),
    (wa_len _ _ _ (wp_cur _ _ _ _ W')), (wa_len _ _ _ (wp_cur _ _ _ _ W)).
  unfold alen. by rewrite (rl_szo _ _ _ _ _ _ R), (rl_szc _ _ _ _ _ _ R).
Qed.
(** Once dead, always dead. *)
Lemma reloc_dead t c o c' o' d i x : reloc t c o c' o' d -> wf_pair hash t c o -> bks o !! i = Some x -> dead x = true ->
  exists y, bks o' !! i = Some y /\ dead y = true.
Proof.
  intros R W Hx D. destruct (reloc_length _ _ _ _ _ _ R W) as [L _].
  destruct (lookup_lt_is_Some_2 (bks o') i) as [y Hy]; [rewrite L; by eapply lookup_lt_Some|].
  exists y. split; [done|]. destruct (rl_dead _ _ _ _ _ _ R i y Hy) as [?|E]; [done|]. congruence.
Qed.

Lemma relocate_cells_spec t sg is : forall c o acc, wf_pair hash t c o ->
  (forall i, i ∈ is -> (i < alen o)%N) ->
  exists c' o' d, relocate_cells t sg hash c o is acc = Some (c', o', acc ++ d) /\ reloc t c o c' o' d /\
    (forall i, i ∈ is -> exists y, bks o' !! N.to_nat i = Some y /\ dead y = true).
Proof.
  induction is as [|i is IH]; intros c o acc W L; cbn [relocate_cells].
  { exists c, o, []. rewrite app_nil_r. split; [done|]. split; [by apply reloc_refl|].
    intros i Hi. by apply elem_of_nil in Hi. }
  destruct (lookup_lt_is_Some_2 (bks o) (N.to_nat i)) as [x Hx].
  { rewrite (wa_len _ _ _ (wp_old _ _ _ _ W)). pose proof (L i ltac:(set_solver)). lia. }
  destruct (relocate_cell_spec t sg c o i x W Hx) as (c1 & o1 & d1 & E1 & R1 & (y & Hy & Dy)). rewrite E1, obind. cbn [fst snd].
  destruct (IH c1 o1 (acc ++ d1)) as (c2 & o2 & d2 & E2 & R2 & D2).
  { apply R1. }
  { intros j Hj. unfold alen. rewrite (rl_szo _ _ _ _ _ _ R1). apply L. set_solver. }
  exists c2, o2, (d1 ++ d2). split; [by rewrite E2, app_assoc|]. split; [by eapply reloc_trans|].
  intros j [->|Hj]%elem_of_cons; [|by apply D2].
  by eapply reloc_dead; [exact R2|apply R1|..].
Qed.

Lemma elem_of_range i s e : i ∈ TableModel.range s e <-> (s <= i < e)%N.
Proof.
  unfold TableModel.range. rewrite elem_of_list_In, in_map_iff. split.
  - intros (d & <- & Hd). apply in_seq in Hd. lia.
  - intros H. exists (N.to_nat (i - s)). split; [lia|]. apply in_seq. lia.
Qed.

(** The old buckets that may hold keys of current bucket [i]: all emptied by [dedup_bucket]. *)
Lemma range_bound (a a2 : barray K V) i s e : CapSpec.table (sz a) -> CapSpec.table (sz a2) -> (i < alen a)%N ->
  CapModel.from_index_to_range (alen a) (alen a2) i = (s, e) -> (e <= alen a2)%N.
Proof.
  intros Ta Tb Hi R.
  destruct (CapFacts.bucket_index_surj (sz a) i (table_wf _ Ta) Hi) as (h & Hh' & Eh).
  destruct (CapThms.lC03_relocation_range (sz a) (sz a2) h s e Ta Tb) as [_ X]; [|by rewrite Eh|done].
  exact Hh'.
Qed.
Lemma dedup_bucket_spec t sg c o i : wf_pair hash t c o -> (i < alen c)%N ->
  exists c' o' d, dedup_bucket t sg hash c o i = Some (c', o', d) /\ reloc t c o c' o' d /\
    (forall k z, CapModel.bucket_index (sz c) (hash k) = i -> bks o' !! bi hash o k = Some z -> dead z = true).
Proof.
  intros W Hi. unfold dedup_bucket.
  destruct (CapModel.from_index_to_range (alen c) (alen o) i) as [s e] eqn:R. cbn [fst snd].
  pose proof (wa_table _ _ _ (wp_cur _ _ _ _ W)) as Tc. pose proof (wa_table _ _ _ (wp_old _ _ _ _ W)) as To.
  pose proof (range_bound _ _ _ _ _ Tc To Hi R) as B.
  destruct (relocate_cells_spec t sg (TableModel.range s e) c o [] W) as (c' & o' & d & E & RL & D).
  { intros j Hj%elem_of_range. lia. }
  exists c', o', d. split; [done|]. split; [done|].
  intros k z Hk Hz. destruct (CapThms.lC03_relocation_range (sz c) (sz o) (hash k) s e Tc To) as [X _].
  { apply (usize_hash _ Hh). } { by rewrite Hk. }
  destruct (D (CapModel.bucket_index (sz o) (hash k))) as (y & Hy & Dy); [by apply elem_of_range|].
  unfold bi in Hz. congruence.
Qed.
End reloc.
