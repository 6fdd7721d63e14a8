(** Property theorems about capacities, bucket indices, resizing decisions and reservations
    (C01-C06, C37, C41-C43). *)
From Coq Require Import NArith Bool List Lia.
From Verif Require Import CapModel CapSpec CapFacts.
Import ListNotations.
Local Open Scope N_scope.

Lemma lC01_capacity_rounding : forall c, usize c ->
  exists a, arr_new c = Some a (* no overflow, no failed assertion *) /\
    power_of_two (num_slots a) /\
    64 <= num_slots a <= 2 ^ 62 /\
    N.min c (2 ^ 62) <= num_slots a /\
    num_slots a < 2 * N.max c 64.
Proof. intros c _. exact (capacity_rounding c). Qed.

Lemma lC02_bucket_index_in_bounds : forall a h, table a -> usize h ->
  bucket_index a h < num_slots a / 32.
Proof.
  intros a h [c T] H. unfold num_slots, BUCKET_LEN. rewrite N.div_mul by discriminate.
  exact (bucket_index_lt a h (arr_new_wf c a T) H).
Qed.

Lemma lC02_bucket_index_onto : forall a i, table a -> i < num_slots a / 32 ->
  exists h, usize h /\ bucket_index a h = i.
Proof.
  intros a i [c T]. unfold num_slots, BUCKET_LEN. rewrite N.div_mul by discriminate.
  exact (bucket_index_surj a i (arr_new_wf c a T)).
Qed.

Lemma lC02_bucket_index_monotone : forall a h1 h2, h1 <= h2 ->
  bucket_index a h1 <= bucket_index a h2.
Proof. exact bucket_index_mono. Qed.

Lemma lC03_relocation_range : forall a b h s e, table a -> table b -> usize h ->
  from_index_to_range (array_len a) (array_len b) (bucket_index a h) = (s, e) ->
  s <= bucket_index b h < e /\ e <= array_len b.
Proof.
  intros a b h s e [ca Ta] [cb Tb] H E.
  pose proof (range_contains_index a b h (arr_new_wf ca a Ta) (arr_new_wf cb b Tb) H) as R.
  rewrite E in R. exact R.
Qed.

Lemma lC03_relocation_range_tight : forall a b i j s e, table a -> table b ->
  i < array_len a -> from_index_to_range (array_len a) (array_len b) i = (s, e) ->
  s <= j < e -> exists h, usize h /\ bucket_index a h = i /\ bucket_index b h = j.
Proof.
  intros a b i j s e [ca Ta] [cb Tb] I E J.
  apply (range_tight a b i j (arr_new_wf ca a Ta) (arr_new_wf cb b Tb) I).
  rewrite E. exact J.
Qed.

Lemma lC04_resize_bounds : forall capacity minimum maximum est,
  power_of_two capacity -> power_of_two maximum ->
  64 <= capacity <= maximum -> maximum <= 2 ^ 62 -> minimum <= maximum ->
  exists n, resize_capacity capacity minimum maximum est = Some n /\
    power_of_two n /\ 64 <= n <= maximum /\ minimum <= n /\
    (* grows only if too small or at least 13/16 full, shrinks only if at most 1/8 full *)
    (capacity < n -> capacity < minimum \/ 13 * capacity <= 16 * est) /\
    (n < capacity -> 8 * est <= capacity /\ 2 * est <= n) /\
    (* a too small or too full table does grow, to at least twice the estimate if possible *)
    (capacity < minimum \/ 13 * capacity <= 16 * est -> capacity < maximum -> capacity < n) /\
    (13 * capacity <= 16 * est -> 2 * est <= n \/ n = maximum).
Proof.
  intros capacity minimum maximum est [c ->] [mx ->] B M MIN.
  assert (C6 : 6 <= c) by (apply pow2_le_inv; change (2 ^ 6) with 64; lia).
  assert (CM : c <= mx) by (apply pow2_le_inv; lia).
  assert (M62 : mx <= 62) by (apply pow2_le_inv; exact M).
  destruct (resize_capacity_spec c mx minimum est) as (n & E & N1 & N2 & G & F & S & P);
    try lia; try assumption.
  assert (C8 : 2 ^ c / 8 * 8 = 2 ^ c).
  { change 8 with (2 ^ 3). rewrite <- N.pow_sub_r by (try discriminate; lia).
    rewrite <- N.pow_add_r. f_equal. lia. }
  assert (lC16 : 2 ^ c / 16 * 16 = 2 ^ c).
  { change 16 with (2 ^ 4). rewrite <- N.pow_sub_r by (try discriminate; lia).
    rewrite <- N.pow_add_r. f_equal. lia. }
  exists (2 ^ n). split; [exact E|]. split; [now exists n|].
  split; [change 64 with (2 ^ 6); split; apply pow2_le; lia|].
  split; [exact N2|].
  split; [|split; [|split]].
  - intros L. apply pow2_lt_inv in L. destruct (G L); [now left|right; lia].
  - intros L. apply pow2_lt_inv in L. destruct (S L). lia.
  - intros H L. apply pow2_lt. apply P; [destruct H; [now left|right; lia]|].
    apply pow2_lt_inv; exact L.
  - intros H. destruct F as [F| ->]; [lia|left; exact F|right; reflexivity].
Qed.

Lemma lC04_estimate_is_between_extremes : forall a lens i lo hi,
  table a -> N.of_nat (length lens) = array_len a -> i < array_len a ->
  Forall (fun x => lo <= x <= hi) lens ->
  exists v, sample a lens i = Some v (* no bucket index out of range *) /\
    lo * array_len a <= v <= hi * array_len a.
Proof.
  intros a lens i lo hi [c T].
  exact (sample_bounds a lens i lo hi (arr_new_wf c a T)).
Qed.

Lemma lC04_resized_table : forall n, power_of_two n -> 64 <= n <= 2 ^ 62 ->
  exists a, arr_new n = Some a /\ num_slots a = n.
Proof.
  intros n [k ->] B.
  destruct (capacity_rounding (2 ^ k)) as (a & E & [j J] & R & L & U).
  exists a. split; [exact E|]. rewrite J in *.
  assert (k <= 62) by (apply pow2_le_inv; lia).
  assert (k <= j) by (apply pow2_le_inv; lia).
  assert (2 ^ j < 2 ^ (N.succ k)) by (rewrite N.pow_succ_r'; lia).
  apply pow2_lt_inv in H1. f_equal. lia.
Qed.

Lemma lC05_reserve_accounting : forall m0 maximum es,
  maximum <= 2 ^ 62 -> m0 <= maximum ->
  exists s, min_run maximum {| word := m0; guards := []; resizing := false |} es = Some s
    (* no overflow or underflow *) /\
    minimum_capacity s = m0 + fold_right N.add 0 (guards s) /\
    minimum_capacity s <= maximum /\
    (resizing s = false -> capacity_range maximum s = (minimum_capacity s, maximum)).
Proof.
  intros m0 maximum es M M0.
  destruct (min_run_inv m0 maximum es {| word := m0; guards := []; resizing := false |} M)
    as (s & E & I).
  { unfold min_inv; cbn [word guards resizing sumN]. repeat split; auto; lia. }
  exists s. split; [exact E|]. pose proof (min_inv_masked _ _ _ M I) as MK.
  assert (S : forall l, fold_right N.add 0 l = sumN l) by (induction l; cbn; congruence).
  rewrite S. unfold minimum_capacity. rewrite MK. destruct I as (W & B & _).
  split; [reflexivity|]. split; [exact B|].
  intros R. unfold capacity_range. rewrite W, R. f_equal. apply N.add_0_r.
Qed.

Lemma lC05_reserve_result : forall m0 maximum es s n,
  maximum <= 2 ^ 62 -> m0 <= maximum ->
  min_run maximum {| word := m0; guards := []; resizing := false |} es = Some s ->
  exists s' r, min_step maximum s (EvReserve n) = Some (s', r) /\
    (if (n =? 0) || (maximum <? minimum_capacity s + n)
     then r = None /\ s' = s
     else r = Some n /\ guards s' = n :: guards s /\
          minimum_capacity s' = minimum_capacity s + n).
Proof.
  intros m0 maximum es s n M M0 E.
  destruct (min_run_inv m0 maximum es {| word := m0; guards := []; resizing := false |} M)
    as (s0 & E0 & I).
  { unfold min_inv; cbn [word guards resizing sumN]. repeat split; auto; lia. }
  rewrite E in E0. injection E0 as <-.
  destruct (min_step_inv m0 maximum s (EvReserve n) M I) as (s' & r & St & I' & H).
  exists s', r. split; [exact St|]. unfold minimum_capacity.
  rewrite (min_inv_masked _ _ _ M I), (min_inv_masked _ _ _ M I').
  destruct H as [(-> & G & NZ & B)|(-> & -> & H)].
  - destruct (N.eqb_spec n 0); [lia|].
    destruct (N.ltb_spec maximum (m0 + sumN (guards s) + n)); [lia|]. cbn [orb].
    rewrite G. cbn [sumN]. repeat split; auto. lia.
  - destruct (N.eqb_spec n 0); [cbn [orb]; auto|].
    destruct (N.ltb_spec maximum (m0 + sumN (guards s) + n)); cbn [orb]; auto. lia.
Qed.

Lemma lC06_size_hint : forall lower upper,
  let n := match upper with Some u => u | None => lower end in
  exists c, capacity_from_size_hint lower upper = Some c (* no overflow *) /\
    ((c = 0 <-> n < 4) (* no table is allocated up front *) /\
     (forall a, c <> 0 -> arr_new c = Some a -> N.min n (2 ^ 62) <= num_slots a)).
Proof.
  intros lower upper. cbn zeta.
  destruct (size_hint_spec lower upper) as (c & E & _ & H). exists c. split; [exact E|exact H].
Qed.

Lemma lC37_documented_capacity_limit_refuted :
  exists c a, usize c /\ c <= 2 ^ 63 /\ arr_new c = Some a /\ num_slots a < c.
Proof.
  exists (2 ^ 62 + 1), {| array_len := 2 ^ 57; hash_offset := 7; sample_size := 64 |}.
  vm_compute. repeat split; discriminate.
Qed.

Lemma lC37_actual_capacity_limit : forall c a, arr_new c = Some a ->
  (c <= num_slots a <-> c <= 2 ^ 62).
Proof.
  intros c a E. destruct (capacity_rounding c) as (a' & E' & _ & B & L & _).
  rewrite E in E'. injection E' as <-.
  split; intros H; [lia|]. rewrite N.min_l in L by exact H. exact L.
Qed.

Lemma lC41_capacity_range_nonempty_refuted :
  exists es s, min_run (2 ^ 62) {| word := 0; guards := []; resizing := false |} es = Some s /\
    let '(lo, hi) := capacity_range (2 ^ 62) s in hi < lo /\ lo <> minimum_capacity s.
Proof.
  exists [EvResizeLock], {| word := 2 ^ 63; guards := []; resizing := true |}.
  vm_compute. split; [reflexivity|]. split; [reflexivity|discriminate].
Qed.

Lemma lC41_capacity_range_quiescent : forall m0 maximum es s,
  maximum <= 2 ^ 62 -> m0 <= maximum ->
  min_run maximum {| word := m0; guards := []; resizing := false |} es = Some s ->
  resizing s = false ->
  fst (capacity_range maximum s) <= snd (capacity_range maximum s).
Proof.
  intros m0 maximum es s M M0 E R.
  destruct (lC05_reserve_accounting m0 maximum es M M0) as (s' & E' & _ & B & Q).
  rewrite E in E'. injection E' as <-. rewrite (Q R). exact B.
Qed.

Lemma lC42_bucket_array_size : forall a wrapping sz, table a -> sz <= 64 ->
  bucket_array_bytes wrapping sz (array_len a) = Some ((array_len a + 1) * sz).
Proof. intros a w sz [c T] H. exact (bucket_bytes_ok w sz a (arr_new_wf c a T) H). Qed.

Lemma lC42_cache_bucket_array_size_refuted :
  exists c a, usize c /\ arr_new c = Some a /\
    bucket_array_bytes true 128 (array_len a) = Some 128 /\ 2 ^ 57 <= array_len a.
Proof.
  exists (2 ^ 62), {| array_len := 2 ^ 57; hash_offset := 7; sample_size := 64 |}.
  vm_compute. repeat split; discriminate.
Qed.

Lemma lC43_collect_allocation items lower upper c a :
  match upper with Some u => u | None => lower end <= items ->
  capacity_from_size_hint lower upper = Some c -> arr_new c = Some a ->
  num_slots a = 64 \/ 2 * num_slots a < 5 * items.
Proof.
  intros H C A. unfold capacity_from_size_hint in C. set (n := match upper with Some u => u | None => lower end) in *.
  unfold chk in C. destruct (_ <? _) in C; [|discriminate]. injection C as <-.
  destruct (capacity_rounding (N.min n (2 ^ 62) / 4 * 5)) as (a' & E & (k & Ek) & (R & _) & _ & U).
  change (N.pos (2 ^ 62)) with (2 ^ 62)%N in A. rewrite A in E. injection E as <-.
  assert (N.min n (2 ^ 62) <= items) as L by (etransitivity; [apply N.le_min_l|exact H]).
  pose proof (N.div_mod (N.min n (2 ^ 62)) 4 ltac:(discriminate)) as DM.
  revert U DM L. generalize (N.min n (2 ^ 62)). intros m U DM L.
  destruct (N.le_gt_cases (m / 4 * 5) 64) as [X|X].
  - left. rewrite N.max_r in U by lia. rewrite Ek in *. change 64 with (2 ^ 6) in R at 1. apply pow2_le_inv in R.
    change (2 * 64) with (2 ^ 7) in U. assert (k < 7) by (apply (N.pow_lt_mono_r_iff 2); [reflexivity|exact U]).
    assert (k = 6) as -> by lia. reflexivity.
  - right. rewrite N.max_l in U by lia. lia.
Qed.

Lemma lC43_collect_allocation_refuted : forall items : N, items < 2 ^ 50 ->
  exists lower upper c a, lower <= items /\ items <= upper (* an honest size hint *) /\
    usize upper /\
    capacity_from_size_hint lower (Some upper) = Some c /\ arr_new c = Some a /\
    num_slots a = 2 ^ 62.
Proof.
  intros items H. exists 0, (2 ^ 64 - 1), (5 * 2 ^ 60),
    {| array_len := 2 ^ 57; hash_offset := 7; sample_size := 64 |}.
  split; [apply N.le_0_l|]. split; [transitivity (2 ^ 50); [lia|vm_compute; discriminate]|].
  split; [reflexivity|]. split; [vm_compute; reflexivity|].
  split; [vm_compute; reflexivity|]. vm_compute. reflexivity.
Qed.

