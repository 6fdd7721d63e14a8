(** Property theorems about capacities, bucket indices, resizing decisions and reservations
    (C01-C06, C37, C41-C43). *)
From Coq Require Import NArith Bool List Lia.
From Verif Require Import CapModel CapSpec CapThms.
Import ListNotations.
Local Open Scope N_scope.

(** ** C01 *)
Theorem C01_capacity_rounding : forall c, usize c ->
  exists a, arr_new c = Some a (* no overflow, no failed assertion *) /\
    power_of_two (num_slots a) /\
    64 <= num_slots a <= 2 ^ 62 /\
    N.min c (2 ^ 62) <= num_slots a /\
    num_slots a < 2 * N.max c 64.
Proof. exact lC01_capacity_rounding. Qed.
Example C01_example : usize 1000 /\ option_map num_slots (arr_new 1000) = Some 1024.
Proof. split; [reflexivity|vm_compute; reflexivity]. Qed.
Print Assumptions C01_capacity_rounding.

(** ** C02 *)
Theorem C02_bucket_index_in_bounds : forall a h, table a -> usize h ->
  bucket_index a h < num_slots a / 32.
Proof. exact lC02_bucket_index_in_bounds. Qed.
Theorem C02_bucket_index_onto : forall a i, table a -> i < num_slots a / 32 ->
  exists h, usize h /\ bucket_index a h = i.
Proof. exact lC02_bucket_index_onto. Qed.
Theorem C02_bucket_index_monotone : forall a h1 h2, h1 <= h2 ->
  bucket_index a h1 <= bucket_index a h2.
Proof. exact lC02_bucket_index_monotone. Qed.
Example C02_example : exists a, table a /\ num_slots a = 4096 /\ usize (2 ^ 64 - 1) /\
  bucket_index a (2 ^ 64 - 1) = 127.
Proof. eexists. split; [exists 4000; vm_compute; reflexivity|]. vm_compute. auto. Qed.
Print Assumptions C02_bucket_index_in_bounds.
Print Assumptions C02_bucket_index_onto.
Print Assumptions C02_bucket_index_monotone.

(** ** C03 : [a] and [b] are any two tables (growing, shrinking or equal). *)
Theorem C03_relocation_range : forall a b h s e, table a -> table b -> usize h ->
  from_index_to_range (array_len a) (array_len b) (bucket_index a h) = (s, e) ->
  s <= bucket_index b h < e /\ e <= array_len b.
Proof. exact lC03_relocation_range. Qed.
Theorem C03_relocation_range_tight : forall a b i j s e, table a -> table b ->
  i < array_len a -> from_index_to_range (array_len a) (array_len b) i = (s, e) ->
  s <= j < e -> exists h, usize h /\ bucket_index a h = i /\ bucket_index b h = j.
Proof. exact lC03_relocation_range_tight. Qed.
Example C03_example : exists a b, table a /\ table b /\ array_len a = 2 /\ array_len b = 8 /\
  from_index_to_range (array_len a) (array_len b) 1 = (4, 8) /\
  from_index_to_range (array_len b) (array_len a) 5 = (1, 2).
Proof.
  eexists _, _. split; [exists 64; vm_compute; reflexivity|].
  split; [exists 256; vm_compute; reflexivity|]. vm_compute. auto.
Qed.
Print Assumptions C03_relocation_range.
Print Assumptions C03_relocation_range_tight.

(** ** C04 *)
Theorem C04_resize_bounds : forall capacity minimum maximum est,
  power_of_two capacity -> power_of_two maximum ->
  64 <= capacity <= maximum -> maximum <= 2 ^ 62 -> minimum <= maximum ->
  exists n, resize_capacity capacity minimum maximum est = Some n /\
    power_of_two n /\ 64 <= n <= maximum /\ minimum <= n /\
    (* grows only if too small or at least 13/16 full, shrinks only if at most 1/8 full *)
    (capacity < n -> capacity < minimum \/ 13 * capacity <= 16 * est) /\
    (n < capacity -> 8 * est <= capacity /\ 2 * est <= n) /\
    (* a too small or too full table does grow, to at least twice the estimate if possible *)
    (capacity < minimum \/ 13 * capacity <= 16 * est -> capacity < maximum -> capacity < n) /\
    (13 * capacity <= 16 * est -> 2 * est <= n \/ n = maximum).
Proof. exact lC04_resize_bounds. Qed.
Theorem C04_estimate_is_between_extremes : forall a lens i lo hi,
  table a -> N.of_nat (length lens) = array_len a -> i < array_len a ->
  Forall (fun x => lo <= x <= hi) lens ->
  exists v, sample a lens i = Some v (* no bucket index out of range *) /\
    lo * array_len a <= v <= hi * array_len a.
Proof. exact lC04_estimate_is_between_extremes. Qed.
(** The resulting table: resizing to [n] gives a table of exactly [n] slots. *)
Theorem C04_resized_table : forall n, power_of_two n -> 64 <= n <= 2 ^ 62 ->
  exists a, arr_new n = Some a /\ num_slots a = n.
Proof. exact lC04_resized_table. Qed.
Example C04_example :
  resize_capacity 64 0 (2 ^ 62) 60 = Some 128 /\ resize_capacity 1024 0 (2 ^ 62) 100 = Some 256 /\
  resize_capacity 64 1000 (2 ^ 62) 0 = Some 1024 /\ resize_capacity 256 64 256 256 = Some 256.
Proof. vm_compute. auto. Qed.
Print Assumptions C04_resize_bounds.
Print Assumptions C04_estimate_is_between_extremes.
Print Assumptions C04_resized_table.

(** ** C05 : any interleaving of atomic steps of any number of threads is a list of events.
    [m0] is the minimum capacity at construction. *)
Theorem C05_reserve_accounting : forall m0 maximum es,
  maximum <= 2 ^ 62 -> m0 <= maximum ->
  exists s, min_run maximum {| word := m0; guards := []; resizing := false |} es = Some s
    (* no overflow or underflow *) /\
    minimum_capacity s = m0 + fold_right N.add 0 (guards s) /\
    minimum_capacity s <= maximum /\
    (resizing s = false -> capacity_range maximum s = (minimum_capacity s, maximum)).
Proof. exact lC05_reserve_accounting. Qed.
(** Each [reserve]: refused (nothing changes) exactly if the amount is 0 or does not fit. *)
Theorem C05_reserve_result : forall m0 maximum es s n,
  maximum <= 2 ^ 62 -> m0 <= maximum ->
  min_run maximum {| word := m0; guards := []; resizing := false |} es = Some s ->
  exists s' r, min_step maximum s (EvReserve n) = Some (s', r) /\
    (if (n =? 0) || (maximum <? minimum_capacity s + n)
     then r = None /\ s' = s
     else r = Some n /\ guards s' = n :: guards s /\
          minimum_capacity s' = minimum_capacity s + n).
Proof. exact lC05_reserve_result. Qed.
Example C05_example :
  exists s, min_run (2 ^ 62) {| word := 64; guards := []; resizing := false |}
    [EvReserve 1000; EvResizeLock; EvReserve (2 ^ 64 - 1); EvReserve 0; EvReserve 24;
     EvDrop 1; EvResizeUnlock] = Some s /\ minimum_capacity s = 88 /\ guards s = [24].
Proof. eexists. split; [vm_compute; reflexivity|]. vm_compute. auto. Qed.
Print Assumptions C05_reserve_accounting.
Print Assumptions C05_reserve_result.

(** ** C06 *)
Theorem C06_size_hint : forall lower upper,
  let n := match upper with Some u => u | None => lower end in
  exists c, capacity_from_size_hint lower upper = Some c (* no overflow *) /\
    ((c = 0 <-> n < 4) (* no table is allocated up front *) /\
     (forall a, c <> 0 -> arr_new c = Some a -> N.min n (2 ^ 62) <= num_slots a)).
Proof. exact lC06_size_hint. Qed.
Example C06_example : capacity_from_size_hint 3 (Some 100) = Some 125 /\
  capacity_from_size_hint 3 None = Some 0 /\
  capacity_from_size_hint 0 (Some (2 ^ 64 - 1)) = Some (5 * 2 ^ 60).
Proof. vm_compute. auto. Qed.
Print Assumptions C06_size_hint.

(** ** C37 : the documented limit [1 << (usize::BITS - 1)] is not the real one. *)
Theorem C37_documented_capacity_limit_refuted :
  exists c a, usize c /\ c <= 2 ^ 63 /\ arr_new c = Some a /\ num_slots a < c.
Proof. exact lC37_documented_capacity_limit_refuted. Qed.
(** What does hold: the guarantee is exact up to [2^62] and fails above it. *)
Theorem C37_actual_capacity_limit : forall c a, arr_new c = Some a ->
  (c <= num_slots a <-> c <= 2 ^ 62).
Proof. exact lC37_actual_capacity_limit. Qed.
Print Assumptions C37_documented_capacity_limit_refuted.
Print Assumptions C37_actual_capacity_limit.

(** ** C41 : [capacity_range] exposes the internal RESIZING bit while a resize is going on. *)
Theorem C41_capacity_range_nonempty_refuted :
  exists es s, min_run (2 ^ 62) {| word := 0; guards := []; resizing := false |} es = Some s /\
    let '(lo, hi) := capacity_range (2 ^ 62) s in hi < lo /\ lo <> minimum_capacity s.
Proof. exact lC41_capacity_range_nonempty_refuted. Qed.
(** Outside a resize it is right. *)
Theorem C41_capacity_range_quiescent : forall m0 maximum es s,
  maximum <= 2 ^ 62 -> m0 <= maximum ->
  min_run maximum {| word := m0; guards := []; resizing := false |} es = Some s ->
  resizing s = false ->
  fst (capacity_range maximum s) <= snd (capacity_range maximum s).
Proof. exact lC41_capacity_range_quiescent. Qed.
Print Assumptions C41_capacity_range_nonempty_refuted.
Print Assumptions C41_capacity_range_quiescent.

(** ** C42 : the size in bytes of the bucket array.  [sz] is [size_of::<Bucket>()]: 64 for
    HashMap/HashSet/HashIndex; 128 for HashCache, whose buckets embed the 64-byte LRU list
    (bucket.rs L19-29, L88-89). *)
Theorem C42_bucket_array_size : forall a wrapping sz, table a -> sz <= 64 ->
  bucket_array_bytes wrapping sz (array_len a) = Some ((array_len a + 1) * sz).
Proof. exact lC42_bucket_array_size. Qed.
Theorem C42_cache_bucket_array_size_refuted :
  exists c a, usize c /\ arr_new c = Some a /\
    bucket_array_bytes true 128 (array_len a) = Some 128 /\ 2 ^ 57 <= array_len a.
Proof. exact lC42_cache_bucket_array_size_refuted. Qed.
Example C42_example : exists a, table a /\ bucket_array_bytes true 64 (array_len a) = Some 2112.
Proof. eexists. split; [exists 1000; vm_compute; reflexivity|]. vm_compute. reflexivity. Qed.
Print Assumptions C42_bucket_array_size.
Print Assumptions C42_cache_bucket_array_size_refuted.

(** ** C43 : the capacity allocated when collecting from an iterator follows the upper bound of
    the size hint, so it is not bounded by the number of items. *)
Theorem C43_collect_allocation_refuted : forall items : N, items < 2 ^ 50 ->
  exists lower upper c a, lower <= items /\ items <= upper (* an honest size hint *) /\
    usize upper /\
    capacity_from_size_hint lower (Some upper) = Some c /\ arr_new c = Some a /\
    num_slots a = 2 ^ 62.
Proof. exact lC43_collect_allocation_refuted. Qed.
(** It is bounded by it, whenever the size hint announces no more items than there are: an exact one, or
    one without an upper bound. *)
Theorem C43_collect_allocation_partial : forall items lower upper c a,
  match upper with Some u => u | None => lower end <= items ->
  capacity_from_size_hint lower upper = Some c -> arr_new c = Some a ->
  num_slots a = 64 \/ 2 * num_slots a < 5 * items.
Proof. exact lC43_collect_allocation. Qed.
Example C43_example : exists c, capacity_from_size_hint 1000 (Some 1000) = Some c /\ option_map num_slots (arr_new c) = Some 2048.
Proof. exists 1250. vm_compute. auto. Qed.
Print Assumptions C43_collect_allocation_partial.
Print Assumptions C43_collect_allocation_refuted.
