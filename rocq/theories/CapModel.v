(** Capacity and index arithmetic of the hash tables.

    Models [src/hash_table/bucket_array.rs] and the arithmetic parts of
    [src/hash_table.rs], [src/hash_map.rs], [src/hash_cache.rs].
    [usize] = [u64] (64-bit target).  Every Rust operation that could overflow is written
    with an explicit check: [None] stands for the overflow panic of a checked build. *)
From Coq Require Import NArith Bool List.
Import ListNotations.
Local Open Scope N_scope.

(** 2^64: one more than [usize::MAX]. *)
Definition two64 : N := 2 ^ 64.

(** bucket.rs L41: [BUCKET_LEN = u32::BITS]. *)
Definition BUCKET_LEN : N := 32.

(** hash_table.rs L1445 and L1448. *)
Definition MAXIMUM_CAPACITY_LIMIT : N := 2 ^ 62.
Definition RESIZING : N := 2 ^ 63.

(** Overflow check of a [usize] result. *)
Definition chk (x : N) : option N := if x <? two64 then Some x else None.

Definition obind {A B} (o : option A) (f : A -> option B) : option B :=
  match o with Some a => f a | None => None end.
Notation "'olet' x := o 'in' k" := (obind o (fun x => k))
  (at level 200, x binder, o at level 100, k at level 200).

(** [usize::next_power_of_two] (core): smallest power of two [>= n], 1 for 0;
    overflow if it does not fit. *)
Definition next_power_of_two (n : N) : option N := chk (2 ^ N.log2_up n).

(** [trailing_zeros] of a non-zero word (core). *)
Fixpoint ctz_pos (p : positive) : N :=
  match p with xO q => 1 + ctz_pos q | _ => 0 end.
Definition trailing_zeros (n : N) : N :=
  match n with N0 => 64 | Npos p => ctz_pos p end.

(** The size-related fields of [BucketArray] (bucket_array.rs L14-23); [num_slots] is the
    method of L107-109. *)
Record arr := { array_len : N; hash_offset : N; sample_size : N }.

Definition num_slots (a : arr) : N := array_len a * BUCKET_LEN.

(** bucket_array.rs L122-124. *)
Definition minimum_capacity_const : N := BUCKET_LEN * 2.

(** [BucketArray::new], bucket_array.rs L29-97, without the two allocations.
    [None] = panic: overflow, or the failed [assert_eq!] of L39. *)
Definition arr_new (capacity : N) : option arr :=
  olet p := next_power_of_two (N.min capacity (2 ^ 62)) in
  let adjusted_capacity := N.max p minimum_capacity_const in
  let len := adjusted_capacity / BUCKET_LEN in
  let log2_len := trailing_zeros len in
  if negb (2 ^ log2_len =? len) then None else
  olet s := next_power_of_two log2_len in
  if 64 <? log2_len then None else
  Some {| array_len := len; hash_offset := 64 - log2_len; sample_size := s |}.

(** bucket_array.rs L114-118. *)
Definition bucket_index (a : arr) (hash : N) : N := N.shiftr hash (hash_offset a).

(** bucket_array.rs L135-137: [(hash as u8 & (sample_size - 1)) == 0]. *)
Definition initiate_sampling (a : arr) (hash : N) : bool :=
  N.land (hash mod 256) (sample_size a - 1) =? 0.

(** bucket_array.rs L184-189: byte size of the bucket array allocation, [sz] =
    [size_of::<Bucket<..>>()].  The multiplication is a plain [*]: it wraps in a release build
    ([wrapping = true]) and panics in a checked build. *)
Definition bucket_array_bytes (wrapping : bool) (sz len : N) : option N :=
  let total := (len + 1) * sz in
  if wrapping then Some (total mod two64) else chk total.

(** hash_table.rs L1666-1679. *)
Definition from_index_to_range (from_len to_len from_index : N) : N * N :=
  if from_len <? to_len then
    let ratio := to_len / from_len in
    let start_index := from_index * ratio in
    (start_index, start_index + ratio)
  else
    let ratio := from_len / to_len in
    let start_index := from_index / ratio in
    (start_index, start_index + 1).

(** hash_table.rs L207-220 [sample]: [lens] are the per-bucket entry counters.  [None] = a
    bucket index out of range. *)
Fixpoint sum_range (lens : list N) (start : N) (n : nat) : option N :=
  match n with
  | O => Some 0
  | S n' =>
      match nth_error lens (N.to_nat start) with
      | None => None
      | Some x => match sum_range lens (start + 1) n' with
                  | None => None
                  | Some r => Some (x + r)
                  end
      end
  end.

Definition sample (a : arr) (lens : list N) (sampling_index : N) : option N :=
  let s := sample_size a in
  let sample_1 := N.ldiff sampling_index (s - 1) in
  let sample_2 := if sample_1 =? 0 then array_len a - s else 0 in
  match sum_range lens sample_1 (N.to_nat s), sum_range lens sample_2 (N.to_nat s) with
  | Some x, Some y => Some ((x + y) * (array_len a / (s * 2)))
  | _, _ => None
  end.

(** The doubling loop of [try_resize], hash_table.rs L1363-1368.  [None] = out of fuel or
    overflow of [new_capacity *= 2]. *)
Fixpoint enlarge_loop (fuel : nat) (maximum est new_capacity : N) : option N :=
  if new_capacity / 2 <? est then
    if maximum <=? new_capacity then Some new_capacity
    else match fuel with
         | O => None
         | S f => olet c := chk (new_capacity * 2) in enlarge_loop f maximum est c
         end
  else Some new_capacity.

(** The new capacity computed by [try_resize], hash_table.rs L1349-1379.
    [capacity] = [current_array.num_slots()], [minimum] = [minimum_capacity()],
    [maximum] = [maximum_capacity()], [est] = the sampled estimate. *)
Definition resize_capacity (capacity minimum maximum est : N) : option N :=
  if (capacity <? minimum) || ((capacity / 16) * 13 <=? est) then
    if capacity =? maximum then Some capacity
    else olet p := next_power_of_two minimum in
         enlarge_loop 64 maximum est (N.max p capacity)
  else if est <=? capacity / 8 then
    olet d := chk (est * 2) in
    next_power_of_two (N.max (N.max d minimum) minimum_capacity_const)
  else Some capacity.

(** hash_table.rs L1381-1387: what [try_resize] does with it. *)
Inductive resize_action := RNothing | RDropTable | RResize (new_capacity : N).
Definition resize_decision (capacity minimum maximum est : N) : option resize_action :=
  olet nc := resize_capacity capacity minimum maximum est in
  let try_resize := negb (nc =? capacity) in
  let try_drop_table := (est =? 0) && (minimum =? 0) in
  Some (if negb try_resize && negb try_drop_table then RNothing
        else if try_drop_table then RDropTable
        else RResize nc).

(** hash_table.rs L1433-1441. *)
Definition capacity_from_size_hint (lower : N) (upper : option N) : option N :=
  chk (N.min (match upper with Some u => u | None => lower end) (2 ^ 62) / 4 * 5).

(** hash_map.rs L206-227 / hash_index.rs L176-199: [None] = panic, [Some None] = no table
    allocated. *)
Definition with_capacity (capacity : N) : option (option arr) :=
  if capacity =? 0 then Some None
  else match arr_new capacity with Some a => Some (Some a) | None => None end.

(** [minimum_capacity] right after construction (hash_map.rs L216, hash_cache.rs L183). *)
Definition initial_minimum (t : option arr) : N :=
  match t with None => 0 | Some a => num_slots a end.

(** hash_cache.rs L169-197: table and maximum capacity. *)
Definition cache_with_capacity (minimum maximum : N) : option (option arr * N) :=
  olet t := with_capacity minimum in
  olet m := next_power_of_two
              (N.min (N.max (N.max maximum (initial_minimum t)) minimum_capacity_const)
                     MAXIMUM_CAPACITY_LIMIT) in
  Some (t, m).

(** ** The minimum-capacity word: [reserve_capacity], [Reserve::drop], resize lock

    hash_table.rs L93-119 ([reserve_capacity]), hash_map.rs [reserve] (returns [None] iff the
    reserved amount is 0) and [Reserve::drop] ([fetch_sub(additional)]), hash_table.rs
    L1326-1342 (RESIZING bit).  The compare-exchange loop of [reserve_capacity] only commits
    when the word still has the value that was tested, so a successful iteration is one atomic
    step; likewise a failing test is one atomic read.  [word] is the raw [AtomicUsize];
    [guards] the amounts of live [Reserve] guards, newest first; [resizing] whether some thread
    is inside the critical section of [try_resize] (ghost).  [EvDrop i] drops the [i]-th live
    guard; an out-of-range [i] does nothing. *)
Record minst := { word : N; guards : list N; resizing : bool }.

Inductive minev :=
| EvReserve (additional : N)
| EvDrop (i : nat)
| EvResizeLock
| EvResizeUnlock.

(** Result of an event: [Some n] = a guard for [n] was created. *)
Definition masked (w : N) : N := N.ldiff w RESIZING.

Definition remove_nth {A} (i : nat) (l : list A) : list A := firstn i l ++ skipn (S i) l.

(** [None] = arithmetic overflow/underflow. *)
Definition min_step (maximum : N) (s : minst) (e : minev) : option (minst * option N) :=
  match e with
  | EvReserve n =>
      if maximum <? masked (word s) then None (* underflow of the subtraction, L97 *)
      else if maximum - masked (word s) <? n then Some (s, None)
      else
        olet w := chk (n + word s) in
        (* hash_map.rs reserve: a guard is only built if the amount is not 0 *)
        if n =? 0 then Some ({| word := w; guards := guards s; resizing := resizing s |}, None)
        else Some ({| word := w; guards := n :: guards s; resizing := resizing s |}, Some n)
  | EvDrop i =>
      match nth_error (guards s) i with
      | None => Some (s, None)
      | Some n =>
          if word s <? n then None
          else Some ({| word := word s - n; guards := remove_nth i (guards s);
                        resizing := resizing s |}, None)
      end
  | EvResizeLock =>
      (* fetch_update: refused if the RESIZING bit is set *)
      if RESIZING <=? word s then Some (s, None)
      else olet w := chk (word s + RESIZING) in
           Some ({| word := w; guards := guards s; resizing := true |}, None)
  | EvResizeUnlock =>
      (* only the thread that holds the lock gets here *)
      if resizing s then
        if word s <? RESIZING then None
        else Some ({| word := word s - RESIZING; guards := guards s; resizing := false |}, None)
      else Some (s, None)
  end.

Fixpoint min_run (maximum : N) (s : minst) (es : list minev) : option minst :=
  match es with
  | [] => Some s
  | e :: es' => match min_step maximum s e with
                | None => None
                | Some (s', _) => min_run maximum s' es'
                end
  end.

(** [minimum_capacity()], hash_table.rs L78-80: the RESIZING bit is masked off. *)
Definition minimum_capacity (s : minst) : N := masked (word s).

(** [capacity_range()], hash_map.rs L1459-1461, hash_index.rs L1114-1116,
    hash_cache.rs L1156-1158: the raw word is loaded, without masking. *)
Definition capacity_range (maximum : N) (s : minst) : N * N := (word s, maximum).
