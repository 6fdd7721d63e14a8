(** Facts about the capacity arithmetic. *)
From Coq Require Import NArith ZArith Bool List Lia ZifyBool ZifyNat ZifyN.
From Verif Require Import CapModel.
Import ListNotations.
Local Open Scope N_scope.

Lemma chk_some x : x < two64 -> chk x = Some x.
Proof. intros H. unfold chk. destruct (N.ltb_spec x two64); [reflexivity|lia]. Qed.
Lemma chk_inv x y : chk x = Some y -> y = x /\ x < two64.
Proof. unfold chk. destruct (N.ltb_spec x two64); intros E; inversion E; subst; split; auto. Qed.

Lemma pow2_pos k : 0 < 2 ^ k.
Proof. apply N.neq_0_lt_0, N.pow_nonzero. discriminate. Qed.

Lemma pow2_lt a b : a < b -> 2 ^ a < 2 ^ b.
Proof. intros; apply N.pow_lt_mono_r; lia. Qed.
Lemma pow2_le a b : a <= b -> 2 ^ a <= 2 ^ b.
Proof. intros; apply N.pow_le_mono_r; lia. Qed.
Lemma pow2_lt_inv a b : 2 ^ a < 2 ^ b -> a < b.
Proof. intros H. destruct (N.lt_ge_cases a b) as [L|L]; [exact L|].
  apply pow2_le in L. lia. Qed.
Lemma pow2_le_inv a b : 2 ^ a <= 2 ^ b -> a <= b.
Proof. intros H. destruct (N.le_gt_cases a b) as [L|L]; [exact L|].
  apply pow2_lt in L. lia. Qed.
Lemma pow2_inj a b : 2 ^ a = 2 ^ b -> a = b.
Proof. intros H. apply N.le_antisymm; apply pow2_le_inv; lia. Qed.

Lemma log2_up_spec n : 1 < n -> 2 ^ N.log2_up n < 2 * n /\ n <= 2 ^ N.log2_up n.
Proof.
  intros H. pose proof (N.log2_up_spec n H) as [A B]. split; [|exact B].
  replace (N.log2_up n) with (N.succ (N.pred (N.log2_up n))).
  - rewrite N.pow_succ_r'. lia.
  - apply N.succ_pred. pose proof (N.log2_up_pos n H). lia.
Qed.

(** Specification of [next_power_of_two]. *)
Lemma npo2_spec n : n <= 2 ^ 63 ->
  exists k, next_power_of_two n = Some (2 ^ k) /\ n <= 2 ^ k /\ (2 ^ k < 2 * n \/ (n <= 1 /\ k = 0))
            /\ k <= 63.
Proof.
  intros H. exists (N.log2_up n). unfold next_power_of_two.
  assert (K : N.log2_up n <= 63).
  { replace 63 with (N.log2_up (2 ^ 63)) by reflexivity. now apply N.log2_up_le_mono. }
  repeat split.
  - apply chk_some. apply pow2_lt. lia.
  - destruct (N.le_gt_cases n 1) as [L|L]; [|now apply log2_up_spec].
    pose proof (pow2_pos (N.log2_up n)). lia.
  - destruct (N.le_gt_cases n 1) as [L|L].
    + right. split; [exact L|]. apply N.log2_up_eqn0; exact L.
    + left. now apply log2_up_spec.
  - exact K.
Qed.

Lemma npo2_least n k j : n <= 2 ^ 63 -> next_power_of_two n = Some (2 ^ k) -> n <= 2 ^ j -> k <= j.
Proof.
  intros H E L. destruct (npo2_spec n H) as (k' & E' & _ & C & _).
  rewrite E in E'. injection E' as E'. apply pow2_inj in E'. subst k'.
  destruct C as [C|[_ ->]]; [|lia].
  assert (X : 2 ^ k < 2 ^ (N.succ j)) by (rewrite N.pow_succ_r'; lia).
  apply pow2_lt_inv in X. lia.
Qed.

Lemma npo2_pow2 k : k <= 63 -> next_power_of_two (2 ^ k) = Some (2 ^ k).
Proof.
  intros H. unfold next_power_of_two. rewrite N.log2_up_pow2 by lia.
  apply chk_some, pow2_lt. lia.
Qed.

Lemma trailing_zeros_pow2 k : trailing_zeros (2 ^ k) = k.
Proof.
  induction k as [|k IH] using N.peano_ind; [reflexivity|].
  rewrite N.pow_succ_r'. pose proof (pow2_pos k) as P.
  destruct (2 ^ k) as [|p] eqn:E; [lia|].
  change (2 * N.pos p) with (N.pos (xO p)).
  cbn [trailing_zeros ctz_pos]. cbn [trailing_zeros] in IH. rewrite IH. lia.
Qed.

Lemma two64_eq : two64 = 2 ^ 64. Proof. reflexivity. Qed.

(** ** BucketArray::new *)
Lemma arr_new_spec c :
  exists k s,
    arr_new c = Some {| array_len := 2 ^ k; hash_offset := 64 - k; sample_size := 2 ^ s |}
    /\ 1 <= k <= 57
    /\ N.min c (2 ^ 62) <= 2 ^ (k + 5)
    /\ (2 ^ (k + 5) < 2 * c \/ k = 1)
    /\ k <= 2 ^ s /\ 2 ^ s < 2 * k /\ s <= 6.
Proof.
  destruct (npo2_spec (N.min c (2 ^ 62))) as (p & E & L & U & K).
  { pose proof (N.le_min_r c (2 ^ 62)) as X.
    assert (2 ^ 62 <= 2 ^ 63) by (apply pow2_le; lia). lia. }
  assert (K62 : p <= 62).
  { eapply npo2_least with (n := N.min c (2 ^ 62)); [|exact E|].
    - pose proof (N.le_min_r c (2 ^ 62)) as X.
      assert (2 ^ 62 <= 2 ^ 63) by (apply pow2_le; lia). lia.
    - apply N.le_min_r. }
  assert (M : N.max (2 ^ p) minimum_capacity_const = 2 ^ (N.max p 6)).
  { unfold minimum_capacity_const, BUCKET_LEN. change (32 * 2) with (2 ^ 6).
    destruct (N.max_spec p 6) as [[A ->]|[A ->]].
    - apply N.max_r. apply pow2_le. lia.
    - apply N.max_l. apply pow2_le. lia. }
  set (k := N.max p 6 - 5).
  assert (D : 2 ^ N.max p 6 / BUCKET_LEN = 2 ^ k).
  { unfold BUCKET_LEN, k. change 32 with (2 ^ 5).
    rewrite <- N.pow_sub_r by (try discriminate; lia). reflexivity. }
  destruct (npo2_spec k) as (s & Es & Ls & Us & Ks).
  { unfold k. assert (2 ^ 6 <= 2 ^ 63) by (apply pow2_le; lia). change (2^6) with 64 in *. lia. }
  exists k, s.
  unfold arr_new. rewrite E. cbn [obind]. rewrite M, D, trailing_zeros_pow2, N.eqb_refl.
  cbn [negb]. rewrite Es. cbn [obind].
  assert (Kr : 1 <= k <= 57) by (unfold k; lia).
  destruct (N.ltb_spec 64 k); [lia|].
  split; [reflexivity|]. split; [exact Kr|].
  assert (K5 : k + 5 = N.max p 6) by (unfold k; lia).
  rewrite K5. split; [|split; [|split; [|split]]].
  - etransitivity; [exact L|]. apply pow2_le. lia.
  - destruct (N.max_spec p 6) as [[A B]|[A B]]; rewrite B.
    + right. unfold k. lia.
    + destruct U as [U|[U1 U2]].
      * left. lia.
      * right. subst p. unfold k. lia.
  - exact Ls.
  - destruct Us as [Us|[U1 ->]]; [exact Us|]. change (2 ^ 0) with 1. lia.
  - eapply npo2_least with (n := k); [|exact Es|].
    + assert (2 ^ 6 <= 2 ^ 63) by (apply pow2_le; lia). change (2^6) with 64 in *. lia.
    + change (2^6) with 64. lia.
Qed.

(** Any array that can exist. *)
Definition wf_arr (a : arr) : Prop :=
  exists k s, a = {| array_len := 2 ^ k; hash_offset := 64 - k; sample_size := 2 ^ s |}
    /\ 1 <= k <= 57 /\ k <= 2 ^ s /\ 2 ^ s < 2 * k /\ s <= 6.

Lemma arr_new_wf c a : arr_new c = Some a -> wf_arr a.
Proof.
  intros E. destruct (arr_new_spec c) as (k & s & E' & K & _ & _ & A & B & C).
  rewrite E in E'. inversion E'; subst. exists k, s. auto.
Qed.

Lemma capacity_rounding c :
  exists a, arr_new c = Some a /\
    (exists k, num_slots a = 2 ^ k) /\
    64 <= num_slots a <= 2 ^ 62 /\
    N.min c (2 ^ 62) <= num_slots a /\ num_slots a < 2 * N.max c 64.
Proof.
  destruct (arr_new_spec c) as (k & s & E & K & L & U & _).
  eexists. split; [exact E|]. unfold num_slots. cbn [array_len].
  assert (X : 2 ^ k * BUCKET_LEN = 2 ^ (k + 5)).
  { unfold BUCKET_LEN. rewrite N.pow_add_r. reflexivity. }
  rewrite X. split; [eauto|].
  assert (64 <= 2 ^ (k + 5)) by (change 64 with (2 ^ 6); apply pow2_le; lia).
  assert (2 ^ (k + 5) <= 2 ^ 62) by (apply pow2_le; lia).
  split; [lia|]. split; [exact L|].
  destruct U as [U| ->]; [lia|]. change (2 ^ (1 + 5)) with 64. lia.
Qed.

(** ** bucket_index *)
Lemma bucket_index_div a h : bucket_index a h = h / 2 ^ hash_offset a.
Proof. unfold bucket_index. apply N.shiftr_div_pow2. Qed.

Lemma pow_split k : k <= 64 -> two64 = 2 ^ k * 2 ^ (64 - k).
Proof. intros H. rewrite two64_eq, <- N.pow_add_r. f_equal. lia. Qed.

Lemma bucket_index_lt a h : wf_arr a -> h < two64 -> bucket_index a h < array_len a.
Proof.
  intros (k & s & -> & K & _) H. rewrite bucket_index_div. cbn [hash_offset array_len].
  apply N.div_lt_upper_bound; [apply N.pow_nonzero; discriminate|].
  rewrite N.mul_comm, <- pow_split by lia. exact H.
Qed.

Lemma bucket_index_mono a h1 h2 : h1 <= h2 -> bucket_index a h1 <= bucket_index a h2.
Proof. intros H. rewrite !bucket_index_div. apply N.div_le_mono; [apply N.pow_nonzero; discriminate|exact H]. Qed.

Lemma bucket_index_surj a i : wf_arr a -> i < array_len a ->
  exists h, h < two64 /\ bucket_index a h = i.
Proof.
  intros (k & s & -> & K & _) H. cbn [array_len] in H. exists (i * 2 ^ (64 - k)). split.
  - rewrite (pow_split k) by lia. apply N.mul_lt_mono_pos_r; [apply pow2_pos|exact H].
  - rewrite bucket_index_div. cbn [hash_offset]. apply N.div_mul, N.pow_nonzero. discriminate.
Qed.

(** ** from_index_to_range *)
Lemma range_contains_index a b h :
  wf_arr a -> wf_arr b -> h < two64 ->
  let '(s, e) := from_index_to_range (array_len a) (array_len b) (bucket_index a h) in
  s <= bucket_index b h < e /\ e <= array_len b.
Proof.
  intros (ka & sa & -> & Ka & _) (kb & sb & -> & Kb & _) H.
  rewrite !bucket_index_div. cbn [array_len hash_offset]. unfold from_index_to_range.
  destruct (N.ltb_spec (2 ^ ka) (2 ^ kb)) as [L|L].
  - apply pow2_lt_inv in L.
    rewrite <- N.pow_sub_r by (try discriminate; lia).
    assert (E : 2 ^ (64 - ka) = 2 ^ (64 - kb) * 2 ^ (kb - ka)).
    { rewrite <- N.pow_add_r. f_equal. lia. }
    set (d := 2 ^ (64 - kb)) in *. set (r := 2 ^ (kb - ka)) in *.
    assert (Hd : d <> 0) by (apply N.pow_nonzero; discriminate).
    assert (Hr : r <> 0) by (apply N.pow_nonzero; discriminate).
    rewrite E. rewrite <- N.div_div by assumption.
    set (q := h / d).
    pose proof (N.div_mod q r Hr) as DM. pose proof (N.mod_lt q r Hr) as ML.
    assert (Q : q / r < 2 ^ ka).
    { unfold q. rewrite N.div_div by assumption. rewrite <- E.
      apply N.div_lt_upper_bound; [apply N.pow_nonzero; discriminate|].
      rewrite N.mul_comm, <- pow_split by lia. exact H. }
    assert (R : 2 ^ ka * r = 2 ^ kb).
    { unfold r. rewrite <- N.pow_add_r. f_equal. lia. }
    split; [split; nia|]. rewrite <- R. nia.
  - apply pow2_le_inv in L.
    rewrite <- N.pow_sub_r by (try discriminate; lia).
    assert (E : 2 ^ (64 - kb) = 2 ^ (64 - ka) * 2 ^ (ka - kb)).
    { rewrite <- N.pow_add_r. f_equal. lia. }
    set (d := 2 ^ (64 - ka)) in *. set (r := 2 ^ (ka - kb)) in *.
    assert (Hd : d <> 0) by (apply N.pow_nonzero; discriminate).
    assert (Hr : r <> 0) by (apply N.pow_nonzero; discriminate).
    rewrite E, <- N.div_div by assumption.
    assert (Q : h / d / r < 2 ^ kb).
    { rewrite N.div_div by assumption. rewrite <- E.
      apply N.div_lt_upper_bound; [apply N.pow_nonzero; discriminate|].
      rewrite N.mul_comm, <- pow_split by lia. exact H. }
    lia.
Qed.

(** Tightness: every bucket of the range is needed. *)
Lemma range_tight a b i j :
  wf_arr a -> wf_arr b -> i < array_len a ->
  (let '(s, e) := from_index_to_range (array_len a) (array_len b) i in s <= j < e) ->
  exists h, h < two64 /\ bucket_index a h = i /\ bucket_index b h = j.
Proof.
  intros (ka & sa & -> & Ka & _) (kb & sb & -> & Kb & _) H.
  cbn [array_len hash_offset] in *. unfold from_index_to_range.
  destruct (N.ltb_spec (2 ^ ka) (2 ^ kb)) as [L|L].
  - apply pow2_lt_inv in L.
    rewrite <- N.pow_sub_r by (try discriminate; lia). intros J.
    exists (j * 2 ^ (64 - kb)).
    assert (R : 2 ^ ka * 2 ^ (kb - ka) = 2 ^ kb).
    { rewrite <- N.pow_add_r. f_equal. lia. }
    assert (E : 2 ^ (64 - ka) = 2 ^ (64 - kb) * 2 ^ (kb - ka)).
    { rewrite <- N.pow_add_r. f_equal. lia. }
    set (r := 2 ^ (kb - ka)) in *.
    assert (Hr : r <> 0) by (apply N.pow_nonzero; discriminate).
    assert (Hd : 2 ^ (64 - kb) <> 0) by (apply N.pow_nonzero; discriminate).
    assert (JL : j < 2 ^ kb) by (rewrite <- R; nia).
    split; [|split].
    + rewrite (pow_split kb) by lia. apply N.mul_lt_mono_pos_r; [apply pow2_pos|exact JL].
    + rewrite bucket_index_div. cbn [hash_offset].
      rewrite E, <- N.div_div, N.div_mul by assumption.
      symmetry. apply N.div_unique with (r := j - i * r); lia.
    + rewrite bucket_index_div. cbn [hash_offset]. apply N.div_mul. exact Hd.
  - apply pow2_le_inv in L.
    rewrite <- N.pow_sub_r by (try discriminate; lia). intros J.
    exists (i * 2 ^ (64 - ka)).
    assert (E : 2 ^ (64 - kb) = 2 ^ (64 - ka) * 2 ^ (ka - kb)).
    { rewrite <- N.pow_add_r. f_equal. lia. }
    set (r := 2 ^ (ka - kb)) in *.
    assert (Hr : r <> 0) by (apply N.pow_nonzero; discriminate).
    assert (Hd : 2 ^ (64 - ka) <> 0) by (apply N.pow_nonzero; discriminate).
    split; [|split].
    + rewrite (pow_split ka) by lia. apply N.mul_lt_mono_pos_r; [apply pow2_pos|exact H].
    + rewrite bucket_index_div. cbn [hash_offset]. now apply N.div_mul.
    + rewrite bucket_index_div. cbn [hash_offset].
      rewrite E, <- N.div_div, N.div_mul by assumption. lia.
Qed.

(** ** sampling *)
Lemma sum_range_some lens n : forall start,
  start + N.of_nat n <= N.of_nat (length lens) ->
  forall lo hi, Forall (fun x => lo <= x <= hi) lens ->
  exists v, sum_range lens start n = Some v /\ lo * N.of_nat n <= v <= hi * N.of_nat n.
Proof.
  induction n as [|n IH]; intros start H lo hi F; cbn [sum_range].
  - exists 0. split; [reflexivity|]. lia.
  - destruct (nth_error lens (N.to_nat start)) as [x|] eqn:E.
    + assert (X : lo <= x <= hi).
      { rewrite Forall_forall in F. apply F. eapply nth_error_In; eauto. }
      destruct (IH (start + 1) ltac:(lia) lo hi F) as (v & -> & V).
      exists (x + v). split; [reflexivity|]. lia.
    + apply nth_error_None in E. lia.
Qed.

Lemma pow2_sample k s : 1 <= k -> 2 ^ s < 2 * k -> s + 1 <= k.
Proof.
  intros K C.
  destruct (N.le_gt_cases (s + 1) k) as [X|X]; [exact X|].
  assert (Y : 2 * k <= 2 ^ k).
  { clear - K. replace k with (N.succ (N.pred k)) by lia. generalize (N.pred k) as m. clear.
    intros m. induction m as [|m IH] using N.peano_ind; [vm_compute; discriminate|].
    rewrite N.pow_succ_r'. lia. }
  assert (2 ^ k <= 2 ^ s) by (apply pow2_le; lia). lia.
Qed.

Lemma ldiff_ones_mul n s : N.ldiff n (2 ^ s - 1) = (n / 2 ^ s) * 2 ^ s.
Proof.
  replace (2 ^ s - 1) with (N.ones s) by (rewrite N.ones_equiv; lia).
  rewrite N.ldiff_ones_r, N.shiftl_mul_pow2, N.shiftr_div_pow2. reflexivity.
Qed.

(** The sampled estimate lies between [len] times the smallest and the largest bucket
    population, and no bucket index is out of range. *)
Lemma sample_bounds a lens i lo hi :
  wf_arr a -> N.of_nat (length lens) = array_len a -> i < array_len a ->
  Forall (fun x => lo <= x <= hi) lens ->
  exists v, sample a lens i = Some v /\ lo * array_len a <= v <= hi * array_len a.
Proof.
  intros (k & s & -> & K & A & B & C) L I F. cbn [array_len sample_size] in *.
  pose proof (pow2_sample k s ltac:(lia) B) as SK.
  assert (HS : 2 ^ s <> 0) by (apply N.pow_nonzero; discriminate).
  assert (R : 2 ^ k = 2 ^ (k - s) * 2 ^ s) by (rewrite <- N.pow_add_r; f_equal; lia).
  assert (R2 : 2 ^ k = 2 ^ (k - s - 1) * (2 ^ s * 2)).
  { rewrite (N.mul_comm (2 ^ s)). change 2 with (2 ^ 1) at 3. rewrite <- !N.pow_add_r.
    f_equal. lia. }
  unfold sample. cbn [array_len sample_size]. rewrite ldiff_ones_mul.
  set (q := i / 2 ^ s).
  assert (Q : q < 2 ^ (k - s)).
  { unfold q. apply N.div_lt_upper_bound; [exact HS|]. rewrite N.mul_comm, <- R. exact I. }
  assert (S2 : 2 ^ s <= 2 ^ k) by (apply pow2_le; lia).
  destruct (sum_range_some lens (N.to_nat (2 ^ s)) (q * 2 ^ s)) with (lo := lo) (hi := hi)
    as (x & -> & X); [rewrite L, N2Nat.id; rewrite R; nia|exact F|].
  assert (B2 : (if q * 2 ^ s =? 0 then 2 ^ k - 2 ^ s else 0) + 2 ^ s <= 2 ^ k).
  { destruct (q * 2 ^ s =? 0); lia. }
  destruct (sum_range_some lens (N.to_nat (2 ^ s))
             (if q * 2 ^ s =? 0 then 2 ^ k - 2 ^ s else 0)) with (lo := lo) (hi := hi)
    as (y & -> & Y); [rewrite L, N2Nat.id; exact B2|exact F|].
  eexists. split; [reflexivity|].
  rewrite N2Nat.id in X, Y.
  assert (D : 2 ^ k / (2 ^ s * 2) = 2 ^ (k - s - 1)).
  { rewrite R2 at 1. apply N.div_mul. lia. }
  rewrite D. rewrite R2.
  set (m := 2 ^ (k - s - 1)). set (t := 2 ^ s) in *.
  split; nia.
Qed.

(** ** resizing *)
Lemma half_pow2 k : 1 <= k -> 2 ^ k / 2 = 2 ^ (k - 1).
Proof.
  intros H. replace k with (N.succ (k - 1)) at 1 by lia.
  rewrite N.pow_succ_r', N.mul_comm, N.div_mul by discriminate. reflexivity.
Qed.

Lemma enlarge_loop_spec fuel : forall mx est c,
  mx <= 62 -> 1 <= c <= mx -> (N.to_nat (mx - c) <= fuel)%nat ->
  exists c', enlarge_loop fuel (2 ^ mx) est (2 ^ c) = Some (2 ^ c') /\ c <= c' <= mx /\
    (2 * est <= 2 ^ c' \/ c' = mx) /\ (c' = c \/ 2 ^ c' < 4 * est).
Proof.
  induction fuel as [|f IH]; intros mx est c M C Fu; cbn [enlarge_loop].
  - rewrite half_pow2 by lia.
    destruct (N.ltb_spec (2 ^ (c - 1)) est) as [L|L].
    + assert (c = mx) by lia. subst c.
      destruct (N.leb_spec (2 ^ mx) (2 ^ mx)); [|lia].
      exists mx. repeat split; lia.
    + assert (X : 2 ^ c = 2 * 2 ^ (c - 1))
        by (replace c with (N.succ (c - 1)) at 1 by lia; apply N.pow_succ_r').
      exists c. split; [reflexivity|]. split; [lia|]. split; [left; lia|left; reflexivity].
  - rewrite half_pow2 by lia.
    destruct (N.ltb_spec (2 ^ (c - 1)) est) as [L|L].
    + destruct (N.leb_spec (2 ^ mx) (2 ^ c)) as [X|X].
      * apply pow2_le_inv in X. assert (c = mx) by lia. subst c.
        exists mx. repeat split; lia.
      * apply pow2_lt_inv in X.
        assert (E2 : 2 ^ c * 2 = 2 ^ (c + 1)).
        { rewrite N.pow_add_r. reflexivity. }
        rewrite E2. rewrite chk_some by (apply pow2_lt; lia). cbn [obind].
        destruct (IH mx est (c + 1)) as (c' & -> & R1 & R2 & R3); [lia|lia|lia|].
        exists c'. split; [reflexivity|]. split; [lia|]. split; [exact R2|].
        right. destruct R3 as [->|R3]; [|exact R3].
        replace (c + 1) with (N.succ (N.succ (c - 1))) by lia.
        rewrite !N.pow_succ_r'. lia.
    + assert (X : 2 ^ c = 2 * 2 ^ (c - 1))
        by (replace c with (N.succ (c - 1)) at 1 by lia; apply N.pow_succ_r').
      exists c. split; [reflexivity|]. split; [lia|]. split; [left; lia|left; reflexivity].
Qed.

(** The whole decision.  [capacity = 2^c], [maximum = 2^mx]. *)
Lemma resize_capacity_spec c mx minimum est :
  6 <= c <= mx -> mx <= 62 -> minimum <= 2 ^ mx ->
  exists n, resize_capacity (2 ^ c) minimum (2 ^ mx) est = Some (2 ^ n) /\
    6 <= n <= mx /\ minimum <= 2 ^ n /\
    (* growing *)
    (c < n -> 2 ^ c < minimum \/ 2 ^ c / 16 * 13 <= est) /\
    (* a grown or kept-because-full table is large enough for twice the estimate or maximal *)
    (2 ^ c / 16 * 13 <= est -> 2 * est <= 2 ^ n \/ n = mx) /\
    (* shrinking *)
    (n < c -> est <= 2 ^ c / 8 /\ 2 * est <= 2 ^ n) /\
    (* progress: a table that is too small or too full grows unless it is maximal *)
    ((2 ^ c < minimum \/ 2 ^ c / 16 * 13 <= est) -> c < mx -> c < n).
Proof.
  intros C MX MIN.
  assert (C8 : 2 ^ c / 8 = 2 ^ (c - 3)).
  { change 8 with (2 ^ 3). rewrite <- N.pow_sub_r by (try discriminate; lia). reflexivity. }
  assert (C16 : 2 ^ c / 16 = 2 ^ (c - 4)).
  { change 16 with (2 ^ 4). rewrite <- N.pow_sub_r by (try discriminate; lia). reflexivity. }
  assert (P4 : 2 ^ c = 16 * 2 ^ (c - 4)).
  { change 16 with (2 ^ 4). rewrite <- N.pow_add_r. f_equal. lia. }
  assert (P3 : 2 ^ (c - 3) = 2 * 2 ^ (c - 4)).
  { replace (c - 3) with (N.succ (c - 4)) by lia. apply N.pow_succ_r'. }
  pose proof (pow2_pos (c - 4)) as PP.
  assert (MIN63 : minimum <= 2 ^ 63).
  { etransitivity; [exact MIN|]. apply pow2_le. lia. }
  destruct (npo2_spec minimum MIN63) as (m & Em & Lm & Um & Km).
  assert (MM : m <= mx) by (eapply npo2_least; eauto).
  unfold resize_capacity. rewrite C8, C16.
  destruct (N.ltb_spec (2 ^ c) minimum) as [LM|LM];
  destruct (N.leb_spec (2 ^ (c - 4) * 13) est) as [LF|LF]; cbn [orb].
  - (* below minimum and full *)
    destruct (N.eqb_spec (2 ^ c) (2 ^ mx)) as [E|E].
    + apply pow2_inj in E. subst mx. lia.
    + rewrite Em. cbn [obind].
      assert (CM : c < m).
      { destruct (N.lt_ge_cases c m) as [X|X]; [exact X|]. apply pow2_le in X. lia. }
      rewrite N.max_l by (apply pow2_le; lia).
      destruct (enlarge_loop_spec 64 mx est m) as (n & -> & R1 & R2 & R3); [lia|lia|lia|].
      exists n. split; [reflexivity|]. repeat split; try lia.
      etransitivity; [exact Lm|]. apply pow2_le. lia.
  - destruct (N.eqb_spec (2 ^ c) (2 ^ mx)) as [E|E].
    + apply pow2_inj in E. subst mx. lia.
    + rewrite Em. cbn [obind].
      assert (CM : c < m).
      { destruct (N.lt_ge_cases c m) as [X|X]; [exact X|]. apply pow2_le in X. lia. }
      rewrite N.max_l by (apply pow2_le; lia).
      destruct (enlarge_loop_spec 64 mx est m) as (n & -> & R1 & R2 & R3); [lia|lia|lia|].
      exists n. split; [reflexivity|]. repeat split; try lia.
      etransitivity; [exact Lm|]. apply pow2_le. lia.
  - destruct (N.eqb_spec (2 ^ c) (2 ^ mx)) as [E|E].
    + apply pow2_inj in E. subst mx. exists c. split; [reflexivity|].
      repeat split; try lia.
    + assert (CX : c < mx).
      { destruct (N.lt_ge_cases c mx) as [X|X]; [exact X|]. exfalso. apply E. f_equal. lia. }
      rewrite Em. cbn [obind].
      assert (MC : m <= c).
      { eapply npo2_least; [|exact Em|]; [exact MIN63|exact LM]. }
      rewrite N.max_r by (apply pow2_le; lia).
      destruct (enlarge_loop_spec 64 mx est c) as (n & -> & R1 & R2 & R3); [lia|lia|lia|].
      assert (NC : c < n).
      { destruct (N.eq_dec n c) as [->|]; [|lia]. destruct R2 as [R2| ->]; [|lia].
        lia. }
      exists n. split; [reflexivity|]. repeat split; try lia.
      etransitivity; [exact LM|]. apply pow2_le. lia.
  - destruct (N.leb_spec est (2 ^ (c - 3))) as [LE|LE].
    + assert (EST : est < 2 ^ 63).
      { assert (2 ^ (c - 3) < 2 ^ 63) by (apply pow2_lt; lia). lia. }
      rewrite chk_some by (rewrite two64_eq; change (2 ^ 64) with (2 ^ 63 * 2); lia).
      cbn [obind]. set (w := N.max (N.max (est * 2) minimum) minimum_capacity_const).
      assert (W : w <= 2 ^ c).
      { unfold w, minimum_capacity_const, BUCKET_LEN.
        assert (2 ^ 6 <= 2 ^ c) by (apply pow2_le; lia). change (2 ^ 6) with 64 in *. lia. }
      assert (W63 : w <= 2 ^ 63).
      { etransitivity; [exact W|]. apply pow2_le. lia. }
      destruct (npo2_spec w W63) as (n & En & Ln & Un & Kn).
      assert (NC : n <= c) by (eapply npo2_least; eauto).
      assert (N6 : 6 <= n).
      { apply pow2_le_inv. change (2 ^ 6) with 64. etransitivity; [|exact Ln].
        unfold w, minimum_capacity_const, BUCKET_LEN. lia. }
      rewrite En. exists n. split; [reflexivity|].
      assert (est * 2 <= w /\ minimum <= w) by (unfold w; lia).
      repeat split; try lia.
    + exists c. split; [reflexivity|]. repeat split; try lia.
Qed.

(** ** size hints *)
Lemma size_hint_spec lower upper :
  let n := match upper with Some u => u | None => lower end in
  exists c, capacity_from_size_hint lower upper = Some c /\
    c <= 5 * 2 ^ 60 /\ (c = 0 <-> n < 4) /\
    (forall a, c <> 0 -> arr_new c = Some a -> N.min n (2 ^ 62) <= num_slots a).
Proof.
  cbn zeta. set (n := match upper with Some u => u | None => lower end).
  unfold capacity_from_size_hint. fold n.
  set (m := N.min n (2 ^ 62)).
  assert (M : m <= 4 * 2 ^ 60).
  { unfold m. change (4 * 2 ^ 60) with (2 ^ 62). apply N.le_min_r. }
  pose proof (N.div_mod m 4 ltac:(discriminate)) as DM.
  pose proof (N.mod_lt m 4 ltac:(discriminate)) as ML.
  assert (B : m / 4 <= 2 ^ 60) by lia.
  rewrite chk_some.
  2:{ rewrite two64_eq. change (2 ^ 64) with (16 * 2 ^ 60). lia. }
  eexists. split; [reflexivity|]. split; [lia|]. split.
  - assert (n < 4 <-> m < 4).
    { unfold m. pose proof (N.min_spec n (2 ^ 62)) as [[A1 A2]|[A1 A2]]; rewrite A2; [tauto|].
      assert (4 <= 2 ^ 62) by (vm_compute; discriminate). lia. }
    rewrite H. lia.
  - intros a C E. destruct (capacity_rounding (m / 4 * 5)) as (a' & E' & _ & R & S & _).
    rewrite E in E'. injection E' as <-.
    destruct (N.le_gt_cases m 64) as [X|X].
    + lia.
    + assert (m <= m / 4 * 5) by lia.
      assert (m <= 2 ^ 62) by (unfold m; apply N.le_min_r). lia.
Qed.

(** ** minimum capacity word *)
Lemma masked_small w : w < RESIZING -> masked w = w.
Proof.
  intros H. unfold masked, RESIZING in *. apply N.bits_inj. intros i.
  rewrite N.ldiff_spec, N.pow2_bits_eqb.
  destruct (N.eqb_spec 63 i) as [<-|]; [|now rewrite andb_true_r].
  cbn [negb]. rewrite andb_false_r. symmetry.
  destruct (N.eq_dec w 0) as [->|Z]; [apply N.bits_0|].
  apply N.bits_above_log2, N.log2_lt_pow2; lia.
Qed.

Lemma masked_big w : RESIZING <= w < two64 -> masked w = w - RESIZING.
Proof.
  intros H. unfold masked, RESIZING, two64 in *.
  assert (E : w = 2 ^ 63 + (w - 2 ^ 63)) by lia.
  set (v := w - 2 ^ 63) in *.
  assert (V : v < 2 ^ 63) by (change (2 ^ 64) with (2 ^ 63 + 2 ^ 63) in H; lia).
  assert (D : N.land (2 ^ 63) v = 0).
  { apply N.bits_inj. intros i. rewrite N.land_spec, N.pow2_bits_eqb, N.bits_0.
    destruct (N.eqb_spec 63 i) as [<-|]; [|reflexivity]. cbn [andb].
    destruct (N.eq_dec v 0) as [->|Z]; [apply N.bits_0|].
    apply N.bits_above_log2, N.log2_lt_pow2; lia. }
  rewrite E. rewrite (N.add_nocarry_lxor _ _ D).
  replace (N.lxor (2 ^ 63) v) with (N.lor (2 ^ 63) v).
  2:{ symmetry. rewrite N.lxor_lor by exact D. reflexivity. }
  apply N.bits_inj. intros i. rewrite N.ldiff_spec, N.lor_spec, N.pow2_bits_eqb.
  destruct (N.eqb_spec 63 i) as [<-|]; cbn [orb negb]; [|now rewrite andb_true_r].
  rewrite andb_false_r. symmetry.
  destruct (N.eq_dec v 0) as [->|Z]; [apply N.bits_0|].
  apply N.bits_above_log2, N.log2_lt_pow2; lia.
Qed.

Fixpoint sumN (l : list N) : N := match l with [] => 0 | x :: r => x + sumN r end.

Lemma sumN_app l1 l2 : sumN (l1 ++ l2) = sumN l1 + sumN l2.
Proof. induction l1 as [|x l1 IH]; cbn [sumN app]; lia. Qed.

Lemma sumN_remove_nth l : forall i x, nth_error l i = Some x ->
  sumN l = x + sumN (remove_nth i l).
Proof.
  unfold remove_nth. induction l as [|y l IH]; intros [|i] x E; cbn in E; try discriminate.
  - inversion E; subst. reflexivity.
  - cbn [firstn skipn sumN app]. specialize (IH i x E). cbn [skipn] in IH. lia.
Qed.

Definition min_inv (m0 maximum : N) (s : minst) : Prop :=
  word s = m0 + sumN (guards s) + (if resizing s then RESIZING else 0) /\
  m0 + sumN (guards s) <= maximum /\ Forall (fun x => x <> 0) (guards s).

Lemma min_inv_masked m0 mx s : mx <= 2 ^ 62 -> min_inv m0 mx s ->
  masked (word s) = m0 + sumN (guards s).
Proof.
  intros M (W & B & _). unfold RESIZING in *.
  assert (2 ^ 62 < 2 ^ 63) by (apply pow2_lt; lia).
  destruct (resizing s).
  - rewrite masked_big; unfold RESIZING in *; rewrite W; [lia|].
    unfold two64. change (2 ^ 64) with (2 ^ 63 + 2 ^ 63). lia.
  - rewrite masked_small; unfold RESIZING in *; lia.
Qed.

Lemma min_step_inv m0 mx s e : mx <= 2 ^ 62 -> min_inv m0 mx s ->
  exists s' r, min_step mx s e = Some (s', r) /\ min_inv m0 mx s' /\
    match e with
    | EvReserve n =>
        (r = Some n /\ guards s' = n :: guards s /\ n <> 0 /\ m0 + sumN (guards s) + n <= mx)
        \/ (r = None /\ s' = s /\ (n = 0 \/ mx < m0 + sumN (guards s) + n))
    | EvDrop i => r = None /\ guards s' = remove_nth i (guards s)
    | EvResizeLock => r = None /\ guards s' = guards s /\ resizing s' = true
    | EvResizeUnlock => r = None /\ guards s' = guards s /\ resizing s' = false
    end.
Proof.
  intros M I. pose proof (min_inv_masked _ _ _ M I) as MK. destruct I as (W & B & NZ).
  assert (P62 : 2 ^ 62 < 2 ^ 63) by (apply pow2_lt; lia).
  assert (P64 : two64 = 2 ^ 63 + 2 ^ 63) by reflexivity.
  unfold RESIZING in *.
  destruct e as [n|i| |]; cbn [min_step]; unfold RESIZING in *.
  - rewrite MK. destruct (N.ltb_spec mx (m0 + sumN (guards s))); [lia|].
    destruct (N.ltb_spec (mx - (m0 + sumN (guards s))) n) as [L|L].
    + exists s, None. split; [reflexivity|]. split; [split; [exact W|split; assumption]|].
      right. repeat split. right. lia.
    + rewrite chk_some by (rewrite W; destruct (resizing s); lia). cbn [obind].
      destruct (N.eqb_spec n 0) as [->|NZ0].
      * eexists _, None. split; [reflexivity|]. rewrite N.add_0_l.
        split; [split; [exact W|split; assumption]|].
        right. destruct s; repeat split. now left.
      * eexists _, (Some n). split; [reflexivity|]. unfold min_inv, RESIZING. cbn [word guards resizing sumN].
        split; [split; [lia|split; [lia|constructor; assumption]]|].
        left. repeat split; auto. lia.
  - destruct (nth_error (guards s) i) as [n|] eqn:E.
    + pose proof (sumN_remove_nth _ _ _ E) as SR.
      destruct (N.ltb_spec (word s) n); [lia|].
      eexists _, None. split; [reflexivity|]. unfold min_inv, RESIZING. cbn [word guards resizing].
      split; [|split; reflexivity].
      split; [lia|]. split; [lia|]. unfold remove_nth. apply Forall_app. split.
      * rewrite Forall_forall in *. intros x X. apply NZ.
        rewrite <- (firstn_skipn i (guards s)). apply in_or_app. now left.
      * rewrite Forall_forall in *. intros x X. apply NZ.
        rewrite <- (firstn_skipn (S i) (guards s)). apply in_or_app. now right.
    + exists s, None. split; [reflexivity|]. split; [split; [exact W|split; assumption]|].
      split; [reflexivity|]. unfold remove_nth. apply nth_error_None in E.
      rewrite firstn_all2, skipn_all2 by lia. symmetry. apply app_nil_r.
  - destruct (N.leb_spec (2 ^ 63) (word s)) as [L|L].
    + exists s, None. split; [reflexivity|]. split; [split; [exact W|split; assumption]|].
      repeat split. destruct (resizing s); [reflexivity|]. lia.
    + rewrite chk_some by lia. cbn [obind]. eexists _, None. split; [reflexivity|].
      unfold min_inv, RESIZING. cbn [word guards resizing].
      destruct (resizing s); [lia|]. split; [split; [lia|split; assumption]|]. now repeat split.
  - destruct (resizing s) eqn:R.
    + destruct (N.ltb_spec (word s) (2 ^ 63)); [lia|].
      eexists _, None. split; [reflexivity|]. unfold min_inv, RESIZING. cbn [word guards resizing].
      split; [split; [lia|split; assumption]|]. now repeat split.
    + exists s, None. split; [reflexivity|].
      split; [split; [rewrite R; exact W|split; assumption]|]. now repeat split.
Qed.

Lemma min_run_inv m0 mx es : forall s, mx <= 2 ^ 62 -> min_inv m0 mx s ->
  exists s', min_run mx s es = Some s' /\ min_inv m0 mx s'.
Proof.
  induction es as [|e es IH]; intros s M I; cbn [min_run].
  - eauto.
  - destruct (min_step_inv m0 mx s e M I) as (s' & r & -> & I' & _). now apply IH.
Qed.

(** ** allocation size *)
Lemma bucket_bytes_ok w sz a : wf_arr a -> sz <= 64 ->
  bucket_array_bytes w sz (array_len a) = Some ((array_len a + 1) * sz).
Proof.
  intros (k & s & -> & K & _) S. cbn [array_len].
  assert (L : (2 ^ k + 1) * sz < two64).
  { assert (2 ^ k <= 2 ^ 57) by (apply pow2_le; lia).
    assert (E : two64 = 128 * 2 ^ 57) by reflexivity.
    assert (64 < 2 ^ 57) by (vm_compute; reflexivity).
    nia. }
  unfold bucket_array_bytes. destruct w.
  - rewrite N.mod_small by exact L. reflexivity.
  - now apply chk_some.
Qed.
