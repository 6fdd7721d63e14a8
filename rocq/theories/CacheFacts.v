(** One HashCache bucket: what the operations do to slots and to the recency list. *)
From stdpp Require Import prelude list numbers.
From Coq Require Import NArith Lia.
From Verif Require Import LruModel LruFacts BucketModel BucketSpec BucketFacts BucketOps BucketOps2 BucketOps3
  BucketRunFacts MapSpec MapFacts TableModel CacheModel.

Section cache_facts.
Context {K V : Type} `{EqDecision K}.
Context (hash : K -> N).
Implicit Types (b : bucket K V) (bl : block K V) (p : eptr) (e : K * V).
Notation slot b := (live_at CACHE (main b)).

(** [r] is the recency list of [b], most recent slot first; it only mentions taken slots. *)
Definition tracks b (r : list nat) : Prop :=
  rep (bucket_lru b) r /\ forall i, i ∈ r -> tb (occ (main b)) i = true.

Lemma tracks_exists b : wf_bucket hash CACHE b -> exists r, tracks b r.
Proof. intros [_ WL]. by destruct (WL eq_refl) as (r & R & H); exists r. Qed.

Lemma slot_occ b i : wf_core hash CACHE b -> tb (occ (main b)) i = true <-> is_Some (slot b i).
Proof.
  intros W. split.
  - intros H. by apply (live_at_tb hash BUCKET_LEN); [apply W|].
  - intros [e H]. by apply live_tb in H.
Qed.
Lemma tracks_slot b r i : wf_core hash CACHE b -> tracks b r -> i ∈ r -> is_Some (slot b i).
Proof. intros W [_ T] Hi. apply (slot_occ _ _ W). by apply T. Qed.

(** The effect of evicting from a full main block. *)
Lemma evict_slots b r b' e : wf_bucket hash CACHE b -> rep (bucket_lru b) r -> occ (main b) = u32_max ->
  evict_lru_head b = Some (b', Some e) ->
  let i := default 0 (list.last r) in
  i < 32 /\ slot b i = Some e /\ links b' = links b /\ occ (main b') = N.ldiff u32_max (bit i) /\
  forall j, j <> i -> slot b' j = slot b j.
Proof.
  intros [W WL] R O. unfold evict_lru_head. rewrite O, N.eqb_refl.
  set (i := default 0 (list.last r)). cbn zeta.
  assert (Hi : i < 32).
  { unfold i. destruct (list.last r) eqn:El; cbn; [|lia]. eapply rep_lt; [done|].
    by apply last_Some_elem_of in El. }
  destruct (live_at_tb hash BUCKET_LEN CACHE (main b) i) as [x He].
  { apply W. } { cbn [live_bitmap]. rewrite O, tb_u32_max. by apply bool_decide_true. }
  destruct (dec_len (blen b)) as [n|]; [|done]. rewrite obind.
  destruct (lru_evict_spec _ _ R) as (s & Es & Rs). rewrite Es, obind. cbn [fst snd].
  destruct (with_lru_spec hash b s W) as (W1 & E1 & L1 & S1).
  set (b0 := with_lru b s) in *.
  replace (match list.last r with Some i => i | None => 0 end) with i by (unfold i; by destruct (list.last r)).
  assert (He0 : slot b0 i = Some x) by (by rewrite L1).
  rewrite (stored_data _ _ _ (live_stored _ _ _ _ He0)), obind, obind.
  intros [= <- <-]. cbn [main links occ].
  assert (O0 : occ (main b0) = u32_max) by exact O.
  destruct (clear_slot_spec hash CACHE BUCKET_LEN (main b0) i x) as (_ & _ & _ & L2 & _); [apply W1|done|].
  split; [done|]. split; [done|]. split; [done|]. split; [f_equal; exact O|].
  intros j Hj. rewrite L2 by done. apply L1.
Qed.

(** Insertion when the main block has a free slot. *)
Lemma insert_slots sg b hv e b' p d : wf_bucket hash CACHE b -> occ (main b) <> u32_max ->
  partial_hash hv = partial_hash (hash e.1) ->
  insert CACHE sg b hv e = Some (b', p, d) ->
  exists i, p = EPtr None (Some i) /\ i < 32 /\ links b' = links b /\ bucket_lru b' = bucket_lru b /\
    slot b i = None /\ slot b' i = Some e /\ (forall j, j <> i -> slot b' j = slot b j).
Proof.
  intros [W WL] O Hh. unfold insert, insert_clear.
  rewrite (bool_decide_false (CACHE = INDEX)) by done. cbn [andb]. rewrite obind. cbn [fst snd].
  unfold insert_core.
  destruct (trailing_ones_spec (occ (main b))) as (A & B & C).
  destruct (Nat.eqb_spec (trailing_ones (occ (main b))) BUCKET_LEN) as [T|T].
  { exfalso. apply O. apply tb_ext. intros j. rewrite tb_u32_max. case_bool_decide as Hj.
    - apply B. unfold BUCKET_LEN in T. lia.
    - destruct (tb (occ (main b)) j) eqn:E; [|done].
      apply (wf_occ _ _ _ _ (wf_main _ _ _ W)) in E. apply (stored_lt hash BUCKET_LEN CACHE) in E; [|apply W].
      unfold BUCKET_LEN in E. lia. }
  assert (T' : trailing_ones (occ (main b)) < BUCKET_LEN) by (unfold BUCKET_LEN in *; lia).
  destruct (insert_entry_adds hash CACHE BUCKET_LEN (main b) hv e) as (bl & E & X);
    [unfold BUCKET_LEN; lia|apply W|done|done|].
  rewrite E, !obind. cbn [fst snd]. intros [= <- <- <-].
  destruct X as (X1 & _ & X3 & _ & _ & _ & _ & X8 & X9 & X10).
  exists (trailing_ones (occ (main b))). cbn [main links].
  split; [done|]. split; [unfold BUCKET_LEN in *; lia|]. split; [done|]. split.
  { unfold bucket_lru; cbn [main lru]. by rewrite X3. }
  done.
Qed.

Lemma promote_slots b i e r b' : wf_bucket hash CACHE b -> slot b i = Some e -> tracks b r ->
  update_lru_tail b (EPtr None (Some i)) = Some b' ->
  links b' = links b /\ (forall j, slot b' j = slot b j) /\ tracks b' (i :: filter (fun x => x <> i) r).
Proof.
  intros [W WL] L [R HR]. assert (Hi : i < 32) by (eapply (live_lt hash BUCKET_LEN); [apply W|done]).
  unfold update_lru_tail. cbn [link_ptr index]. rewrite obind.
  destruct (lru_promote_spec _ _ i R Hi) as (s & Es & Rs). rewrite Es, obind. intros [= <-].
  destruct (with_lru_spec hash b s W) as (W1 & E1 & L1 & S1).
  split; [done|]. split; [done|]. split.
  - unfold bucket_lru, with_lru; cbn [main lru rem]. rewrite Nat2N.id. destruct s; exact Rs.
  - intros k Hk. change (occ (main (with_lru b s))) with (occ (main b)).
    apply elem_of_cons in Hk as [->|Hk].
    + apply (slot_occ _ _ W). by exists e.
    + apply elem_of_list_filter in Hk as [_ Hk]. by apply HR.
Qed.
Lemma remove_slots b i e r b' p' x : wf_bucket hash CACHE b -> slot b i = Some e -> tracks b r ->
  remove CACHE b (EPtr None (Some i)) = Some (b', p', x) ->
  links b' = links b /\ slot b' i = None /\ (forall j, j <> i -> slot b' j = slot b j) /\
  tracks b' (filter (fun x => x <> i) r).
Proof.
  intros [W WL] L [R HR]. assert (Hi : i < 32) by (eapply (live_lt hash BUCKET_LEN); [apply W|done]).
  unfold remove. cbn [link_ptr index]. destruct (dec_len (blen b)) as [n|]; [|done]. rewrite !obind.
  assert (P : points_to CACHE b (EPtr None (Some i)) e) by (by exists (main b), i).
  rewrite (points_to_get _ _ _ _ P), obind. destruct (decide _) as [_|]; [|done].
  unfold remove_from_lru_list. destruct (lru_remove_spec _ _ i R Hi) as (s & Es & Rs).
  rewrite Es, !obind. intros [= <- <- <-].
  destruct (with_lru_spec hash b s W) as (W1 & E1 & L1 & S1).
  set (b0 := with_lru b s) in *.
  assert (L0 : slot b0 i = Some e) by (by rewrite L1).
  destruct (clear_slot_spec hash CACHE BUCKET_LEN (main b0) i e) as (_ & _ & _ & L2 & L3); [apply W1|done|].
  cbn [main links]. split; [done|]. split; [done|]. split.
  { intros j Hj. rewrite L2 by done. apply L1. }
  split.
  - unfold bucket_lru, b0, with_lru; cbn [main lru rem]. rewrite Nat2N.id. destruct s; exact Rs.
  - intros k Hk. apply elem_of_list_filter in Hk as [Hk1 Hk2]. cbn [main occ].
    rewrite tb_ldiff, tb_bit. rewrite bool_decide_false by congruence. rewrite andb_true_r.
    change (occ (main b0)) with (occ (main b)). by apply HR.
Qed.
Lemma replace_slots b i e r v b' x : wf_bucket hash CACHE b -> slot b i = Some e -> tracks b r ->
  replace_value b (EPtr None (Some i)) v = Some (b', x) ->
  links b' = links b /\ slot b' i = Some (e.1, v) /\ (forall j, j <> i -> slot b' j = slot b j) /\ tracks b' r.
Proof.
  intros [W WL] L [R HR].
  assert (P : points_to CACHE b (EPtr None (Some i)) e) by (by exists (main b), i).
  unfold replace_value. rewrite (points_to_get _ _ _ _ P). unfold ptr_block; cbn [link_ptr index]. rewrite !obind.
  intros [= <- <-]. cbn [main links].
  destruct (put_slot_spec hash CACHE BUCKET_LEN (main b) i e v) as (_ & _ & _ & L1 & L2); [apply W|done|].
  cbn zeta in *. unfold set_ptr_block; cbn [link_ptr main links].
  split; [done|]. split; [done|]. split; [done|]. split; done.
Qed.

Lemma full_len b : wf_core hash CACHE b -> occ (main b) = u32_max ->
  32 <= length (entries CACHE b).
Proof.
  intros W O. unfold entries, all_ents. rewrite app_length.
  assert (length (ents (live_at CACHE) BUCKET_LEN 0 (main b)) = 32); [|lia].
  rewrite ents_eq. cbn [Nat.sub BUCKET_LEN].
  assert (G : forall n a, a + n <= 32 -> length (omap (live_at CACHE (main b)) (seq a n)) = n).
  { induction n as [|n IH]; intros a Ha; [done|]. rewrite omap_seq_cons.
    destruct (proj1 (slot_occ b a W)) as [e ->].
    - rewrite O, tb_u32_max. apply bool_decide_true. lia.
    - rewrite app_length; change (1 + length (omap (slot b) (seq (S a) n)) = S n)%nat; cbn [Nat.add]. f_equal. apply IH. lia. }
  apply (G 32 0). lia.
Qed.

Lemma evicted_slot m i : i < 32 -> m = N.ldiff u32_max (bit i) -> forall j, tb m j = bool_decide (j < 32 /\ j <> i).
Proof.
  intros Hi -> j. rewrite tb_ldiff, tb_u32_max, tb_bit. repeat case_bool_decide; try done; lia.
Qed.

(** [put] on a bucket that does not hold the key. *)
Lemma put_bucket_spec sg b h e r : wf_bucket hash CACHE b -> tracks b r ->
  partial_hash h = partial_hash (hash e.1) ->
  exists b' ev i, put_bucket sg b h e = Some (b', ev) /\ wf_bucket hash CACHE b' /\ links b' = links b /\
    slot b i = ev /\ slot b' i = Some e /\ (forall j, j <> i -> slot b' j = slot b j) /\
    match ev with
    | None => occ (main b) <> u32_max /\ entries CACHE b' ≡ₚ e :: entries CACHE b /\
        stored b' ≡ₚ e :: stored b /\ tracks b' (i :: r)
    | Some x => occ (main b) = u32_max /\ i = default 0 (list.last r) /\ tracks b' (i :: removelast r) /\
        exists R RS, entries CACHE b ≡ₚ x :: R /\ entries CACHE b' ≡ₚ e :: R /\
          stored b ≡ₚ x :: RS /\ stored b' ≡ₚ e :: RS
    end.
Proof.
  intros W T Hh. unfold put_bucket.
  destruct (evict_lru_head_spec hash b r W (proj1 T)) as [E0 E1].
  destruct (decide (occ (main b) = u32_max)) as [O|O].
  - destruct (E1 O) as (b1 & x & Ev & Hx & W1 & (l1 & l2 & M1 & M2) & S1 & R1).
    destruct (evict_slots b r b1 x W (proj1 T) O Ev) as (Hi & _ & Lk & Oc & Sl). cbn zeta in *.
    set (i := default 0 (list.last r)) in *. rewrite Ev, obind. cbn [fst snd].
    assert (Hnd : i ∉ removelast r).
    { intros Hk. destruct T as [(_ & ND & _) _]. destruct (list.last r) eqn:El.
      - by apply (last_removelast_notin r n).
      - apply last_None in El. subst r. by apply elem_of_nil in Hk. }
    destruct (insert_spec hash CACHE sg b1 h e W1 Hh) as (b2 & p & d & I & W2 & EE & PT & SS & Hd & _).
    assert (d = []) as -> by (by apply Hd). rewrite app_nil_r in SS.
    destruct (insert_slots sg b1 h e b2 p [] W1) as (j & -> & Hj & Lk2 & Lr & N1 & N2 & N3); [|done|done|].
    { rewrite Oc. intros X. assert (Y : tb (N.ldiff u32_max (bit i)) i = tb u32_max i) by (by rewrite X).
      rewrite (evicted_slot _ i Hi eq_refl), tb_u32_max in Y. rewrite bool_decide_false in Y by tauto.
      by rewrite bool_decide_true in Y. }
    assert (j = i) as ->.
    { destruct (decide (j = i)); [done|exfalso].
      apply (live_at_None hash BUCKET_LEN CACHE) in N1; [|apply W1]. cbn [live_bitmap] in N1.
      rewrite (evicted_slot _ i Hi Oc) in N1. by rewrite bool_decide_true in N1 by done. }
    rewrite I, obind. cbn [fst snd].
    assert (T2 : tracks b2 (removelast r)).
    { split; [by rewrite Lr|]. intros k Hk. apply (slot_occ _ _ W2). rewrite N3 by congruence.
      rewrite Sl by congruence. apply (tracks_slot b r); [apply W|done|]. by apply removelast_sub. }
    destruct (update_lru_tail_spec hash b2 _ e W2 PT) as (b3 & U & W3 & EE3 & SS3 & PT3).
    destruct (promote_slots b2 i e (removelast r) b3 W2 N2 T2 U) as (Lk3 & Sl3 & T3).
    rewrite U, obind. exists b3, (Some x), i.
    rewrite filter_ne_notin in T3 by done.
    split; [done|]. split; [done|]. split; [congruence|]. split; [done|].
    split; [by rewrite Sl3|]. split; [intros k Hk; rewrite Sl3, N3, Sl by done; done|].
    split; [done|]. split; [done|]. split; [done|].
    exists (l1 ++ l2), (stored b1). split; [rewrite M1; symmetry; apply Permutation_middle|].
    split; [by rewrite EE3, EE, M2|]. split; [done|]. by rewrite SS3.
  - rewrite (E0 O), obind. cbn [fst snd].
    destruct (insert_spec hash CACHE sg b h e W Hh) as (b2 & p & d & I & W2 & EE & PT & SS & Hd & _).
    assert (d = []) as -> by (by apply Hd). rewrite app_nil_r in SS.
    destruct (insert_slots sg b h e b2 p [] W O Hh I) as (i & -> & Hi & Lk2 & Lr & N1 & N2 & N3).
    assert (Hnd : i ∉ r).
    { intros Hk. apply (tracks_slot b r i) in Hk; [|apply W|done]. rewrite N1 in Hk. by destruct Hk. }
    rewrite I, obind. cbn [fst snd].
    assert (T2 : tracks b2 r).
    { split; [rewrite Lr; apply T|]. intros k Hk. apply (slot_occ _ _ W2). rewrite N3 by congruence.
      apply (tracks_slot b r); [apply W|done|done]. }
    destruct (update_lru_tail_spec hash b2 _ e W2 PT) as (b3 & U & W3 & EE3 & SS3 & PT3).
    destruct (promote_slots b2 i e r b3 W2 N2 T2 U) as (Lk3 & Sl3 & T3).
    rewrite U, obind. exists b3, None, i.
    rewrite filter_ne_notin in T3 by done.
    split; [done|]. split; [done|]. split; [congruence|]. split; [done|].
    split; [by rewrite Sl3|]. split; [intros k Hk; rewrite Sl3, N3 by done; done|].
    split; [done|]. split; [by rewrite EE3|]. split; [by rewrite SS3|done].
Qed.
End cache_facts.
