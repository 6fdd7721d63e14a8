(** Proofs about the operations of one bucket: marking, eviction, reservation, extraction,
    iteration and dropping. *)
From Coq Require Import NArith Lia.
From stdpp Require Import numbers prelude list.
From Verif Require Import LruModel LruSpec LruFacts BucketModel BucketSpec BucketFacts BucketOps BucketOps2.

Section ops3.
Context {K V : Type} `{EqDecision K}.
Context (hash : K -> N).
Implicit Types (b : bucket K V) (bl : block K V) (p : eptr) (e : K * V) (t : kind).

(** ** Changing a value in place *)
Lemma put_slot_spec t len bl i e v : wf_block hash t len bl -> live_at t bl i = Some e ->
  let bl' := put_slot bl i (Some (e.1, v)) in
  wf_block hash t len bl' /\
  (forall j, j <> i -> stored_at bl' j = stored_at bl j) /\ stored_at bl' i = Some (e.1, v) /\
  (forall j, j <> i -> live_at t bl' j = live_at t bl j) /\ live_at t bl' i = Some (e.1, v).
Proof.
  intros W L bl'. pose proof (live_lt _ _ _ _ _ _ W L) as Hi.
  assert (S1 : forall j, j <> i -> stored_at bl' j = stored_at bl j).
  { intros j Hj. by apply stored_insert_ne. }
  assert (S2 : stored_at bl' i = Some (e.1, v)).
  { apply stored_insert. by rewrite (wf_data _ _ _ _ W). }
  assert (LB : live_bitmap t bl' = live_bitmap t bl) by done.
  assert (L1 : forall j, j <> i -> live_at t bl' j = live_at t bl j).
  { intros j Hj. unfold live_at. by rewrite LB, S1. }
  assert (L2 : live_at t bl' i = Some (e.1, v)).
  { unfold live_at. rewrite LB, S2. by rewrite (live_tb _ _ _ _ L). }
  split; [|done]. constructor.
  - apply W.
  - unfold bl', put_slot; cbn [data]. rewrite insert_length. apply W.
  - intros j. change (occ bl') with (occ bl). destruct (decide (j = i)) as [->|Hj].
    + rewrite S2. split; [eauto|]. intros _. apply W. exists e. by eapply live_stored.
    + rewrite S1 by done. apply W.
  - intros Ht. apply (wf_rem _ _ _ _ W Ht).
  - intros j e' Hj. change (hcell bl') with (hcell bl). destruct (decide (j = i)) as [->|Hne].
    + rewrite L2 in Hj. injection Hj as <-. cbn [fst]. by apply W.
    + rewrite L1 in Hj by done. by apply W.
Qed.

Lemma replace_value_spec t b p e v : wf_bucket hash t b -> points_to t b p e ->
  exists b', replace_value b p v = Some (b', e.2) /\ wf_bucket hash t b' /\
    entries t b' = before (live_at t) b p ++ (e.1, v) :: after (live_at t) b p /\
    before (live_at t) b' p = before (live_at t) b p /\
    after (live_at t) b' p = after (live_at t) b p /\
    points_to t b' p (e.1, v) /\
    (exists rest, stored b ≡ₚ e :: rest /\ stored b' ≡ₚ (e.1, v) :: rest).
Proof.
  intros [W WL] P. pose proof P as (bl & i & Hb & Hi & L). pose proof (wf_ptr_block _ _ _ _ _ W Hb) as Wb.
  pose proof (live_lt _ _ _ _ _ _ Wb L) as Hl.
  destruct (put_slot_spec t _ bl i e v Wb L) as (W' & S1 & S2 & L1 & L2).
  unfold replace_value. rewrite Hb, obind, Hi, obind, (points_to_get _ _ _ _ P), obind.
  set (bl' := put_slot bl i (Some (e.1, v))) in *.
  eexists. split; [done|].
  destruct (set_ptr_before (live_at t) b p bl bl' i Hb Hi Hl L1) as (B1 & A1 & Q1).
  pose proof (set_ptr_all (live_at t) b p bl bl' i Hb Hi Hl L1) as EL. rewrite L2 in EL.
  pose proof (set_ptr_all stored_at b p bl bl' i Hb Hi Hl S1) as ES. rewrite S2 in ES.
  destruct (set_ptr_wf hash t b p bl bl' Hb W W') as (WM & WLk).
  split; [|split; [exact EL|split; [done|split; [done|split]]]].
  - constructor; [constructor; [done|done|]|].
    + unfold entries. rewrite EL. replace (blen (set_ptr_block b p bl')) with (blen b)
        by (unfold set_ptr_block; by destruct (link_ptr p)).
      rewrite (wf_len _ _ _ W), (points_to_split _ _ _ _ _ W P).
      rewrite !app_length. done.
    + unfold set_ptr_block. destruct (link_ptr p) as [j|] eqn:Hp; [by apply wf_lru_same|].
      unfold ptr_block in Hb. rewrite Hp in Hb. injection Hb as <-. by apply wf_lru_same.
  - exists bl', i. done.
  - exists (before stored_at b p ++ after stored_at b p). split.
    + unfold stored. rewrite (before_at_after stored_at b p bl i Hb Hi Hl), (live_stored _ _ _ _ L).
      symmetry. apply (Permutation_middle _ _ e).
    + unfold stored. rewrite ES. symmetry. apply (Permutation_middle _ _ (e.1, v)).
Qed.

(** ** Marking an entry removed (HashIndex) *)
Lemma mark_slot_spec len bl i e ep : wf_block hash INDEX len bl -> live_at INDEX bl i = Some e ->
  let bl' := Block (occ bl) (N.lor (rem bl) (bit i)) (<[i := ep]> (hcell bl)) (data bl) in
  wf_block hash INDEX len bl' /\
  (forall j, stored_at bl' j = stored_at bl j) /\
  (forall j, j <> i -> live_at INDEX bl' j = live_at INDEX bl j) /\ live_at INDEX bl' i = None.
Proof.
  intros W L bl'. pose proof (live_lt _ _ _ _ _ _ W L) as Hi.
  assert (S1 : forall j, stored_at bl' j = stored_at bl j) by done.
  assert (L1 : forall j, j <> i -> live_at INDEX bl' j = live_at INDEX bl j).
  { intros j Hj. unfold live_at. rewrite S1.
    unfold bl'; cbn [live_bitmap occ rem]. rewrite !tb_ldiff, tb_lor, tb_bit, bool_decide_false by done.
    by rewrite orb_false_r. }
  assert (L2 : live_at INDEX bl' i = None).
  { unfold live_at, bl'; cbn [live_bitmap occ rem]. rewrite tb_ldiff, tb_lor, tb_bit, bool_decide_true by done.
    by rewrite orb_true_r, andb_false_r. }
  split; [|done]. constructor.
  - unfold bl'; cbn [hcell]. rewrite insert_length. apply W.
  - apply W.
  - intros j. rewrite S1. apply W.
  - intros Ht j. unfold bl'; cbn [rem occ]. rewrite tb_lor, tb_bit. intros Hj. apply orb_true_iff in Hj as [Hj|Hj].
    + by apply (wf_rem _ _ _ _ W).
    + apply bool_decide_eq_true in Hj as <-. apply W. exists e. by eapply live_stored.
  - intros j e' Hj. destruct (decide (j = i)) as [->|Hne]; [by rewrite L2 in Hj|].
    unfold bl'; cbn [hcell]. rewrite list_lookup_insert_ne by done. rewrite L1 in Hj by done. by apply W.
Qed.

Lemma mark_removed_spec b p e ep : wf_bucket hash INDEX b -> points_to INDEX b p e ->
  exists b', mark_removed b p ep = Some b' /\ wf_bucket hash INDEX b' /\
    entries INDEX b' = before (live_at INDEX) b p ++ after (live_at INDEX) b p /\
    before (live_at INDEX) b' p = before (live_at INDEX) b p /\
    after (live_at INDEX) b' p = after (live_at INDEX) b p /\
    stored b' = stored b /\ wf_ptr b' p /\
    (forall q x, q <> p -> points_to INDEX b q x -> points_to INDEX b' q x).
Proof.
  intros [W WL] P. pose proof P as (bl & i & Hb & Hi & L). pose proof (wf_ptr_block _ _ _ _ _ W Hb) as Wb.
  pose proof (live_lt _ _ _ _ _ _ Wb L) as Hl.
  destruct (len_S _ _ _ _ _ W P) as (n & Hn & Hlen).
  destruct (mark_slot_spec _ bl i e ep Wb L) as (W' & S1 & L1 & L2).
  unfold mark_removed. rewrite Hn, obind, Hi, obind, Hb, obind.
  destruct (lookup_lt_is_Some_2 (hcell bl) i) as [c Hc]; [by rewrite (wf_hcell _ _ _ _ Wb)|].
  rewrite Hc, obind. set (bl' := Block _ _ _ _) in *.
  eexists. split; [done|].
  destruct (set_ptr_before (live_at INDEX) b p bl bl' i Hb Hi Hl L1) as (B1 & A1 & Q1).
  pose proof (set_ptr_all (live_at INDEX) b p bl bl' i Hb Hi Hl L1) as EL. rewrite L2 in EL.
  pose proof (set_ptr_all stored_at b p bl bl' i Hb Hi Hl (fun j _ => S1 j)) as ES. rewrite S1 in ES.
  destruct (set_ptr_wf hash INDEX b p bl bl' Hb W W') as (WM & WLk).
  set (b1 := set_ptr_block b p bl') in *.
  assert (EE : entries INDEX (Bucket n (main b1) (links b1) (lru b1)) = before (live_at INDEX) b p ++ after (live_at INDEX) b p).
  { unfold entries. rewrite (all_ents_eq _ b1) by done. exact EL. }
  split; [|split; [done|split; [|split; [|split; [|split]]]]].
  - constructor; [constructor; [done|done|]|done]. rewrite EE. done.
  - by rewrite (before_eq _ b1).
  - by rewrite (after_eq _ b1).
  - unfold stored. rewrite (all_ents_eq _ b1) by done. rewrite ES.
    by rewrite (before_at_after stored_at b p bl i Hb Hi Hl).
  - pose proof (points_to_wf_ptr _ _ _ _ _ W P) as X. unfold wf_ptr in *. cbn [links]. unfold b1, set_ptr_block.
    destruct (index p); [|done]. destruct (link_ptr p) as [j|]; [|done]. cbn [links]. by rewrite insert_length.
  - intros q x Hq (bq & iq & Hbq & Hiq & Lq).
    assert (Hne : link_ptr q <> link_ptr p \/ iq <> i).
    { destruct (decide (link_ptr q = link_ptr p)) as [E1|]; [|auto]. right. intros ->. apply Hq.
      destruct p, q; cbn in *; congruence. }
    unfold b1, set_ptr_block in *. unfold ptr_block in Hbq, Hb.
    destruct (link_ptr p) as [j|] eqn:Hp; destruct (link_ptr q) as [j'|] eqn:Hq'; cbn [main links].
    + destruct (decide (j' = j)) as [->|Hj].
      * assert (bq = bl) as -> by congruence. exists bl', iq. unfold ptr_block. rewrite Hq'. cbn [links].
        rewrite list_lookup_insert by (by eapply lookup_lt_Some). split; [done|]. split; [done|].
        rewrite L1; [done|]. destruct Hne; congruence.
      * exists bq, iq. unfold ptr_block. rewrite Hq'. cbn [links]. by rewrite list_lookup_insert_ne.
    + exists bq, iq. unfold ptr_block. by rewrite Hq'.
    + exists bq, iq. unfold ptr_block. by rewrite Hq'.
    + injection Hb as Hb. injection Hbq as Hbq. subst bq. exists bl', iq. unfold ptr_block. rewrite Hq'.
      split; [done|]. split; [done|]. rewrite L1; [by rewrite <- Hb|]. destruct Hne; congruence.
Qed.

Lemma partial_hash_idem h : partial_hash (partial_hash h) = partial_hash h.
Proof. unfold partial_hash. apply N.mod_mod. done. Qed.

Lemma update_index_spec sg b p e v ep : wf_bucket hash INDEX b -> points_to INDEX b p e ->
  exists b' p' d rest, update_index sg b p v ep = Some (b', p', d) /\ wf_bucket hash INDEX b' /\
    entries INDEX b ≡ₚ e :: rest /\ entries INDEX b' ≡ₚ (e.1, v) :: rest /\
    points_to INDEX b' p' (e.1, v) /\
    stored b' ++ d ≡ₚ (e.1, v) :: stored b /\
    (forall x, x ∈ d -> exists bl, (bl = main b \/ bl ∈ links b) /\ reclaimable sg bl x).
Proof.
  intros W P. unfold update_index. rewrite (points_to_get _ _ _ _ P), obind.
  pose proof P as (bl & i & Hb & Hi & L). rewrite Hb, obind, Hi, obind.
  pose proof (wf_ptr_block _ _ _ _ _ W Hb) as Wb.
  rewrite (wf_hash _ _ _ _ Wb _ _ L), obind.
  destruct (insert_clear_spec hash INDEX sg b W) as (b1 & d & E & W1 & E1 & P1 & D1 & M1 & N1).
  rewrite E, obind. cbn [fst snd].
  destruct (insert_core_spec hash INDEX b1 (partial_hash (hash e.1)) (e.1, v) W1) as (b2 & p' & E2 & W2 & EE & P2 & S2 & N2);
    [apply partial_hash_idem|].
  rewrite E2, obind. cbn [fst snd].
  destruct (N2 p e (N1 p e P)) as [Q Qne].
  destruct (mark_removed_spec b2 _ e ep W2 Q) as (b3 & E3 & W3 & EN3 & _ & _ & S3 & _ & N3).
  rewrite E3, obind. exists b3, p', d.
  pose proof (points_to_split _ _ _ _ _ W2 Q) as Sp.
  set (l1 := before _ _ _) in *. set (l2 := after _ _ _) in *.
  assert (X : exists rest, entries INDEX b ≡ₚ e :: rest /\ l1 ++ l2 ≡ₚ (e.1, v) :: rest).
  { assert (Y : (e.1, v) :: entries INDEX b ≡ₚ e :: (l1 ++ l2)).
    { rewrite <- E1, <- EE, Sp. symmetry. apply Permutation_middle. }
    pose proof (points_to_split _ _ _ _ _ W P) as Sp'.
    exists (before (live_at INDEX) b p ++ after (live_at INDEX) b p). split.
    - rewrite Sp'. symmetry. apply Permutation_middle.
    - apply (Permutation_cons_inv (a := e)). rewrite <- Y, Sp'.
      rewrite Permutation_swap. constructor. symmetry. apply Permutation_middle. }
  destruct X as (rest & X1 & X2). exists rest.
  split; [done|]. split; [done|]. split; [done|]. split; [by rewrite EN3|]. split; [by apply N3|].
  split; [|done]. rewrite S3, S2, P1. cbn [app]. constructor. apply Permutation_app_comm.
Qed.

(** ** HashCache: promotion and eviction *)
Lemma with_lru_spec b s : wf_core hash CACHE b ->
  wf_core hash CACHE (with_lru b s) /\ entries CACHE (with_lru b s) = entries CACHE b /\
  (forall i, live_at CACHE (main (with_lru b s)) i = live_at CACHE (main b) i) /\
  stored (with_lru b s) = stored b.
Proof.
  intros W. set (b0 := with_lru b s).
  assert (Hm : main b0 = set_rem (main b) (N.of_nat (tail s))) by done.
  assert (Lf : forall k, live_at CACHE (main b0) k = live_at CACHE (main b) k)
    by (intros k; rewrite Hm; by apply live_set_rem).
  assert (En : entries CACHE b0 = entries CACHE b).
  { unfold entries, all_ents. f_equal; by apply ents_ext. }
  split; [|done]. constructor.
  - rewrite Hm. by apply wf_set_rem, W.
  - apply W.
  - rewrite En. apply W.
Qed.

Lemma update_lru_tail_spec b p e : wf_bucket hash CACHE b -> points_to CACHE b p e ->
  exists b', update_lru_tail b p = Some b' /\ wf_bucket hash CACHE b' /\
    entries CACHE b' = entries CACHE b /\ stored b' = stored b /\ points_to CACHE b' p e.
Proof.
  intros [W WL] P. pose proof P as (bl & i & Hb & Hi & L). pose proof (wf_ptr_block _ _ _ _ _ W Hb) as Wb.
  pose proof (live_lt _ _ _ _ _ _ Wb L) as Hl.
  unfold update_lru_tail. destruct (link_ptr p) as [j|] eqn:Hp.
  - exists b. done.
  - rewrite Hi, obind. assert (Hi32 : i < 32) by (unfold ptr_len in Hl; by rewrite Hp in Hl).
    unfold ptr_block in Hb. rewrite Hp in Hb. injection Hb as <-.
    destruct (WL eq_refl) as (r & R & HR). destruct (lru_promote_spec _ _ i R Hi32) as (s & Es & Rs).
    rewrite Es, obind. exists (with_lru b s). split; [done|].
    destruct (with_lru_spec b s W) as (W1 & E1 & L1 & S1).
    split; [|split; [done|split; [done|]]].
    + constructor; [done|]. intros _. exists (i :: filter (fun x => x <> i) r). split.
      * unfold bucket_lru, with_lru; cbn [main lru rem]. rewrite Nat2N.id. destruct s; exact Rs.
      * intros k Hk. change (occ (main (with_lru b s))) with (occ (main b)).
        apply elem_of_cons in Hk as [->|Hk].
        -- apply W. exists e. by eapply live_stored.
        -- apply elem_of_list_filter in Hk as [_ Hk]. by apply HR.
    + exists (main (with_lru b s)), i. split; [unfold ptr_block; by rewrite Hp|]. split; [done|]. by rewrite L1.
Qed.

(** [evict_lru_head] acts only when the 32 main slots are all taken; it takes out the entry in the
    least recently used tracked slot, or in slot 0 when no slot is tracked. *)
Lemma last_removelast_notin (r : list nat) i : NoDup r -> last r = Some i -> i ∉ removelast r.
Proof.
  induction r as [|x r IH] using rev_ind; [done|]. intros ND Hl.
  rewrite last_snoc in Hl. injection Hl as ->. rewrite removelast_last.
  apply NoDup_app in ND as (_ & ND & _). intros Hi. apply (ND _ Hi). set_solver.
Qed.
Lemma removelast_sub (r : list nat) x : x ∈ removelast r -> x ∈ r.
Proof.
  destruct r as [|y r] using rev_ind; [done|]. rewrite removelast_last. set_solver.
Qed.

Lemma evict_lru_head_spec b r : wf_bucket hash CACHE b -> rep (bucket_lru b) r ->
  (occ (main b) <> u32_max -> evict_lru_head b = Some (b, None)) /\
  (occ (main b) = u32_max -> exists b' e, evict_lru_head b = Some (b', Some e) /\
     live_at CACHE (main b) (default 0 (last r)) = Some e /\ wf_bucket hash CACHE b' /\
     (exists l1 l2, entries CACHE b = l1 ++ e :: l2 /\ entries CACHE b' = l1 ++ l2) /\
     stored b ≡ₚ e :: stored b' /\ rep (bucket_lru b') (removelast r)).
Proof.
  intros [W WL] R. unfold evict_lru_head. split; intros O.
  { by rewrite (proj2 (N.eqb_neq _ _) O). }
  rewrite O, N.eqb_refl.
  set (i := default 0 (last r)).
  assert (Hi : i < 32).
  { unfold i. destruct (last r) eqn:El; cbn; [|lia]. eapply rep_lt; [done|].
    by apply last_Some_elem_of in El. }
  destruct (live_at_tb hash BUCKET_LEN CACHE (main b) i) as [e He].
  { apply W. } { cbn [live_bitmap]. rewrite O, tb_u32_max. by apply bool_decide_true. }
  set (p := EPtr None (Some i)).
  assert (P : points_to CACHE b p e) by (exists (main b), i; done).
  destruct (len_S _ _ _ _ _ W P) as (n & Hn & Hlen).
  rewrite Hn, obind. destruct (lru_evict_spec _ _ R) as (s & Es & Rs). rewrite Es, obind. cbn [fst snd].
  destruct (with_lru_spec b s W) as (W1 & E1 & L1 & S1).
  set (b0 := with_lru b s) in *.
  replace (match last r with Some i => i | None => 0 end) with i by (unfold i; by destruct (last r)).
  assert (He0 : live_at CACHE (main b0) i = Some e) by (by rewrite L1).
  rewrite (stored_data _ _ _ (live_stored _ _ _ _ He0)), obind, obind.
  eexists _, _. split; [done|]. split; [done|].
  assert (P0 : points_to CACHE b0 p e) by (exists (main b0), i; done).
  pose proof (clear_ptr_taken hash CACHE b0 p e (main b0) i n (lru b0) W1 P0 eq_refl eq_refl He0 Hn) as X.
  cbn zeta in X. change (link_ptr p) with (@None nat) in X. rewrite set_ptr_main in X by done. cbn [main links] in X.
  assert (RR : rep (bucket_lru (Bucket n (Block (N.ldiff (occ (main b0)) (bit i)) (rem (main b0)) (hcell (main b0))
                 (<[i := None]> (data (main b0)))) (links b0) (lru b0))) (removelast r)).
  { unfold bucket_lru, b0, with_lru; cbn [main lru rem]. rewrite Nat2N.id. destruct s; exact Rs. }
  split; [|split; [|split; [|done]]].
  - constructor; [apply X|]. intros _. exists (removelast r). split; [done|].
    destruct (WL eq_refl) as (r' & R' & HR). 
    intros k Hk. cbn [main occ]. rewrite tb_ldiff, tb_bit. change (occ (main b0)) with (occ (main b)).
    rewrite O, tb_u32_max. rewrite bool_decide_true by (eapply rep_lt; [exact R|by apply removelast_sub]).
    rewrite bool_decide_false; [done|]. intros <-.
    destruct R as (_ & ND & _). destruct (last r) eqn:El.
    + by apply (last_removelast_notin r n0).
    + apply last_None in El. subst r. by apply elem_of_nil in Hk.
  - exists (before (live_at CACHE) b0 p), (after (live_at CACHE) b0 p). split; [|apply X].
    rewrite <- E1. by apply (points_to_split hash).
  - rewrite <- S1. apply X.
Qed.

(** ** Reservation *)
Lemma reserve_links_spec t ad fuel : forall c (ls : list (block K V)), Forall (wf_block hash t LINKED_BUCKET_LEN) ls ->
  Forall (wf_block hash t LINKED_BUCKET_LEN) (reserve_links c ad ls fuel) /\
  lents (live_at t) (reserve_links c ad ls fuel) = lents (live_at t) ls /\
  lents stored_at (reserve_links c ad ls fuel) = lents stored_at ls.
Proof.
  induction fuel as [|fu IH]; intros c ls F; cbn [reserve_links]; [done|].
  destruct ls as [|l ls]; [done|]. destruct (_ <=? _); [done|].
  inversion F as [|? ? Wl F']; subst.
  set (ls'' := match ls with [] => _ | _ => _ end).
  assert (X : Forall (wf_block hash t LINKED_BUCKET_LEN) ls'' /\
              lents (live_at t) ls'' = lents (live_at t) ls /\ lents stored_at ls'' = lents stored_at ls).
  { unfold ls''. destruct ls; [|done]. split; [constructor; [apply wf_new_block|constructor]|].
    rewrite !lents_cons, ents_new by apply live_new. rewrite ents_new by apply stored_new. done. }
  destruct X as (X1 & X2 & X3).
  destruct (IH (c + (LINKED_BUCKET_LEN - count_ones (occ l))) ls'' X1) as (Y1 & Y2 & Y3).
  split; [by constructor|]. rewrite !lents_cons, Y2, Y3, X2, X3. done.
Qed.
Lemma reserve_slots_spec t b n : wf_bucket hash t b ->
  wf_bucket hash t (reserve_slots b n) /\ entries t (reserve_slots b n) = entries t b /\
  stored (reserve_slots b n) = stored b.
Proof.
  intros [W WL]. unfold reserve_slots. destruct (_ <? _); [|done].
  destruct (reserve_links_spec t n (length (links b) + n + 1) (BUCKET_LEN - count_ones (occ (main b))) (links b))
    as (X1 & X2 & X3); [apply W|].
  set (ls := reserve_links _ _ _ _) in *.
  assert (E : entries t (Bucket (blen b) (main b) ls (lru b)) = entries t b).
  { unfold entries, all_ents; cbn [main links]. by rewrite X2. }
  split; [|split; [done|]].
  - constructor; [constructor; [apply W|done|]|by apply wf_lru_same]. rewrite E. apply W.
  - unfold stored, all_ents; cbn [main links]. by rewrite X3.
Qed.

(** ** Moving an entry to another bucket *)
Lemma extract_from_spec t sg to hv from p e : wf_bucket hash t to -> wf_core hash t from ->
  points_to t from p e -> partial_hash hv = partial_hash (hash e.1) ->
  exists from' to' d, extract_from t sg to hv from p = Some (from', to', d) /\
    taken hash t from p from' p e /\ wf_bucket hash t to' /\ entries t to' ≡ₚ e :: entries t to /\
    stored to' ++ d ≡ₚ e :: stored to /\ (t <> INDEX -> d = []) /\
    (forall x, x ∈ d -> exists bl, (bl = main to \/ bl ∈ links to) /\ reclaimable sg bl x).
Proof.
  intros W WF P Hh. unfold extract_from. rewrite (points_to_get _ _ _ _ P), obind.
  destruct (insert_spec hash t sg to hv e W Hh) as (to' & p' & d & E & W' & E' & P' & S' & D' & M').
  rewrite E, obind. pose proof P as (bl & i & Hb & Hi & L). rewrite Hb, obind, Hi, obind.
  destruct (len_S _ _ _ _ _ WF P) as (n & Hn & Hlen). rewrite Hn, obind. cbn [fst snd].
  eexists _, _, _. split; [done|]. split; [by apply (clear_ptr_taken hash t from p e bl i n)|].
  done.
Qed.

(** ** Iteration *)
Lemma next_index_spec t len bl i : len <= 32 -> wf_block hash t len bl -> i <= len ->
  match next_index t len bl i with
  | Some n => exists e, n < len /\ live_at t bl n = Some e /\
                ents (live_at t) len (ptr_next len i) bl = e :: ents (live_at t) len (S n) bl
  | None => ents (live_at t) len (ptr_next len i) bl = []
  end.
Proof.
  intros Hlen W Hi. unfold next_index, ptr_next. set (c := if i =? len then 0 else S i).
  destruct (Nat.ltb_spec c len) as [Hc|Hc]; cbn zeta.
  - set (m := N.ldiff (live_bitmap t bl) (N.ones (N.of_nat c))).
    assert (Hm : forall j, tb m j = tb (live_bitmap t bl) j && negb (bool_decide (j < c))).
    { intros j. unfold m. by rewrite tb_ldiff, tb_ones. }
    destruct (trailing_zeros_spec m) as (T1 & T2 & T3).
    assert (Hnone : forall j, c <= j < trailing_zeros m -> live_at t bl j = None).
    { intros j Hj. apply (live_at_None hash _ _ _ _ W). specialize (T2 j ltac:(lia)). rewrite Hm in T2.
      rewrite bool_decide_false in T2 by lia. by rewrite andb_true_r in T2. }
    destruct (Nat.ltb_spec (trailing_zeros m) len) as [Hz|Hz].
    + specialize (T3 ltac:(lia)). rewrite Hm in T3. apply andb_true_iff in T3 as [T3 T4].
      rewrite negb_true_iff, bool_decide_eq_false in T4.
      destruct (live_at_tb hash _ _ _ _ W T3) as [e He]. exists e. split; [done|]. split; [done|].
      rewrite !ents_eq. rewrite (omap_seq_split _ c (len - c) (trailing_zeros m)) by lia.
      rewrite omap_seq_none by (intros; apply Hnone; lia). rewrite He.
      replace (c + (len - c) - S (trailing_zeros m)) with (len - S (trailing_zeros m)) by lia. done.
    + rewrite ents_eq. apply omap_seq_none. intros j Hj.
      destruct (decide (j < trailing_zeros m)); [apply Hnone; lia|lia].
  - rewrite ents_eq. apply omap_seq_none. intros. lia.
Qed.

Lemma walk_links_spec t ls : forall j i, Forall (wf_block hash t LINKED_BUCKET_LEN) ls -> i <= LINKED_BUCKET_LEN ->
  let rest := match ls with [] => [] | l :: ls' => ents (live_at t) LINKED_BUCKET_LEN (ptr_next LINKED_BUCKET_LEN i) l ++ lents (live_at t) ls' end in
  match walk_links (K:=K) (V:=V) t j ls i with
  | (p, true) => exists n i' l e, p = EPtr (Some (j + n)) (Some i') /\ ls !! n = Some l /\ live_at t l i' = Some e /\
      rest = e :: ents (live_at t) LINKED_BUCKET_LEN (S i') l ++ lents (live_at t) (drop (S n) ls)
  | (p, false) => rest = [] /\ p = EPtr None None
  end.
Proof.
  induction ls as [|l ls IH]; intros j i F Hi rest; cbn [walk_links]; [done|].
  inversion F as [|? ? Wl F']; subst.
  pose proof (next_index_spec t LINKED_BUCKET_LEN l i ltac:(unfold LINKED_BUCKET_LEN; lia) Wl Hi) as X.
  destruct (next_index t LINKED_BUCKET_LEN l i) as [n|] eqn:E.
  - destruct X as (e & Hn & He & Hx). exists 0, n, l, e. rewrite Nat.add_0_r.
    split; [done|]. split; [done|]. split; [done|]. unfold rest. rewrite Hx. done.
  - specialize (IH (S j) LINKED_BUCKET_LEN F' ltac:(done)). cbn zeta in IH.
    assert (R : rest = match ls with [] => [] | l :: ls' => ents (live_at t) LINKED_BUCKET_LEN (ptr_next LINKED_BUCKET_LEN LINKED_BUCKET_LEN) l ++ lents (live_at t) ls' end).
    { unfold rest. rewrite X. cbn [app]. destruct ls as [|l' ls']; [done|].
      unfold ptr_next. rewrite Nat.eqb_refl. by rewrite lents_cons. }
    rewrite R. destruct (walk_links t (S j) ls LINKED_BUCKET_LEN) as [p [|]].
    + destruct IH as (n & i' & l' & e & -> & H1 & H2 & H3). exists (S n), i', l', e.
      split; [f_equal; f_equal; lia|]. split; [done|]. split; [done|]. rewrite H3. done.
    + done.
Qed.

Lemma move_to_next_spec t b p : wf_core hash t b -> wf_ptr b p ->
  match move_to_next t b p with
  | (p', true) => exists e, points_to t b p' e /\ after (live_at t) b p = e :: after (live_at t) b p' 
  | (p', false) => after (live_at t) b p = [] /\ index p' = None
  end.
Proof.
  intros W WP. unfold move_to_next, wf_ptr, after in *. destruct (index p) as [i|] eqn:Hi; [|done].
  destruct (link_ptr p) as [j|] eqn:Hp.
  - destruct WP as [Hi' Hj]. destruct (lookup_lt_is_Some_2 _ _ Hj) as [l Hl].
    pose proof (walk_links_spec t (drop j (links b)) j i ltac:(apply Forall_drop, W) Hi') as X. cbn zeta in X.
    destruct (walk_links t j (drop j (links b)) i) as [p' [|]].
    + destruct X as (n & i' & l' & e & -> & H1 & H2 & H3). exists e.
      rewrite lookup_drop in H1. split.
      { exists l', i'. done. }
      rewrite H3. cbn [index link_ptr]. rewrite drop_drop. rewrite (drop_S _ _ _ H1).
      unfold ptr_next. assert (Wl : wf_block hash t LINKED_BUCKET_LEN l').
      { pose proof (wf_links _ _ _ W) as F. rewrite Forall_lookup in F. eauto. }
      pose proof (live_lt _ _ _ _ _ _ Wl H2).
      replace (i' =? LINKED_BUCKET_LEN) with false by (symmetry; apply Nat.eqb_neq; lia).
      by rewrite Nat.add_succ_r.
    + destruct X as [X ->]. done.
  - pose proof (next_index_spec t BUCKET_LEN (main b) i ltac:(unfold BUCKET_LEN; lia) (wf_main _ _ _ W) WP) as X.
    destruct (next_index t BUCKET_LEN (main b) i) as [n|].
    + destruct X as (e & Hn & He & Hx). exists e. split; [exists (main b), n; done|].
      rewrite Hx. cbn [index link_ptr]. unfold ptr_next.
      replace (n =? BUCKET_LEN) with false by (symmetry; apply Nat.eqb_neq; lia). done.
    + rewrite X. cbn [app].
      pose proof (walk_links_spec t (links b) 0 LINKED_BUCKET_LEN (wf_links _ _ _ W) ltac:(done)) as Y. cbn zeta in Y.
      assert (R : lents (live_at t) (links b) = match links b with [] => [] | l :: ls' => ents (live_at t) LINKED_BUCKET_LEN (ptr_next LINKED_BUCKET_LEN LINKED_BUCKET_LEN) l ++ lents (live_at t) ls' end).
      { destruct (links b) as [|l' ls']; [done|]. unfold ptr_next. rewrite Nat.eqb_refl. by rewrite lents_cons. }
      rewrite R. destruct (walk_links t 0 (links b) LINKED_BUCKET_LEN) as [p' [|]].
      * destruct Y as (k & i' & l' & e & -> & H1 & H2 & H3). exists e.
        split; [exists l', i'; done|]. rewrite H3. cbn [index link_ptr Nat.add]. rewrite (drop_S _ _ _ H1).
        unfold ptr_next. assert (Wl : wf_block hash t LINKED_BUCKET_LEN l').
        { pose proof (wf_links _ _ _ W) as F. rewrite Forall_lookup in F. eauto. }
        pose proof (live_lt _ _ _ _ _ _ Wl H2).
        replace (i' =? LINKED_BUCKET_LEN) with false by (symmetry; apply Nat.eqb_neq; lia). done.
      * destruct Y as [Y ->]. done.
Qed.

Lemma after_null t b : after (live_at t) b null_ptr = entries t b.
Proof. unfold after, null_ptr; cbn [index link_ptr]. unfold ptr_next. by rewrite Nat.eqb_refl. Qed.
Lemma wf_null b : wf_ptr b null_ptr.
Proof. unfold wf_ptr, null_ptr; cbn [index link_ptr]. done. Qed.

(** ** Dropping *)
Lemma drop_block t len bl : len <= 32 -> wf_block hash t len bl ->
  exists d' es, drop_loop 33 (data bl) (occ bl) = Some (d', es) /\ es ≡ₚ ents stored_at len 0 bl.
Proof.
  intros Hl W. destruct (drop_loop_spec 33 (data bl) (occ bl)) as (d' & es & E & L & A & B & P & M).
  - intros i Hi. apply (wf_occ _ _ _ _ W) in Hi as Hs. pose proof (stored_lt hash _ _ _ _ W Hs).
    destruct Hs as [e He]. split; [lia|]. exists e. by apply stored_data.
  - apply pop_le32.
  - exists d', es. split; [done|]. rewrite ents_data by apply W. rewrite P.
    replace (omap id d') with (@nil (K * V)); [by rewrite app_nil_r|].
    symmetry. clear P M E. assert (X : forall i x, d' !! i = Some x -> x = None).
    { intros i x Hx. destruct (tb (occ bl) i) eqn:T.
      - rewrite A in Hx by done. congruence.
      - rewrite B in Hx by done. destruct x as [e|]; [|done].
        assert (tb (occ bl) i = true); [|congruence]. apply W. exists e. unfold stored_at. by rewrite Hx. }
    clear A B L. induction d' as [|x d' IH]; [done|].
    rewrite (X 0 x eq_refl). cbn. apply IH. intros i y Hy. by apply (X (S i)).
Qed.
Lemma drop_links_spec t (ls : list (block K V)) : Forall (wf_block hash t LINKED_BUCKET_LEN) ls ->
  exists es, drop_links ls = Some es /\ es ≡ₚ lents stored_at ls.
Proof.
  induction ls as [|l ls IH]; intros F; cbn [drop_links]; [by exists []|].
  inversion F as [|? ? Wl F']; subst. destruct (IH F') as (es & E & P).
  destruct (drop_block t LINKED_BUCKET_LEN l ltac:(unfold LINKED_BUCKET_LEN; lia) Wl) as (d' & es' & E' & P').
  rewrite E', obind, E, obind. cbn [fst snd]. eexists. split; [done|]. by rewrite lents_cons, P, P'.
Qed.
Lemma drop_entries_spec t b : wf_core hash t b ->
  exists es, drop_entries b = Some es /\ es ≡ₚ stored b.
Proof.
  intros W. unfold drop_entries. destruct (drop_links_spec t (links b) (wf_links _ _ _ W)) as (es & E & P).
  destruct (drop_block t BUCKET_LEN (main b) ltac:(unfold BUCKET_LEN; lia) (wf_main _ _ _ W)) as (d' & es' & E' & P').
  rewrite E, obind, E', obind. cbn [fst snd]. eexists. split; [done|].
  unfold stored, all_ents. rewrite P, P'. apply Permutation_app_comm.
Qed.
(** Killing a bucket whose entries have all been moved drops nothing, except unreachable ones of a
    HashIndex, which stay. *)
Lemma kill_spec t b : wf_core hash t b ->
  exists b' d, kill t b = Some (b', d) /\ stored b ≡ₚ d ++ stored b' /\ (entries t b = [] -> d = [] /\ entries t b' = []).
Proof.
  intros W. unfold kill. destruct (decide (t = INDEX)) as [Ht|Ht].
  - exists b, []. done.
  - destruct (drop_links_spec t (links b) (wf_links _ _ _ W)) as (es & E & P). rewrite E, obind.
    eexists _, _. split; [done|]. split.
    + unfold stored, all_ents; cbn [main links]. rewrite P, lents_nil, app_nil_r. apply Permutation_app_comm.
    + intros X. pose proof (stored_entries hash t b Ht W) as Y. rewrite X in Y.
      unfold stored, all_ents in Y. apply app_eq_nil in Y as [Y1 Y2]. rewrite Y2 in P.
      split; [by apply Permutation_nil_r in P|].
      unfold entries, all_ents in X |- *; cbn [main links]. apply app_eq_nil in X as [X _]. by rewrite X.
Qed.
End ops3.
