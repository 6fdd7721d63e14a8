(** Proofs about the operations of one bucket: removal, marking, eviction, iteration, dropping. *)
From stdpp Require Import prelude list numbers.
From Coq Require Import NArith Lia.
From Verif Require Import LruModel LruSpec LruFacts BucketModel BucketSpec BucketFacts BucketOps.

Section ops2.
Context {K V : Type} `{EqDecision K}.
Context (hash : K -> N).
Implicit Types (b : bucket K V) (bl : block K V) (p : eptr) (e : K * V) (t : kind).

Lemma stored_entries t b : t <> INDEX -> wf_core hash t b -> stored b = entries t b.
Proof.
  intros Ht W.
  assert (X : forall len bl, wf_block hash t len bl -> forall i, stored_at bl i = live_at t bl i).
  { intros len bl Wb i. unfold live_at.
    replace (live_bitmap t bl) with (occ bl) by (by destruct t).
    destruct (tb (occ bl) i) eqn:T; [done|].
    destruct (stored_at bl i) eqn:S; [|done].
    assert (tb (occ bl) i = true) by (apply Wb; eauto). congruence. }
  unfold stored, entries, all_ents. f_equal.
  - apply ents_ext. intros. eapply X, W.
  - pose proof (wf_links _ _ _ W) as F. revert F. clear W.
    induction (links b) as [|l ls IH]; intros F; [done|].
    inversion F; subst. rewrite !lents_cons. rewrite IH by done. f_equal.
    apply ents_ext. intros. by eapply X.
Qed.

Lemma len_S t b p e : wf_core hash t b -> points_to t b p e ->
  exists n, dec_len (blen b) = Some n /\ n = length (before (live_at t) b p ++ after (live_at t) b p).
Proof.
  intros W P. pose proof (points_to_split _ _ _ _ _ W P) as E. pose proof (wf_len _ _ _ W) as L.
  rewrite E in L. rewrite app_length in *. cbn [length] in L.
  rewrite L. rewrite Nat.add_succ_r. eexists. split; [done|]. done.
Qed.

(** The removed-bitmap word of MAP and CACHE blocks carries no entries. *)
Definition set_rem bl r : block K V := Block (occ bl) r (hcell bl) (data bl).
Lemma live_set_rem t bl r i : t <> INDEX -> live_at t (set_rem bl r) i = live_at t bl i.
Proof. intros Ht. unfold live_at, set_rem. by destruct t. Qed.
Lemma wf_set_rem t len bl r : t <> INDEX -> wf_block hash t len bl -> wf_block hash t len (set_rem bl r).
Proof.
  intros Ht W. constructor.
  - apply W.
  - apply W.
  - apply W.
  - done.
  - intros i e He. rewrite live_set_rem in He by done. by apply W.
Qed.

Lemma set_ptr_main b p bl : link_ptr p = None -> set_ptr_block b p bl = Bucket (blen b) bl (links b) (lru b).
Proof. intros Hp. unfold set_ptr_block. by rewrite Hp. Qed.

Lemma all_ents_eq f b b' : main b' = main b -> links b' = links b -> all_ents (K:=K) (V:=V) f b' = all_ents f b.
Proof. intros H1 H2. unfold all_ents. by rewrite H1, H2. Qed.
Lemma after_eq f b b' p : main b' = main b -> links b' = links b -> after (K:=K) (V:=V) f b' p = after f b p.
Proof. intros H1 H2. unfold after. by rewrite H1, H2. Qed.
Lemma before_eq f b b' p : main b' = main b -> links b' = links b -> before (K:=K) (V:=V) f b' p = before f b p.
Proof. intros H1 H2. unfold before, all_ents. by rewrite H1, H2. Qed.

(** What taking the entry at [p] out of a bucket leaves behind. *)
Record taken t b p b' p' e : Prop := Taken {
  taken_core : wf_core hash t b';
  taken_entries : entries t b' = before (live_at t) b p ++ after (live_at t) b p;
  taken_before : before (live_at t) b' p' = before (live_at t) b p;
  taken_after : after (live_at t) b' p' = after (live_at t) b p;
  taken_stored : stored b ≡ₚ e :: stored b';
  taken_ptr : wf_ptr b' p' }.

Lemma points_to_wf_ptr t b p e : wf_core hash t b -> points_to t b p e -> wf_ptr b p.
Proof.
  intros W (bl & i & Hb & Hi & L). pose proof (wf_ptr_block _ _ _ _ _ W Hb) as Wb.
  pose proof (live_lt _ _ _ _ _ _ Wb L) as Hl. unfold wf_ptr, ptr_block, ptr_len in *. rewrite Hi.
  destruct (link_ptr p); [|lia]. split; [lia|]. by eapply lookup_lt_Some.
Qed.

(** Clearing the slot under [p] in place. *)
Lemma clear_ptr_taken t b p e bl i n lr : wf_core hash t b -> points_to t b p e ->
  ptr_block b p = Some bl -> index p = Some i -> live_at t bl i = Some e ->
  dec_len (blen b) = Some n ->
  let b1 := set_ptr_block b p (Block (N.ldiff (occ bl) (bit i)) (rem bl) (hcell bl) (<[i := None]> (data bl))) in
  taken t b p (Bucket n (main b1) (links b1) lr) p e.
Proof.
  intros W P Hb Hi L Hn b1. pose proof (wf_ptr_block _ _ _ _ _ W Hb) as Wb.
  destruct (clear_slot_spec hash t _ bl i e Wb L) as (W' & S1 & S2 & L1 & L2).
  set (bl' := Block _ _ _ _) in *.
  pose proof (live_lt _ _ _ _ _ _ Wb L) as Hl.
  destruct (set_ptr_before (live_at t) b p bl bl' i Hb Hi Hl L1) as (B1 & A1 & Q1).
  pose proof (set_ptr_all (live_at t) b p bl bl' i Hb Hi Hl L1) as EL. rewrite L2 in EL. cbn [option_list app] in EL.
  pose proof (set_ptr_all stored_at b p bl bl' i Hb Hi Hl S1) as ES. rewrite S2 in ES. cbn [option_list app] in ES.
  destruct (set_ptr_wf hash t b p bl bl' Hb W W') as (WM & WLk).
  destruct (len_S _ _ _ _ W P) as (n' & Hn' & Hlen).
  assert (n = n') as -> by congruence.
  subst b1. set (b1 := set_ptr_block b p bl') in *.
  constructor.
  - constructor; cbn [main links blen]; [done|done|]. unfold entries. by rewrite (all_ents_eq _ b1), EL.
  - unfold entries. by rewrite (all_ents_eq _ b1).
  - by rewrite (before_eq _ b1).
  - by rewrite (after_eq _ b1).
  - unfold stored. rewrite (all_ents_eq _ b1 (Bucket n' (main b1) (links b1) lr)) by done. rewrite ES.
    rewrite (before_at_after stored_at b p bl i Hb Hi Hl), (live_stored _ _ _ _ L). cbn [option_list app].
    symmetry. apply Permutation_middle.
  - pose proof (points_to_wf_ptr _ _ _ _ W P) as X. unfold wf_ptr in *. cbn [links]. unfold b1, set_ptr_block.
    destruct (index p); [|done]. destruct (link_ptr p) as [j|]; [|done]. cbn [links]. by rewrite insert_length.
Qed.

(** ** Removal *)
Lemma ents_all_none f len a bl : (forall i, f bl i = None) -> ents (K:=K) (V:=V) f len a bl = [].
Proof. intros H'. rewrite ents_eq. apply omap_seq_none. auto. Qed.

Lemma remove_spec t b p e : wf_bucket hash t b -> points_to t b p e ->
  exists b' p', remove t b p = Some (b', p', e) /\ wf_bucket hash t b' /\ taken t b p b' p' e.
Proof.
  intros [W WL] P. destruct (len_S _ _ _ _ W P) as (n & Hn & Hlen).
  pose proof P as (bl & i & Hb & Hi & L). pose proof (wf_ptr_block _ _ _ _ _ W Hb) as Wb.
  pose proof (live_lt _ _ _ _ _ _ Wb L) as Hl.
  unfold remove. rewrite Hn, obind, Hi, obind, (points_to_get _ _ _ _ P), obind.
  pose proof (fun lr => clear_ptr_taken t b p e bl i n lr W P Hb Hi L Hn) as CT. cbn zeta in CT.
  destruct (link_ptr p) as [j|] eqn:Hp.
  - pose proof Hb as Hb0. unfold ptr_block in Hb0. rewrite Hp in Hb0. rewrite Hb0, obind.
    destruct (_ && _) eqn:T.
    + apply andb_true_iff in T as [T1 T2]. apply N.eqb_eq in T1. apply bool_decide_eq_true in T2.
      eexists _, _. split; [done|].
      destruct (clear_slot_spec hash t _ bl i e Wb L) as (W' & S1 & S2 & L1 & L2).
      set (bl' := Block _ _ _ _) in *.
      assert (O0 : occ bl' = 0%N) by done.
      assert (LN : forall k, k <> i -> live_at t bl k = None).
      { intros k Hk. rewrite <- L1 by done. by eapply occ0_live. }
      assert (SN : forall k, k <> i -> stored_at bl k = None).
      { intros k Hk. rewrite <- S1 by done. by eapply occ0_stored. }
      assert (Z : forall f a len, (forall k, k <> i -> f bl k = None) -> (i < a \/ len <= i) -> ents f len a bl = []).
      { intros f a len Hf Ha. rewrite ents_eq. apply omap_seq_none. intros k Hk. apply Hf. lia. }
      pose proof (lookup_lt_Some _ _ _ Hb0) as Hj.
      assert (Ni : (i =? LINKED_BUCKET_LEN) = false).
      { apply Nat.eqb_neq. unfold ptr_len in Hl. rewrite Hp in Hl. lia. }
      assert (EB : before (live_at t) b p = ents (live_at t) BUCKET_LEN 0 (main b) ++ lents (live_at t) (take j (links b))).
      { unfold before. rewrite Hi, Hp, (drop_S _ _ _ Hb0). unfold ptr_cur. rewrite Ni.
        rewrite (Z _ 0 i LN) by lia. by rewrite app_nil_r. }
      assert (EA : after (live_at t) b p = lents (live_at t) (drop (S j) (links b))).
      { unfold after. rewrite Hi, Hp, (drop_S _ _ _ Hb0). unfold ptr_next. rewrite Ni.
        rewrite (Z _ (S i) LINKED_BUCKET_LEN LN) by lia. done. }
      set (b' := Bucket n (main b) (delete j (links b)) (lru b)).
      set (p' := if S j <? length (links b) then _ else _).
      assert (EE : entries t b' = before (live_at t) b p ++ after (live_at t) b p).
      { rewrite EB, EA. unfold entries, all_ents, b'; cbn [main links]. by rewrite lents_delete, app_assoc. }
      assert (WC : wf_core hash t b').
      { constructor.
        - apply W.
        - unfold b'; cbn [links]. apply Forall_delete, W.
        - unfold b' at 1; cbn [blen]. rewrite Hlen, EE. done. }
      assert (DD : drop j (delete j (links b)) = drop (S j) (links b)).
      { rewrite delete_take_drop. rewrite drop_app_alt; [done|]. rewrite take_length. lia. }
      assert (TT : take j (delete j (links b)) = take j (links b)).
      { rewrite delete_take_drop. rewrite take_app_alt; [done|]. rewrite take_length. lia. }
      assert (LL : length (delete j (links b)) = length (links b) - 1) by (apply length_delete; by eexists).
      split; [constructor; [done|]; by apply wf_lru_same|].
      constructor; [done|done|..].
      * rewrite EB. unfold p'. destruct (Nat.ltb_spec (S j) (length (links b))) as [X|X].
        -- unfold before, b'; cbn [index link_ptr main links]. rewrite TT, DD.
           destruct (drop (S j) (links b)); [by rewrite app_nil_r|].
           unfold ptr_cur. rewrite Nat.eqb_refl. unfold ents at 3. cbn [Nat.sub seq map concat].
           by rewrite app_nil_r.
        -- unfold before, all_ents, b'; cbn [index link_ptr main links]. rewrite lents_delete.
           rewrite (drop_ge (links b) (S j)) by done. by rewrite lents_nil, app_nil_r.
      * rewrite EA. unfold p'. destruct (Nat.ltb_spec (S j) (length (links b))) as [X|X].
        -- unfold after, b'; cbn [index link_ptr main links]. rewrite DD.
           destruct (drop (S j) (links b)) as [|l ls]; [done|]. unfold ptr_next. by rewrite Nat.eqb_refl.
        -- unfold after; cbn [index]. by rewrite (drop_ge (links b) (S j)).
      * unfold stored, all_ents, b'; cbn [main links]. rewrite (lents_split _ _ _ _ Hb0), lents_delete.
        rewrite (ents_split stored_at LINKED_BUCKET_LEN bl i)
          by (unfold ptr_len in Hl; by rewrite Hp in Hl).
        rewrite (Z _ 0 i SN), (Z _ (S i) LINKED_BUCKET_LEN SN) by lia.
        rewrite (live_stored _ _ _ _ L). cbn [option_list app].
        change (option_list (Some e)) with [e]. cbn [app].
        rewrite (app_assoc _ _ (_ :: _)), (app_assoc _ _ (lents _ (drop _ _))). symmetry. apply Permutation_middle.
      * unfold p'. destruct (Nat.ltb_spec (S j) (length (links b))) as [X|X]; [|done].
        unfold wf_ptr, b'; cbn [index link_ptr links]. rewrite LL. lia.
    + eexists _, _. split; [done|].
      assert (X : taken t b p (Bucket n (main b) (<[j:=Block (N.ldiff (occ bl) (bit i)) (rem bl) (hcell bl) (<[i := None]> (data bl))]> (links b)) (lru b)) p e).
      { specialize (CT (lru b)). unfold set_ptr_block in CT. rewrite Hp in CT. exact CT. }
      split; [|done]. constructor; [apply X|]. by apply wf_lru_same.
  - pose proof Hb as Hb0. unfold ptr_block in Hb0. rewrite Hp in Hb0. injection Hb0 as <-.
    assert (Hi32 : i < 32) by (unfold ptr_len in Hl; by rewrite Hp in Hl).
    destruct (decide (t = CACHE)) as [->|Ht].
    + destruct (WL eq_refl) as (r & R & HR).
      destruct (lru_remove_spec _ _ i R Hi32) as (s & Es & Rs).
      unfold remove_from_lru_list. rewrite Es, obind, obind. eexists _, _. split; [done|].
      set (b0 := with_lru b s).
      assert (Hm : main b0 = set_rem (main b) (N.of_nat (tail s))) by done.
      assert (Lf : forall k, live_at CACHE (main b0) k = live_at CACHE (main b) k)
        by (intros k; rewrite Hm; by apply live_set_rem).
      assert (Ef : forall len a, ents (live_at CACHE) len a (main b0) = ents (live_at CACHE) len a (main b)).
      { intros. by apply ents_ext. }
      assert (En : entries CACHE b0 = entries CACHE b).
      { unfold entries, all_ents. by rewrite Ef. }
      assert (W0 : wf_core hash CACHE b0).
      { constructor.
        - rewrite Hm. by apply wf_set_rem, W.
        - apply W.
        - rewrite En. apply W. }
      assert (P0 : points_to CACHE b0 p e).
      { exists (main b0), i. split; [unfold ptr_block; by rewrite Hp|]. split; [done|]. by rewrite Lf. }
      pose proof (clear_ptr_taken CACHE b0 p e (main b0) i n (lru b0) W0 P0
                   ltac:(unfold ptr_block; by rewrite Hp) Hi ltac:(by rewrite Lf) Hn) as X.
      cbn zeta in X. rewrite set_ptr_main in X by done. cbn [main links] in X.
      assert (Bf : before (live_at CACHE) b0 p = before (live_at CACHE) b p).
      { unfold before. rewrite Hi, Hp. apply Ef. }
      assert (Af : after (live_at CACHE) b0 p = after (live_at CACHE) b p).
      { unfold after. rewrite Hi, Hp. by rewrite Ef. }
      split.
      * constructor; [apply X|]. intros _. exists (filter (fun x => x <> i) r). split.
        -- unfold bucket_lru, b0, with_lru; cbn [main lru rem]. rewrite Nat2N.id. destruct s; exact Rs.
        -- intros k Hk. apply elem_of_list_filter in Hk as [Hk1 Hk2]. cbn [main occ].
           rewrite tb_ldiff, tb_bit, bool_decide_false by done. rewrite andb_true_r. apply HR. done.
      * destruct X as [X1 X2 X3 X4 X5 X6]. constructor; [done|by rewrite X2, Bf, Af|by rewrite X3|by rewrite X4|exact X5|done].
    + rewrite obind. eexists _, _. split; [done|].
      specialize (CT (lru b)). rewrite set_ptr_main in CT by done. cbn [main links] in CT.
      split; [|exact CT]. constructor; [apply CT|]. intros ->. done.
Qed.
End ops2.
