(** Proofs about one bucket. *)
From stdpp Require Import prelude list numbers.
From Coq Require Import NArith Lia.
From Verif Require Import LruModel LruSpec LruFacts BucketModel BucketSpec.

(** ** Bitmaps *)
Lemma tb_bit i j : tb (bit i) j = bool_decide (i = j).
Proof.
  unfold tb, bit. rewrite N.shiftl_1_l. case_bool_decide as H.
  - subst. apply N.pow2_bits_true.
  - apply N.pow2_bits_false. lia.
Qed.
Lemma tb_0 j : tb 0 j = false.
Proof. unfold tb. apply N.bits_0. Qed.
Lemma tb_lor a b j : tb (N.lor a b) j = tb a j || tb b j.
Proof. apply N.lor_spec. Qed.
Lemma tb_ldiff a b j : tb (N.ldiff a b) j = tb a j && negb (tb b j).
Proof. apply N.ldiff_spec. Qed.
Lemma tb_ones n j : tb (N.ones (N.of_nat n)) j = bool_decide (j < n).
Proof.
  unfold tb. case_bool_decide.
  - apply N.ones_spec_low. lia.
  - apply N.ones_spec_high. lia.
Qed.
Lemma tb_ext a b : (forall j, tb a j = tb b j) -> a = b.
Proof.
  intros H. apply N.bits_inj. intros n. specialize (H (N.to_nat n)). unfold tb in H.
  rewrite N2Nat.id in H. exact H.
Qed.
Lemma tb_u32_max j : tb u32_max j = bool_decide (j < 32).
Proof. change u32_max with (N.ones (N.of_nat 32)). apply tb_ones. Qed.
Lemma sub_ldiff a b : (forall j, tb b j = true -> tb a j = true) -> N.sub a b = N.ldiff a b.
Proof.
  intros H. apply N.sub_nocarry_ldiff. apply N.bits_inj. intros n.
  rewrite N.ldiff_spec, N.bits_0.
  specialize (H (N.to_nat n)). unfold tb in H. rewrite N2Nat.id in H.
  destruct (N.testbit b n); [rewrite H by done|]; done.
Qed.

Lemma first_bit_spec c fuel : forall i m,
  let r := first_bit c fuel i m in
  i <= r <= i + fuel /\ (forall j, i <= j < r -> tb m j = negb c) /\
  (r < i + fuel -> tb m r = c).
Proof.
  induction fuel as [|f IH]; intros i m; cbn [first_bit].
  - repeat split; try lia; intros; lia.
  - destruct (Bool.eqb (N.testbit m (N.of_nat i)) c) eqn:E; cbn zeta.
    + apply Bool.eqb_prop in E. split; [lia|]. split; [intros; lia|]. intros _. exact E.
    + apply Bool.eqb_false_iff in E.
      destruct (IH (S i) m) as (A & B & C). split; [lia|]. split.
      * intros j Hj. destruct (decide (j = i)) as [->|].
        -- unfold tb. destruct (N.testbit m (N.of_nat i)), c; done.
        -- apply B. lia.
      * intros Hr. apply C. lia.
Qed.
Lemma trailing_zeros_spec m : trailing_zeros m <= 32 /\
  (forall j, j < trailing_zeros m -> tb m j = false) /\
  (trailing_zeros m < 32 -> tb m (trailing_zeros m) = true).
Proof.
  destruct (first_bit_spec true 32 0 m) as (A & B & C). unfold trailing_zeros.
  split; [lia|]. split; [intros j Hj; apply B; lia|]. intros; apply C; lia.
Qed.
Lemma trailing_ones_spec m : trailing_ones m <= 32 /\
  (forall j, j < trailing_ones m -> tb m j = true) /\
  (trailing_ones m < 32 -> tb m (trailing_ones m) = false).
Proof.
  destruct (first_bit_spec false 32 0 m) as (A & B & C). unfold trailing_ones.
  split; [lia|]. split; [intros j Hj; apply B; lia|]. intros; apply C; lia.
Qed.

(** The number of set bits, as a termination measure and for capacity accounting. *)
Definition pop (m : N) : nat := length (filter (fun i => tb m i = true) (seq 0 32)).
Lemma pop_le m : pop m <= 32.
Proof. unfold pop. rewrite <- (seq_length 32 0) at 2. apply filter_length. Qed.

Lemma filter_ext_in {A} (P Q : A -> Prop) `{!forall x, Decision (P x), !forall x, Decision (Q x)} (l : list A) :
  (forall x, x ∈ l -> P x <-> Q x) -> filter P l = filter Q l.
Proof.
  induction l as [|x l IH]; intros HH; [done|].
  destruct (decide (P x)).
  - rewrite !filter_cons_True; [|apply HH; [left|done]|done]. f_equal. apply IH. intros. apply HH. by right.
  - rewrite !filter_cons_False; [|intros X; apply HH in X; [done|left]|done]. apply IH. intros. apply HH. by right.
Qed.
Lemma filter_seq_clear (P Q : nat -> Prop) `{!forall x, Decision (P x), !forall x, Decision (Q x)} a n i :
  (forall j, Q j <-> P j /\ j <> i) -> P i -> a <= i < a + n ->
  length (filter P (seq a n)) = S (length (filter Q (seq a n))).
Proof.
  intros HH Pi. revert a. induction n as [|n IH]; intros a Hi; [lia|]. cbn [seq].
  destruct (decide (a = i)) as [->|Ne].
  - rewrite filter_cons_True by done. rewrite filter_cons_False by (rewrite HH; tauto).
    cbn [length]. f_equal. f_equal. apply filter_ext_in. intros x Hx.
    apply elem_of_seq in Hx. rewrite HH. split; [intros; split; [done|lia]|tauto].
  - destruct (decide (P a)).
    + rewrite !filter_cons_True by (rewrite ?HH; done). cbn [length]. rewrite IH by lia. done.
    + rewrite !filter_cons_False by (rewrite ?HH; tauto). apply IH. lia.
Qed.
Lemma pop_clear m i : i < 32 -> tb m i = true -> pop m = S (pop (N.ldiff m (bit i))).
Proof.
  intros Hi Ht. unfold pop. apply filter_seq_clear with (i := i); [|done|lia].
  intros j. rewrite tb_ldiff, tb_bit.
  case_bool_decide; subst; destruct (tb m j); simpl; naive_solver.
Qed.

(** ** Lists of slots *)
Lemma omap_ext_seq {A} (f g : nat -> option A) a n :
  (forall j, a <= j < a + n -> f j = g j) -> omap f (seq a n) = omap g (seq a n).
Proof.
  revert a. induction n as [|n IH]; intros a H; [done|]. cbn [seq]. simpl.
  rewrite H by lia. rewrite IH by (intros; apply H; lia). done.
Qed.
Lemma omap_seq_app {A} (f : nat -> option A) a n m :
  omap f (seq a (n + m)) = omap f (seq a n) ++ omap f (seq (a + n) m).
Proof. rewrite seq_app, omap_app. done. Qed.
Lemma omap_seq_cons {A} (f : nat -> option A) a n :
  omap f (seq a (S n)) = option_list (f a) ++ omap f (seq (S a) n).
Proof. cbn [seq]. simpl. by destruct (f a). Qed.
Lemma omap_seq_split {A} (f : nat -> option A) a n i : a <= i < a + n ->
  omap f (seq a n) = omap f (seq a (i - a)) ++ option_list (f i) ++ omap f (seq (S i) (a + n - S i)).
Proof.
  intros H. replace n with ((i - a) + S (a + n - S i)) at 1 by lia.
  rewrite omap_seq_app. f_equal. replace (a + (i - a)) with i by lia. apply omap_seq_cons.
Qed.
Lemma omap_seq_none {A} (f : nat -> option A) a n :
  (forall j, a <= j < a + n -> f j = None) -> omap f (seq a n) = [].
Proof.
  revert a. induction n as [|n IH]; intros a H; [done|]. rewrite omap_seq_cons, H by lia.
  simpl. apply IH. intros. apply H. lia.
Qed.
Lemma elem_of_omap_seq {A} (f : nat -> option A) a n x :
  x ∈ omap f (seq a n) <-> exists i, a <= i < a + n /\ f i = Some x.
Proof.
  rewrite elem_of_list_omap. split; intros (i & H & E); exists i.
  - apply elem_of_seq in H. done.
  - rewrite elem_of_seq. done.
Qed.

#[global] Arguments ents : simpl never.
#[global] Arguments entries : simpl never.
#[global] Arguments stored : simpl never.
#[global] Arguments all_ents : simpl never.

Section facts.
Context {K V : Type} `{EqDecision K}.
Context (hash : K -> N).
Implicit Types (b : bucket K V) (bl : block K V) (p : eptr) (e : K * V) (t : kind).

Notation F := (block K V -> nat -> option (K * V)).
Implicit Types f : F.

Lemma ents_eq f len a bl : ents f len a bl = omap (f bl) (seq a (len - a)).
Proof.
  unfold ents. induction (seq a (len - a)) as [|i l IH]; [done|].
  cbn [map concat omap list_omap]. rewrite IH. by destruct (f bl i).
Qed.
(** Splitting a block at one slot. *)
Lemma ents_split f len bl i : i < len ->
  ents f len 0 bl = ents f i 0 bl ++ option_list (f bl i) ++ ents f len (S i) bl.
Proof.
  intros H. rewrite !ents_eq. rewrite (omap_seq_split _ 0 (len - 0) i) by lia.
  replace (0 + (len - 0) - S i) with (len - S i) by lia.
  replace (i - 0) with i by lia. done.
Qed.
Lemma ents_ext f g len a bl bl' :
  (forall j, a <= j < len -> f bl j = g bl' j) -> ents f len a bl = ents g len a bl'.
Proof. intros H. rewrite !ents_eq. apply omap_ext_seq. intros. apply H. lia. Qed.

Lemma ents_change f len bl bl' i : i < len ->
  (forall j, j <> i -> f bl' j = f bl j) ->
  ents f len 0 bl' = ents f i 0 bl ++ option_list (f bl' i) ++ ents f len (S i) bl.
Proof.
  intros H E. rewrite (ents_split f len bl' i H).
  rewrite (ents_ext f f i 0 bl' bl) by (intros; apply E; lia).
  rewrite (ents_ext f f len (S i) bl' bl) by (intros; apply E; lia). done.
Qed.
Lemma ents_add f len bl bl' i e : i < len ->
  (forall j, j <> i -> f bl' j = f bl j) -> f bl i = None -> f bl' i = Some e ->
  ents f len 0 bl' ≡ₚ e :: ents f len 0 bl.
Proof.
  intros H E N S. rewrite (ents_change f len bl bl' i), (ents_split f len bl i) by done.
  rewrite N, S. simpl. symmetry. apply Permutation_middle.
Qed.

Lemma lents_app f ls1 ls2 : lents f (ls1 ++ ls2) = lents f ls1 ++ lents f ls2.
Proof. unfold lents. by rewrite map_app, concat_app. Qed.
Lemma lents_cons f l ls : lents f (l :: ls) = ents f LINKED_BUCKET_LEN 0 l ++ lents f ls.
Proof. done. Qed.
Lemma lents_split f ls j l : ls !! j = Some l ->
  lents f ls = lents f (take j ls) ++ ents f LINKED_BUCKET_LEN 0 l ++ lents f (drop (S j) ls).
Proof.
  intros H. rewrite <- (take_drop_middle _ _ _ H) at 1. by rewrite lents_app, lents_cons.
Qed.
Lemma lents_insert f ls j l l' : ls !! j = Some l ->
  lents f (<[j := l']> ls) =
  lents f (take j ls) ++ ents f LINKED_BUCKET_LEN 0 l' ++ lents f (drop (S j) ls).
Proof.
  intros H. rewrite insert_take_drop by (by eapply lookup_lt_Some).
  by rewrite lents_app, lents_cons.
Qed.
Lemma lents_delete f ls j : lents f (delete j ls) = lents f (take j ls) ++ lents f (drop (S j) ls).
Proof. by rewrite delete_take_drop, lents_app. Qed.

(** ** Blocks *)
Lemma stored_lt len t bl i : wf_block hash t len bl -> is_Some (stored_at bl i) -> i < len.
Proof.
  intros W [e E]. unfold stored_at in E. destruct (data bl !! i) eqn:D; [|done].
  apply lookup_lt_Some in D. rewrite (wf_data _ _ _ _ W) in D. done.
Qed.
Lemma live_stored t bl i e : live_at t bl i = Some e -> stored_at bl i = Some e.
Proof. unfold live_at. by destruct (tb _ i). Qed.
Lemma live_tb t bl i e : live_at t bl i = Some e -> tb (live_bitmap t bl) i = true.
Proof. unfold live_at. by destruct (tb _ i). Qed.
Lemma live_lt len t bl i e : wf_block hash t len bl -> live_at t bl i = Some e -> i < len.
Proof. intros W H. eapply stored_lt; [done|]. eexists. by eapply live_stored. Qed.
Lemma live_bitmap_occ t bl i : tb (live_bitmap t bl) i = true -> tb (occ bl) i = true.
Proof. destruct t; simpl; [done| |done]. rewrite tb_ldiff, andb_true_iff. tauto. Qed.
Lemma live_at_None len t bl i : wf_block hash t len bl ->
  live_at t bl i = None <-> tb (live_bitmap t bl) i = false.
Proof.
  intros W. unfold live_at. destruct (tb (live_bitmap t bl) i) eqn:E; [|done].
  apply live_bitmap_occ in E. apply (wf_occ _ _ _ _ W) in E as [e E]. rewrite E. done.
Qed.
Lemma live_at_tb len t bl i : wf_block hash t len bl ->
  tb (live_bitmap t bl) i = true -> is_Some (live_at t bl i).
Proof.
  intros W H. destruct (live_at t bl i) eqn:E; [eauto|]. apply (live_at_None _ _ _ _ W) in E. congruence.
Qed.

Lemma stored_data bl i e : stored_at bl i = Some e -> data bl !! i = Some (Some e).
Proof. unfold stored_at. destruct (data bl !! i) as [[?|]|]; simpl; congruence. Qed.
Lemma stored_insert bl i s : i < length (data bl) ->
  mjoin (<[i := s]> (data bl) !! i) = s.
Proof. intros. by rewrite list_lookup_insert. Qed.
Lemma stored_insert_ne bl i j s : i <> j ->
  mjoin (<[i := s]> (data bl) !! j) = stored_at bl j.
Proof. intros. by rewrite list_lookup_insert_ne. Qed.

Lemma wf_new_block t len : wf_block (V:=V) hash t len (new_block len).
Proof.
  assert (forall i, stored_at (K:=K) (V:=V) (new_block len) i = None) as S.
  { intros i. unfold stored_at, new_block. simpl.
    destruct (decide (i < len)).
    - rewrite lookup_replicate_2 by done. done.
    - rewrite lookup_ge_None_2; [done|]. rewrite replicate_length. lia. }
  constructor.
  - apply replicate_length.
  - apply replicate_length.
  - intros i. rewrite S. unfold new_block; cbn [occ]. rewrite tb_0. split; [done|]. intros [? ?]. done.
  - intros _ i. unfold new_block; cbn [rem]. by rewrite tb_0.
  - intros i e H. apply live_stored in H. by rewrite S in H.
Qed.
Lemma ents_new f len n : (forall i, f (new_block n) i = None) -> ents f len 0 (new_block n) = [].
Proof. intros H. rewrite !ents_eq. apply omap_seq_none. auto. Qed.
Lemma stored_new n i : stored_at (K:=K) (V:=V) (new_block n) i = None.
Proof.
  unfold stored_at, new_block. simpl. destruct (decide (i < n)).
  - rewrite lookup_replicate_2 by done. done.
  - rewrite lookup_ge_None_2; [done|]. rewrite replicate_length. lia.
Qed.
Lemma live_new t n i : live_at (K:=K) (V:=V) t (new_block n) i = None.
Proof. unfold live_at. destruct (tb _ i); [apply stored_new|done]. Qed.

(** *** Searching *)
Lemma mask_loop_spec ph cs : forall i bm j,
  tb (mask_loop ph cs i bm) j =
  tb bm j && (bool_decide (j < i) || match cs !! (j - i) with Some c => (c =? ph)%N | None => true end).
Proof.
  induction cs as [|c cs IH]; intros i bm j; cbn [mask_loop].
  - rewrite lookup_nil, orb_true_r, andb_true_r. done.
  - rewrite IH. destruct (decide (j < i)) as [H|H].
    + rewrite !bool_decide_true by lia. simpl.
      destruct (c =? ph)%N; [done|]. rewrite tb_ldiff, tb_bit, bool_decide_false by lia. by rewrite !andb_true_r.
    + rewrite (bool_decide_false (j < i)) by done. cbn [orb].
      destruct (decide (j = i)) as [->|Hne].
      * rewrite bool_decide_true by lia. replace (i - i) with 0 by lia. simpl.
        destruct (c =? ph)%N; simpl; [done|].
        rewrite tb_ldiff, tb_bit, bool_decide_true by done. simpl. by rewrite !andb_false_r.
      * rewrite bool_decide_false by lia. cbn [orb].
        replace (j - i) with (S (j - S i)) by lia. cbn [lookup list_lookup].
        destruct (c =? ph)%N; [done|]. rewrite tb_ldiff, tb_bit, bool_decide_false by lia.
        by rewrite !andb_true_r.
Qed.

Lemma probe_loop_spec fuel : forall k (d : list (option (K * V))) bm,
  (forall i, tb bm i = true -> i < 32 /\ exists e, d !! i = Some (Some e)) -> pop bm < fuel ->
  exists r, probe_loop fuel k d bm = Some r /\
    match r with
    | Some (e, i) => tb bm i = true /\ d !! i = Some (Some e) /\ e.1 = k
    | None => forall i e, tb bm i = true -> d !! i = Some (Some e) -> e.1 <> k
    end.
Proof.
  induction fuel as [|fuel IH]; intros k d bm H Hp; [lia|]. cbn [probe_loop].
  destruct (trailing_zeros_spec bm) as (A & B & C).
  destruct (Nat.eqb_spec (trailing_zeros bm) 32) as [E|E].
  - exists None. split; [done|]. intros i e Hi. exfalso. destruct (H i Hi) as [Hl _].
    rewrite B in Hi by lia. done.
  - set (o := trailing_zeros bm) in *. assert (T : tb bm o = true) by (apply C; lia).
    destruct (H o T) as [Ho [e He]]. rewrite He. simpl. destruct (decide (k = e.1)) as [->|Hk].
    + eexists. split; [done|]. done.
    + destruct (IH k d (N.ldiff bm (bit o))) as (r & E1 & E2).
      * intros i. rewrite tb_ldiff, andb_true_iff. intros [Hi _]. auto.
      * pose proof (pop_clear bm o Ho T). lia.
      * exists r. split; [done|]. destruct r as [[e' i]|].
        -- rewrite tb_ldiff, andb_true_iff in E2. naive_solver.
        -- intros i e' Hi Hd. destruct (decide (i = o)) as [->|Hio].
           ++ rewrite He in Hd. naive_solver.
           ++ eapply E2; [|done]. rewrite tb_ldiff, tb_bit, bool_decide_false by done.
              by rewrite andb_true_r.
Qed.

Lemma search_block_spec t len bl k hv : len <= 32 -> wf_block hash t len bl ->
  partial_hash hv = partial_hash (hash k) ->
  exists r, search_block t bl k hv = Some r /\
    match r with
    | Some (e, i) => live_at t bl i = Some e /\ e.1 = k
    | None => forall i e, live_at t bl i = Some e -> e.1 <> k
    end.
Proof.
  intros Hlen W Hh. unfold search_block.
  assert (M : forall i, tb (mask_loop (partial_hash hv) (hcell bl) 0 (live_bitmap t bl)) i = true ->
    tb (live_bitmap t bl) i = true).
  { intros i. rewrite mask_loop_spec, andb_true_iff. tauto. }
  destruct (probe_loop_spec 33 k (data bl)
              (mask_loop (partial_hash hv) (hcell bl) 0 (live_bitmap t bl))) as (r & E & R).
  { intros i Hi. apply M in Hi. destruct (live_at_tb _ _ _ _ W Hi) as [e He].
    split; [pose proof (live_lt _ _ _ _ _ W He); lia|]. exists e. apply stored_data. by eapply live_stored. }
  { pose proof (pop_le (mask_loop (partial_hash hv) (hcell bl) 0 (live_bitmap t bl))). lia. }
  exists r. split; [done|]. destruct r as [[e i]|].
  - destruct R as (T & D & ->). split; [|done]. unfold live_at. rewrite (M _ T).
    unfold stored_at. rewrite D. done.
  - intros i e He Hk. apply (R i e); [|by apply stored_data, (live_stored t)|done].
    rewrite mask_loop_spec. rewrite (live_tb _ _ _ _ He). simpl.
    replace (i - 0) with i by lia. rewrite (wf_hash _ _ _ _ W _ _ He), Hk, <- Hh, N.eqb_refl. done.
Qed.

(** *** Adding an entry to a block *)
Lemma insert_entry_spec t len bl i hv e : wf_block hash t len bl -> i < len ->
  tb (occ bl) i = false -> partial_hash hv = partial_hash (hash e.1) ->
  exists bl', insert_entry bl i (occ bl) hv e = Some bl' /\ wf_block hash t len bl' /\
    rem bl' = rem bl /\ occ bl' = N.lor (occ bl) (bit i) /\
    (forall j, j <> i -> stored_at bl' j = stored_at bl j) /\ stored_at bl' i = Some e /\
    (forall j, j <> i -> live_at t bl' j = live_at t bl j) /\ live_at t bl' i = Some e.
Proof.
  intros W Hi Ho Hh. unfold insert_entry.
  destruct (lookup_lt_is_Some_2 (data bl) i) as [d Hd]; [by rewrite (wf_data _ _ _ _ W)|].
  destruct (lookup_lt_is_Some_2 (hcell bl) i) as [c Hc]; [by rewrite (wf_hcell _ _ _ _ W)|].
  rewrite Hd, Hc. simpl. eexists. split; [done|].
  set (bl' := Block _ _ _ _).
  assert (S1 : forall j, j <> i -> stored_at bl' j = stored_at bl j).
  { intros j Hj. by apply stored_insert_ne. }
  assert (S2 : stored_at bl' i = Some e).
  { apply stored_insert. by rewrite (wf_data _ _ _ _ W). }
  assert (L1 : forall j, j <> i -> live_at t bl' j = live_at t bl j).
  { intros j Hj. unfold live_at. rewrite S1 by done.
    replace (tb (live_bitmap t bl') j) with (tb (live_bitmap t bl) j); [done|].
    unfold live_bitmap, bl'. destruct t; cbn [occ rem];
      rewrite ?tb_ldiff, tb_lor, tb_bit, bool_decide_false by done; by rewrite orb_false_r. }
  assert (R : t = INDEX -> tb (rem bl) i = false).
  { intros Ht. destruct (tb (rem bl) i) eqn:E; [|done].
    apply (wf_rem _ _ _ _ W Ht) in E. congruence. }
  assert (L2 : live_at t bl' i = Some e).
  { unfold live_at. rewrite S2.
    replace (tb (live_bitmap t bl') i) with true; [done|].
    unfold live_bitmap, bl'. destruct t; cbn [occ rem];
      rewrite ?tb_ldiff, tb_lor, tb_bit, bool_decide_true by done; rewrite orb_true_r; [done| |done].
    by rewrite R. }
  split; [|done]. constructor.
  - unfold bl'. cbn [hcell]. rewrite insert_length. apply W.
  - unfold bl'. cbn [data]. rewrite insert_length. apply W.
  - intros j. unfold bl' at 1. cbn [occ]. rewrite tb_lor, tb_bit.
    destruct (decide (j = i)) as [->|Hj].
    + rewrite bool_decide_true, orb_true_r by done. rewrite S2. split; eauto.
    + rewrite bool_decide_false, orb_false_r by done. rewrite S1 by done. apply W.
  - intros Ht j Hj. unfold bl' in *. cbn [rem occ] in *. rewrite tb_lor.
    apply (wf_rem _ _ _ _ W Ht) in Hj. by rewrite Hj.
  - intros j e' Hj. unfold bl'. cbn [hcell]. destruct (decide (j = i)) as [->|Hne].
    + rewrite L2 in Hj. injection Hj as <-. rewrite list_lookup_insert; [by rewrite Hh|].
      rewrite (wf_hcell _ _ _ _ W). done.
    + rewrite list_lookup_insert_ne by done. rewrite L1 in Hj by done. apply W. done.
Qed.

(** *** Taking an entry out of a block *)
Lemma clear_slot_spec t len bl i e : wf_block hash t len bl -> live_at t bl i = Some e ->
  let bl' := Block (N.ldiff (occ bl) (bit i)) (rem bl) (hcell bl) (<[i := None]> (data bl)) in
  wf_block hash t len bl' /\
  (forall j, j <> i -> stored_at bl' j = stored_at bl j) /\ stored_at bl' i = None /\
  (forall j, j <> i -> live_at t bl' j = live_at t bl j) /\ live_at t bl' i = None.
Proof.
  intros W L bl'.
  assert (Hi : i < len) by (by eapply live_lt).
  assert (S1 : forall j, j <> i -> stored_at bl' j = stored_at bl j).
  { intros j Hj. by apply stored_insert_ne. }
  assert (S2 : stored_at bl' i = None).
  { apply stored_insert. by rewrite (wf_data _ _ _ _ W). }
  assert (L1 : forall j, j <> i -> live_at t bl' j = live_at t bl j).
  { intros j Hj. unfold live_at. rewrite S1 by done.
    replace (tb (live_bitmap t bl') j) with (tb (live_bitmap t bl) j); [done|].
    unfold live_bitmap, bl'. destruct t; cbn [occ rem];
      rewrite ?tb_ldiff, tb_bit, bool_decide_false by done; by rewrite !andb_true_r. }
  assert (L2 : live_at t bl' i = None).
  { unfold live_at. rewrite S2. by destruct (tb _ _). }
  split; [|done]. constructor.
  - apply W.
  - unfold bl'. cbn [data]. rewrite insert_length. apply W.
  - intros j. unfold bl' at 1. cbn [occ]. rewrite tb_ldiff, tb_bit.
    destruct (decide (j = i)) as [->|Hj].
    + rewrite bool_decide_true, andb_false_r by done. rewrite S2. split; [done|]. by intros [? ?].
    + rewrite bool_decide_false, andb_true_r by done. rewrite S1 by done. apply W.
  - intros Ht j Hj. unfold bl' in *. cbn [rem occ] in *. rewrite tb_ldiff, tb_bit.
    rewrite (wf_rem _ _ _ _ W Ht j Hj). cbn [andb]. rewrite bool_decide_false; [done|].
    intros <-. apply live_tb in L. subst t. simpl in L. rewrite tb_ldiff, Hj, andb_false_r in L. done.
  - intros j e' Hj. destruct (decide (j = i)) as [->|Hne]; [by rewrite L2 in Hj|].
    rewrite L1 in Hj by done. apply W. done.
Qed.

(** ** Buckets *)
Definition ptr_len p : nat := match link_ptr p with None => BUCKET_LEN | Some _ => LINKED_BUCKET_LEN end.

Lemma ptr_len_le p : ptr_len p <= 32.
Proof. unfold ptr_len, BUCKET_LEN, LINKED_BUCKET_LEN. destruct (link_ptr p); lia. Qed.

Lemma wf_ptr_block t b p bl : wf_core hash t b -> ptr_block b p = Some bl ->
  wf_block hash t (ptr_len p) bl.
Proof.
  intros W H. unfold ptr_block, ptr_len in *. destruct (link_ptr p) as [j|].
  - pose proof (wf_links _ _ _ W) as L. rewrite Forall_lookup in L. eauto.
  - injection H as <-. apply W.
Qed.

Lemma before_at_after f b p bl i : ptr_block b p = Some bl -> index p = Some i -> i < ptr_len p ->
  all_ents f b = before f b p ++ option_list (f bl i) ++ after f b p.
Proof.
  intros Hb Hi Hl. unfold ptr_block, ptr_len, before, after, all_ents in *.
  rewrite Hi. unfold ptr_cur, ptr_next. destruct (link_ptr p) as [j|].
  - replace (i =? LINKED_BUCKET_LEN) with false by (symmetry; apply Nat.eqb_neq; lia).
    rewrite (drop_S _ _ _ Hb). rewrite (lents_split f _ _ _ Hb).
    rewrite (ents_split f LINKED_BUCKET_LEN bl i Hl). rewrite <- !app_assoc. done.
  - injection Hb as <-.
    replace (i =? BUCKET_LEN) with false by (symmetry; apply Nat.eqb_neq; lia).
    rewrite (ents_split f BUCKET_LEN (main b) i Hl). rewrite <- !app_assoc. done.
Qed.

(** Changing the slot under the pointer. *)
Lemma set_ptr_before f b p bl bl' i : ptr_block b p = Some bl -> index p = Some i -> i < ptr_len p ->
  (forall j, j <> i -> f bl' j = f bl j) ->
  before f (set_ptr_block b p bl') p = before f b p /\
  after f (set_ptr_block b p bl') p = after f b p /\
  ptr_block (set_ptr_block b p bl') p = Some bl'.
Proof.
  intros Hb Hi Hl E. unfold set_ptr_block, ptr_block, ptr_len, before, after in *.
  rewrite Hi. unfold ptr_cur, ptr_next. destruct (link_ptr p) as [j|]; cbn [main links].
  - replace (i =? LINKED_BUCKET_LEN) with false by (symmetry; apply Nat.eqb_neq; lia).
    pose proof (lookup_lt_Some _ _ _ Hb) as Hj.
    assert (Hb' : <[j:=bl']> (links b) !! j = Some bl') by (by apply list_lookup_insert).
    rewrite (drop_S _ _ _ Hb), (drop_S _ _ _ Hb').
    rewrite take_insert by done. rewrite drop_insert_gt by lia.
    split; [|split; [|done]].
    + do 2 f_equal. apply ents_ext. intros. apply E. lia.
    + f_equal. apply ents_ext. intros. apply E. lia.
  - injection Hb as <-.
    replace (i =? BUCKET_LEN) with false by (symmetry; apply Nat.eqb_neq; lia).
    split; [|split; [|done]].
    + apply ents_ext. intros. apply E. lia.
    + f_equal. apply ents_ext. intros. apply E. lia.
Qed.

Lemma set_ptr_all f b p bl bl' i : ptr_block b p = Some bl -> index p = Some i -> i < ptr_len p ->
  (forall j, j <> i -> f bl' j = f bl j) ->
  all_ents f (set_ptr_block b p bl') = before f b p ++ option_list (f bl' i) ++ after f b p.
Proof.
  intros Hb Hi Hl E. destruct (set_ptr_before f b p bl bl' i Hb Hi Hl E) as (A & B & C).
  rewrite (before_at_after f _ p bl' i C Hi Hl). by rewrite A, B.
Qed.

Lemma set_ptr_wf t b p bl bl' : ptr_block b p = Some bl -> wf_core hash t b ->
  wf_block hash t (ptr_len p) bl' ->
  wf_block hash t BUCKET_LEN (main (set_ptr_block b p bl')) /\
  Forall (wf_block hash t LINKED_BUCKET_LEN) (links (set_ptr_block b p bl')).
Proof.
  intros Hb W W'. unfold set_ptr_block, ptr_len in *. destruct (link_ptr p) as [j|]; simpl.
  - split; [apply W|]. apply Forall_insert; [apply W|done].
  - split; [done|apply W].
Qed.

(** *** Search *)
Lemma elem_of_ents f len t bl e : wf_block hash t len bl -> (forall i e, f bl i = Some e -> i < len) ->
  e ∈ ents f len 0 bl <-> exists i, f bl i = Some e.
Proof.
  intros W Hf. rewrite !ents_eq. rewrite elem_of_omap_seq. split.
  - intros (i & _ & H). eauto.
  - intros (i & H). exists i. split; [|done]. pose proof (Hf _ _ H). lia.
Qed.
Lemma elem_of_live t len bl e : wf_block hash t len bl ->
  e ∈ ents (live_at t) len 0 bl <-> exists i, live_at t bl i = Some e.
Proof. intros W. eapply elem_of_ents; [done|]. intros. by eapply live_lt. Qed.
Lemma elem_of_lents f ls e : e ∈ lents f ls <-> exists j l, ls !! j = Some l /\ e ∈ ents f LINKED_BUCKET_LEN 0 l.
Proof.
  unfold lents. induction ls as [|l ls IH]; cbn [map concat].
  - split; [by intros ?%elem_of_nil|]. intros (j & l & H & _). done.
  - rewrite elem_of_app, IH. split.
    + intros [H|(j & l' & H & H')]; [exists 0, l; done|exists (S j), l'; done].
    + intros ([|j] & l' & H & H'); simpl in H; [injection H as ->; auto|right; eauto].
Qed.
Lemma elem_of_entries_split t b e : wf_core hash t b ->
  e ∈ entries t b <-> (exists i, live_at t (main b) i = Some e) \/ e ∈ lents (live_at t) (links b).
Proof.
  intros W. unfold entries, all_ents. rewrite elem_of_app.
  rewrite (elem_of_live t BUCKET_LEN) by apply W. done.
Qed.
Lemma elem_of_entries t b e : wf_core hash t b -> e ∈ entries t b <-> exists p, points_to t b p e.
Proof.
  intros W. unfold entries, all_ents. rewrite elem_of_app, elem_of_lents.
  rewrite (elem_of_live t BUCKET_LEN) by apply W. split.
  - intros [(i & H)|(j & l & Hl & H)].
    + exists (EPtr None (Some i)). exists (main b), i. done.
    + pose proof (wf_links _ _ _ W) as F. rewrite Forall_lookup in F.
      apply (elem_of_live t) in H as (i & H); [|eauto].
      exists (EPtr (Some j) (Some i)). exists l, i. done.
  - intros (p & bl & i & Hb & Hi & L). unfold ptr_block in Hb.
    destruct (link_ptr p) as [j|].
    + right. exists j, bl. split; [done|].
      pose proof (wf_links _ _ _ W) as F. rewrite Forall_lookup in F.
      apply (elem_of_live t); eauto.
    + injection Hb as <-. left. eauto.
Qed.

Lemma search_links_spec t k hv ls : forall j, Forall (wf_block hash t LINKED_BUCKET_LEN) ls ->
  partial_hash hv = partial_hash (hash k) ->
  exists r, search_links t j ls k hv = Some r /\
    match r with
    | Some (e, p) => exists j' l i, p = EPtr (Some (j + j')) (Some i) /\ ls !! j' = Some l /\
                       live_at t l i = Some e /\ e.1 = k
    | None => forall e, e ∈ lents (live_at t) ls -> e.1 <> k
    end.
Proof.
  induction ls as [|l ls IH]; intros j F Hh; cbn [search_links].
  - exists None. split; [done|]. intros e He. by apply elem_of_nil in He.
  - inversion F as [|? ? Wl F']; subst.
    destruct (search_block_spec t LINKED_BUCKET_LEN l k hv) as (r & E & R); [unfold LINKED_BUCKET_LEN; lia|done|done|].
    rewrite E. cbn [mbind option_bind]. destruct r as [[e i]|].
    + eexists. split; [done|]. exists 0, l, i. rewrite Nat.add_0_r. naive_solver.
    + destruct (IH (S j) F' Hh) as (r & E' & R'). rewrite E'. exists r. split; [done|].
      destruct r as [[e p]|].
      * destruct R' as (j' & l' & i & -> & H1 & H2 & H3). exists (S j'), l', i.
        rewrite Nat.add_succ_r. done.
      * intros e He. rewrite lents_cons in He. apply elem_of_app in He as [He|He]; [|auto].
        apply (elem_of_live t) in He as (i & He); eauto.
Qed.

Lemma search_spec t b k hv : wf_core hash t b -> partial_hash hv = partial_hash (hash k) ->
  exists r, search t b k hv = Some r /\
    match r with
    | Some (e, p) => points_to t b p e /\ e.1 = k
    | None => forall e, e ∈ entries t b -> e.1 <> k
    end.
Proof.
  intros W Hh. unfold search. destruct (Nat.eqb_spec (blen b) 0) as [E|E].
  - exists None. split; [done|]. intros e He. rewrite (wf_len _ _ _ W) in E.
    apply nil_length_inv in E. rewrite E in He. by apply elem_of_nil in He.
  - destruct (search_block_spec t BUCKET_LEN (main b) k hv) as (r & E1 & R); [unfold BUCKET_LEN; lia|apply W|done|].
    rewrite E1. cbn [mbind option_bind]. destruct r as [[e i]|].
    + eexists. split; [done|]. destruct R as [R ->]. split; [|done]. exists (main b), i. done.
    + destruct (search_links_spec t k hv (links b) 0) as (r & E2 & R2); [apply W|done|].
      rewrite E2. exists r. split; [done|]. destruct r as [[e p]|].
      * destruct R2 as (j' & l & i & -> & H1 & H2 & H3). split; [|done]. exists l, i. done.
      * intros e He. apply (elem_of_entries_split _ _ _ W) in He as [(i & He)|He]; [|by apply R2].
        exact (R i e He).
Qed.

Lemma points_to_get t b p e : points_to t b p e -> get b p = Some e.
Proof.
  intros (bl & i & Hb & Hi & L). unfold get. rewrite Hb, Hi. simpl.
  rewrite (stored_data _ _ _ (live_stored _ _ _ _ L)). done.
Qed.
Lemma points_to_split t b p e : wf_core hash t b -> points_to t b p e ->
  entries t b = before (live_at t) b p ++ e :: after (live_at t) b p.
Proof.
  intros W (bl & i & Hb & Hi & L). unfold entries.
  pose proof (wf_ptr_block _ _ _ _ W Hb) as Wb.
  rewrite (before_at_after _ b p bl i Hb Hi) by (by eapply live_lt). by rewrite L.
Qed.
Lemma points_to_in t b p e : wf_core hash t b -> points_to t b p e -> e ∈ entries t b.
Proof. intros W H. rewrite (points_to_split _ _ _ _ W H). set_solver. Qed.
End facts.
