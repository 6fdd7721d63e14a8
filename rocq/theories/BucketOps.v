(** Proofs about the operations of one bucket. *)
From stdpp Require Import prelude list numbers.
From Coq Require Import NArith Lia.
From Verif Require Import LruModel LruSpec LruFacts BucketModel BucketSpec BucketFacts.

Lemma obind {A B} (x : A) (f : A -> option B) : mbind f (Some x) = f x.
Proof. reflexivity. Qed.

Section ops.
Context {K V : Type} `{EqDecision K}.
Context (hash : K -> N).
Implicit Types (b : bucket K V) (bl : block K V) (p : eptr) (e : K * V) (t : kind).

Lemma wf_new_bucket t : wf_bucket (V:=V) hash t new_bucket.
Proof.
  constructor; [constructor|].
  - apply wf_new_block.
  - constructor.
  - unfold entries, all_ents, new_bucket; cbn [main links blen].
    rewrite ents_new by apply live_new. done.
  - intros _. exists []. split; [apply rep_new|]. by intros i ?%elem_of_nil.
Qed.
Lemma entries_new t : entries (K:=K) (V:=V) t new_bucket = [].
Proof. unfold entries, all_ents, new_bucket; cbn [main links]. rewrite ents_new by apply live_new. done. Qed.
Lemma stored_new_bucket : stored (K:=K) (V:=V) new_bucket = [].
Proof. unfold stored, all_ents, new_bucket; cbn [main links]. rewrite ents_new by apply stored_new. done. Qed.

(** ** Dropping slots *)
Lemma omap_seq_data {A} (d : list (option A)) :
  omap (fun i => mjoin (d !! i)) (seq 0 (length d)) = omap id d.
Proof.
  induction d as [|x d IH] using rev_ind; [done|].
  rewrite app_length. simpl length. rewrite seq_app, omap_app. rewrite (omap_app id).
  f_equal.
  - rewrite <- IH. apply omap_ext_seq. intros i Hi. by rewrite lookup_app_l by lia.
  - simpl. rewrite lookup_app_r by lia. rewrite Nat.sub_diag. simpl. destruct x; done.
Qed.
Lemma ents_data len bl : length (data bl) = len -> ents stored_at len 0 bl = omap id (data bl).
Proof. intros <-. rewrite <- omap_seq_data. rewrite !ents_eq. by rewrite Nat.sub_0_r. Qed.

Lemma omap_take_out (d : list (option (K * V))) i e : d !! i = Some (Some e) ->
  omap id d ≡ₚ e :: omap id (<[i := None]> d).
Proof.
  intros H'. rewrite <- (take_drop_middle d i (Some e) H') at 1.
  rewrite insert_take_drop by (by eapply lookup_lt_Some).
  rewrite !omap_app. simpl. symmetry. apply Permutation_middle.
Qed.

Lemma tb_nonzero m : m <> 0%N -> exists i, tb m i = true.
Proof.
  intros H'. exists (N.to_nat (N.log2 m)). unfold tb. rewrite N2Nat.id. by apply N.bit_log2.
Qed.

Lemma drop_loop_spec fuel : forall (d : list (option (K * V))) bm,
  (forall i, tb bm i = true -> i < 32 /\ exists e, d !! i = Some (Some e)) -> pop bm < fuel ->
  exists d' es, drop_loop fuel d bm = Some (d', es) /\ length d' = length d /\
    (forall i, tb bm i = true -> d' !! i = Some None) /\
    (forall i, tb bm i = false -> d' !! i = d !! i) /\
    omap id d ≡ₚ es ++ omap id d' /\
    (forall e, e ∈ es -> exists i, tb bm i = true /\ d !! i = Some (Some e)).
Proof.
  induction fuel as [|fu IH]; intros d bm Hb Hp; [lia|]. cbn [drop_loop].
  destruct (N.eqb_spec bm 0) as [->|Hz].
  - exists d, []. split; [done|]. split; [done|]. split; [intros i; by rewrite tb_0|].
    split; [done|]. split; [done|]. intros e He. by apply elem_of_nil in He.
  - destruct (tb_nonzero _ Hz) as (k & Hk).
    destruct (trailing_zeros_spec bm) as (T1 & T2 & T3).
    assert (HT : trailing_zeros bm < 32).
    { destruct (decide (trailing_zeros bm < 32)); [done|].
      destruct (Hb k Hk) as [? _]. rewrite T2 in Hk by lia. done. }
    specialize (T3 HT). set (i := trailing_zeros bm) in *.
    destruct (Hb i T3) as (_ & e & He). rewrite He. simpl.
    assert (Hs : (bm - bit i)%N = N.ldiff bm (bit i)).
    { apply sub_ldiff. intros j. rewrite tb_bit. intros Hj. apply bool_decide_eq_true in Hj. by subst. }
    rewrite Hs.
    assert (Hbit : forall j, tb (N.ldiff bm (bit i)) j = tb bm j && negb (bool_decide (i = j))).
    { intros j. by rewrite tb_ldiff, tb_bit. }
    destruct (IH (<[i:=None]> d) (N.ldiff bm (bit i))) as (d' & es & E & L & A & B & P & M).
    + intros j Hj. rewrite Hbit in Hj. apply andb_true_iff in Hj as [Hj Hne].
      rewrite negb_true_iff, bool_decide_eq_false in Hne.
      destruct (Hb j Hj) as (? & e' & He'). split; [done|]. exists e'.
      by rewrite list_lookup_insert_ne.
    + rewrite (pop_clear bm i HT T3) in Hp. lia.
    + rewrite E. simpl. exists d', (e :: es). split; [done|].
      split; [by rewrite L, insert_length|]. split; [|split; [|split]].
      * intros j Hj. destruct (decide (i = j)) as [<-|Hne].
        -- rewrite B by (rewrite Hbit, bool_decide_true, andb_false_r; done).
           apply list_lookup_insert. by eapply lookup_lt_Some.
        -- apply A. by rewrite Hbit, Hj, bool_decide_false.
      * intros j Hj. rewrite B by (by rewrite Hbit, Hj).
        apply list_lookup_insert_ne. intros <-. congruence.
      * rewrite (omap_take_out _ _ _ He), P. done.
      * intros e' He'. apply elem_of_cons in He' as [->|He']; [eauto|].
        destruct (M _ He') as (j & Hj & Hj').
        rewrite Hbit in Hj. apply andb_true_iff in Hj as [Hj Hne].
        rewrite negb_true_iff, bool_decide_eq_false in Hne.
        rewrite list_lookup_insert_ne in Hj' by done. eauto.
Qed.

Lemma gen_mask_spec sg cs : forall i bm j,
  tb (gen_mask sg cs i bm) j =
  tb bm j && (bool_decide (j < i) || match cs !! (j - i) with Some c => negb (sg c) | None => true end).
Proof.
  induction cs as [|c cs IH]; intros i bm j; cbn [gen_mask].
  - rewrite lookup_nil, orb_true_r, andb_true_r. done.
  - rewrite IH. destruct (decide (j < i)) as [Hj|Hj].
    + rewrite !bool_decide_true by lia. rewrite !andb_true_r.
      destruct (sg c); [|done]. rewrite tb_ldiff, tb_bit, bool_decide_false by lia. by rewrite andb_true_r.
    + rewrite (bool_decide_false (j < i)) by lia.
      destruct (decide (j = i)) as [->|Hne].
      * rewrite bool_decide_true by lia. rewrite Nat.sub_diag. cbn [lookup list_lookup orb].
        destruct (sg c); cbn [negb]; [|by rewrite !andb_true_r].
        rewrite tb_ldiff, tb_bit, bool_decide_true by done. cbn [negb]. by rewrite !andb_false_r.
      * rewrite bool_decide_false by lia. replace (j - i) with (S (j - S i)) by lia.
        cbn [lookup list_lookup]. f_equal.
        destruct (sg c); [|done]. rewrite tb_ldiff, tb_bit, bool_decide_false by lia. by rewrite andb_true_r.
Qed.

Lemma pop_le32 m : pop m < 33.
Proof. pose proof (pop_le m). lia. Qed.

Lemma drop_unreachable_spec sg len bl : len <= 32 -> wf_block hash INDEX len bl ->
  exists bl' d, drop_unreachable sg bl = Some (bl', d) /\ wf_block hash INDEX len bl' /\
    (forall i, live_at INDEX bl' i = live_at INDEX bl i) /\
    ents stored_at len 0 bl ≡ₚ d ++ ents stored_at len 0 bl' /\
    (forall e, e ∈ d -> exists i c, tb (rem bl) i = true /\ stored_at bl i = Some e /\
                          hcell bl !! i = Some c /\ sg c = false).
Proof.
  intros Hlen W. unfold drop_unreachable. set (dr := gen_mask sg (hcell bl) 0 (rem bl)).
  assert (Hdr : forall j, tb dr j = tb (rem bl) j &&
            match hcell bl !! j with Some c => negb (sg c) | None => true end).
  { intros j. unfold dr. rewrite gen_mask_spec. rewrite Nat.sub_0_r.
    rewrite (bool_decide_false (j < 0)) by lia. done. }
  assert (Hro : forall j, tb (rem bl) j = true -> exists e, stored_at bl j = Some e).
  { intros j Hj. apply (wf_rem _ _ _ _ W eq_refl) in Hj. by apply (wf_occ _ _ _ _ W) in Hj. }
  assert (Hdrem : forall j, tb dr j = true -> tb (rem bl) j = true).
  { intros j. rewrite Hdr. intros Hj. by apply andb_true_iff in Hj as [? _]. }
  destruct (drop_loop_spec 33 (data bl) dr) as (d' & es & E & L & A & B & P & M).
  { intros j Hj. destruct (Hro j (Hdrem j Hj)) as (e & He). split.
    - assert (j < len) by (eapply stored_lt; eauto). lia.
    - exists e. by apply stored_data. }
  { apply pop_le32. }
  rewrite E. rewrite obind; cbn [fst snd]. eexists _, _. split; [done|]. set (bl' := Block _ _ _ _).
  assert (S1 : forall j, tb dr j = true -> stored_at bl' j = None).
  { intros j Hj. unfold stored_at, bl'; cbn [data]. by rewrite A. }
  assert (S2 : forall j, tb dr j = false -> stored_at bl' j = stored_at bl j).
  { intros j Hj. unfold stored_at, bl'; cbn [data]. by rewrite B. }
  assert (LV : forall i, live_at INDEX bl' i = live_at INDEX bl i).
  { intros j. unfold live_at. unfold bl' at 1. cbn [live_bitmap occ rem].
    rewrite !tb_ldiff. destruct (tb dr j) eqn:Hj.
    - rewrite (Hdrem j Hj), S1 by done. simpl. rewrite !andb_false_r. done.
    - rewrite S2 by done. simpl. by rewrite !andb_true_r. }
  split; [|split; [done|split]].
  - constructor.
    + apply W.
    + unfold bl'; cbn [data]. rewrite L. apply W.
    + intros j. unfold bl' at 1; cbn [occ]. rewrite tb_ldiff. destruct (tb dr j) eqn:Hj.
      * rewrite S1 by done. rewrite andb_false_r. split; [done|by intros [? ?]].
      * rewrite S2 by done. rewrite andb_true_r. apply W.
    + intros _ j. unfold bl'; cbn [rem occ]. rewrite !tb_ldiff, !andb_true_iff. intros [? ?].
      split; [|done]. by apply (wf_rem _ _ _ _ W).
    + intros j e. rewrite LV. apply W.
  - rewrite !ents_data; [done|..]; [unfold bl'; cbn [data]; rewrite L|]; apply W.
  - intros e He. destruct (M e He) as (i & Hi & Hd).
    pose proof (Hdrem i Hi) as Hr. rewrite Hdr, Hr in Hi. simpl in Hi.
    assert (Hs : stored_at bl i = Some e) by (unfold stored_at; by rewrite Hd).
    assert (Hlt : i < len) by (eapply stored_lt; eauto).
    destruct (lookup_lt_is_Some_2 (hcell bl) i) as [c Hc]; [by rewrite (wf_hcell _ _ _ _ W)|].
    rewrite Hc in Hi. exists i, c. rewrite negb_true_iff in Hi. done.
Qed.

Lemma lents_nil f : lents (K:=K) (V:=V) f [] = [].
Proof. reflexivity. Qed.
Lemma perm4 {A} (a b c d : list A) : (a ++ b) ++ (c ++ d) ≡ₚ (c ++ a) ++ (b ++ d).
Proof. solve_Permutation. Qed.
Lemma occ0_stored t len bl i : wf_block hash t len bl -> occ bl = 0%N -> stored_at bl i = None.
Proof.
  intros W E. destruct (stored_at bl i) eqn:S; [|done].
  assert (tb (occ bl) i = true) as X by (apply W; eauto). by rewrite E, tb_0 in X.
Qed.
Lemma occ0_live t len bl i : wf_block hash t len bl -> occ bl = 0%N -> live_at t bl i = None.
Proof. intros W E. unfold live_at. erewrite occ0_stored by eauto. by destruct (tb _ _). Qed.
Lemma ents_none f len a bl : (forall i, f bl i = None) -> ents (K:=K) (V:=V) f len a bl = [].
Proof. intros H'. rewrite !ents_eq. apply omap_seq_none. auto. Qed.

(** Every dropped entry was unreachable, and its removal epoch was judged old enough. *)
Definition reclaimable (sg : N -> bool) bl e : Prop :=
  exists i c, tb (rem bl) i = true /\ stored_at bl i = Some e /\ hcell bl !! i = Some c /\ sg c = false.

Lemma clear_links_spec sg ls : Forall (wf_block hash INDEX LINKED_BUCKET_LEN) ls ->
  exists ls' d, clear_links sg ls = Some (ls', d) /\
    Forall (wf_block hash INDEX LINKED_BUCKET_LEN) ls' /\
    lents (live_at INDEX) ls' = lents (live_at INDEX) ls /\
    lents stored_at ls ≡ₚ d ++ lents stored_at ls' /\
    (forall e, e ∈ d -> exists l, l ∈ ls /\ reclaimable sg l e) /\
    (forall j l i e, ls !! j = Some l -> live_at INDEX l i = Some e ->
       exists l', ls' !! j = Some l' /\ live_at INDEX l' i = Some e).
Proof.
  induction ls as [|l ls IH]; intros F; cbn [clear_links].
  - exists [], []. split; [done|]. split; [done|]. split; [done|]. split; [done|].
    split; [|done]. intros e He. by apply elem_of_nil in He.
  - inversion F as [|? ? Wl F']; subst.
    destruct (IH F') as (ls' & d & E & F1 & L1 & P1 & M1 & N1). rewrite E. rewrite obind; cbn [fst snd].
    destruct (drop_unreachable_spec sg LINKED_BUCKET_LEN l) as (l' & d' & E' & W' & L' & P' & M');
      [unfold LINKED_BUCKET_LEN; lia|done|].
    rewrite E'. rewrite obind; cbn [fst snd]. eexists _, _. split; [done|].
    assert (LL : ents (live_at INDEX) LINKED_BUCKET_LEN 0 l' = ents (live_at INDEX) LINKED_BUCKET_LEN 0 l)
      by (apply ents_ext; auto).
    assert (MM : forall e, e ∈ d ++ d' -> exists l0, l0 ∈ l :: ls /\ reclaimable sg l0 e).
    { intros e He. apply elem_of_app in He as [He|He].
      - destruct (M1 e He) as (l0 & ? & ?). exists l0. split; [by right|done].
      - exists l. split; [by left|by apply M']. }
    destruct (_ && _) eqn:T.
    + apply andb_true_iff in T as [T1 T2]. apply N.eqb_eq in T1. apply Nat.eqb_eq in T2.
      apply nil_length_inv in T2. subst ls'.
      split; [constructor|]. split; [|split; [|split; [done|]]].
      * rewrite lents_cons, <- LL, <- L1.
        rewrite (ents_none (live_at INDEX) _ 0 l') by (intros i; by eapply occ0_live).
        by rewrite lents_nil.
      * rewrite lents_cons, P', P1.
        rewrite (ents_none stored_at _ 0 l') by (intros i; by eapply occ0_stored).
        rewrite lents_nil. rewrite !app_nil_r. apply Permutation_app_comm.
      * intros [|j] l0 i e Hj He.
        -- injection Hj as <-. rewrite <- L' in He. by rewrite (occ0_live _ _ _ _ W' T1) in He.
        -- destruct (N1 j l0 i e Hj He) as (? & ? & _). done.
    + split; [by constructor|]. split; [|split; [|split; [done|]]].
      * by rewrite !lents_cons, LL, L1.
      * rewrite !lents_cons, P', P1. apply perm4.
      * intros [|j] l0 i e Hj He.
        -- injection Hj as <-. exists l'. split; [done|]. by rewrite L'.
        -- destruct (N1 j l0 i e Hj He) as (l1 & ? & ?). exists l1. done.
Qed.

Lemma clear_unreachable_spec sg b : wf_bucket hash INDEX b ->
  exists b' d, clear_unreachable sg b = Some (b', d) /\ wf_bucket hash INDEX b' /\
    entries INDEX b' = entries INDEX b /\ stored b ≡ₚ d ++ stored b' /\
    (forall e, e ∈ d -> exists bl, (bl = main b \/ bl ∈ links b) /\ reclaimable sg bl e) /\
    (forall p x, points_to INDEX b p x -> points_to INDEX b' p x).
Proof.
  intros [W _]. unfold clear_unreachable.
  destruct (clear_links_spec sg (links b)) as (ls' & d & E & F & L & P & M & N); [apply W|].
  rewrite E. rewrite obind; cbn [fst snd].
  destruct (drop_unreachable_spec sg BUCKET_LEN (main b)) as (m' & d' & E' & W' & L' & P' & M');
    [unfold BUCKET_LEN; lia|apply W|].
  rewrite E'. rewrite obind; cbn [fst snd]. eexists _, _. split; [done|].
  assert (EE : entries INDEX (Bucket (blen b) m' ls' (lru b)) = entries INDEX b).
  { unfold entries, all_ents; cbn [main links]. rewrite L. f_equal. apply ents_ext; auto. }
  split; [|split; [done|split; [|split]]].
  - constructor; [|done]. constructor; [done|done|]. cbn [blen]. rewrite EE. apply W.
  - unfold stored, all_ents; cbn [main links]. rewrite P, P'. apply perm4.
  - intros e He. apply elem_of_app in He as [He|He].
    + destruct (M e He) as (l & ? & ?). eauto.
    + exists (main b). split; [auto|]. by apply M'.
  - intros p x (bl & i & Hb & Hi & Lx). unfold ptr_block in Hb. destruct (link_ptr p) as [j|] eqn:Hp.
    + destruct (N j bl i x Hb Lx) as (l' & Hl' & Hx). exists l', i. unfold ptr_block. rewrite Hp. done.
    + injection Hb as <-. exists m', i. unfold ptr_block. rewrite Hp. split; [done|]. split; [done|].
      by rewrite L'.
Qed.

(** ** Insertion *)
Lemma ones_lt len t bl : wf_block hash t len bl -> len < 32 \/ len = 32 -> trailing_ones (occ bl) <= len.
Proof.
  intros W L. destruct (trailing_ones_spec (occ bl)) as (T1 & T2 & T3).
  destruct (decide (trailing_ones (occ bl) <= len)); [done|].
  assert (tb (occ bl) len = true) as X by (apply T2; lia).
  apply (wf_occ _ _ _ _ W) in X. pose proof (stored_lt hash _ _ _ _ W X). lia.
Qed.

(** [adds t len bl bl' i e]: [bl'] is [bl] with [e] in the free slot [i]. *)
Definition adds t len bl bl' i e : Prop :=
  i < len /\ wf_block hash t len bl' /\ rem bl' = rem bl /\
  (forall j, tb (occ bl) j = true -> tb (occ bl') j = true) /\
  (forall j, j <> i -> stored_at bl' j = stored_at bl j) /\ stored_at bl i = None /\ stored_at bl' i = Some e /\
  (forall j, j <> i -> live_at t bl' j = live_at t bl j) /\ live_at t bl i = None /\ live_at t bl' i = Some e.

Lemma adds_ents t len bl bl' i e : adds t len bl bl' i e ->
  ents (live_at t) len 0 bl' ≡ₚ e :: ents (live_at t) len 0 bl /\
  ents stored_at len 0 bl' ≡ₚ e :: ents stored_at len 0 bl.
Proof.
  intros (Hi & _ & _ & _ & S1 & S2 & S3 & L1 & L2 & L3). split; eapply ents_add; eauto.
Qed.

Lemma insert_entry_adds t len bl hv e : len <= 32 -> wf_block hash t len bl ->
  trailing_ones (occ bl) < len -> partial_hash hv = partial_hash (hash e.1) ->
  exists bl', insert_entry bl (trailing_ones (occ bl)) (occ bl) hv e = Some bl' /\
    adds t len bl bl' (trailing_ones (occ bl)) e.
Proof.
  intros Hlen W Hi Hh. destruct (trailing_ones_spec (occ bl)) as (T1 & T2 & T3).
  specialize (T3 ltac:(lia)). set (i := trailing_ones (occ bl)) in *.
  destruct (insert_entry_spec hash t len bl i hv e W Hi T3 Hh) as (bl' & E & W' & R & O & S1 & S2 & L1 & L2).
  exists bl'. split; [done|].
  assert (SN : stored_at bl i = None).
  { destruct (stored_at bl i) eqn:X; [|done].
    assert (tb (occ bl) i = true) by (apply W; eauto). congruence. }
  split; [done|]. split; [done|]. split; [done|]. split.
  { intros j Hj. by rewrite O, tb_lor, Hj. }
  split; [done|]. split; [done|]. split; [done|]. split; [done|]. split; [|done].
  unfold live_at. rewrite SN. destruct (tb (live_bitmap t bl) i); done.
Qed.

Lemma insert_links_spec t hv e ls : forall j, Forall (wf_block hash t LINKED_BUCKET_LEN) ls ->
  partial_hash hv = partial_hash (hash e.1) ->
  exists ls' r, insert_links j ls hv e = Some (ls', r) /\
    match r with
    | None => ls' = ls
    | Some (j', i) => exists n l l', j' = j + n /\ ls !! n = Some l /\ ls' = <[n := l']> ls /\
                       adds t LINKED_BUCKET_LEN l l' i e
    end.
Proof.
  induction ls as [|l ls IH]; intros j F Hh; cbn [insert_links].
  - exists [], None. done.
  - inversion F as [|? ? Wl F']; subst.
    destruct (Nat.eqb_spec (trailing_ones (occ l)) LINKED_BUCKET_LEN) as [T|T].
    + destruct (IH (S j) F' Hh) as (ls' & r & E & R). rewrite E. rewrite obind. cbn [fst snd].
      eexists _, _. split; [done|]. destruct r as [[j' i]|].
      * destruct R as (n & l0 & l' & -> & H1 & -> & H2).
        exists (S n), l0, l'. split; [lia|]. done.
      * by subst.
    + assert (trailing_ones (occ l) < LINKED_BUCKET_LEN) as Hlt.
      { pose proof (ones_lt _ _ _ Wl). unfold LINKED_BUCKET_LEN in *. lia. }
      destruct (insert_entry_adds t LINKED_BUCKET_LEN l hv e) as (l' & E & A);
        [unfold LINKED_BUCKET_LEN; lia|done|done|done|].
      rewrite E, obind. eexists _, _. split; [done|].
      exists 0, l, l'. split; [lia|]. done.
Qed.

Lemma wf_first_link t hv e : partial_hash hv = partial_hash (hash e.1) ->
  let nb := new_block LINKED_BUCKET_LEN in
  adds t LINKED_BUCKET_LEN nb (Block 1 0 (<[0%nat := partial_hash hv]> (hcell nb)) (<[0%nat := Some e]> (data nb))) 0 e.
Proof.
  intros Hh nb.
  destruct (insert_entry_adds t LINKED_BUCKET_LEN nb hv e) as (bl' & E & A).
  - unfold LINKED_BUCKET_LEN; lia.
  - apply wf_new_block.
  - vm_compute. lia.
  - done.
  - change (trailing_ones (occ nb)) with 0 in E, A.
    assert (E2 : insert_entry nb 0 (occ nb) hv e = Some (Block 1 0 (<[0%nat := partial_hash hv]> (hcell nb))
                   (<[0%nat := Some e]> (data nb)))) by reflexivity.
    rewrite E2 in E. injection E as <-. exact A.
Qed.

(** Replacing one link, resp. prepending one. *)
Lemma wf_lru_same t b n (m' : block K V) ls : wf_lru t b -> rem m' = rem (main b) ->
  (forall j, tb (occ (main b)) j = true -> tb (occ m') j = true) ->
  wf_lru t (Bucket n m' ls (lru b)).
Proof.
  intros H1 H2 H3 Ht. destruct (H1 Ht) as (r & R & HR). exists r.
  unfold bucket_lru in *. cbn [main lru rem]. rewrite H2. split; [done|]. auto.
Qed.

Lemma insert_links_ents t ls n l l' i e : ls !! n = Some l -> adds t LINKED_BUCKET_LEN l l' i e ->
  lents (live_at t) (<[n := l']> ls) ≡ₚ e :: lents (live_at t) ls /\
  lents stored_at (<[n := l']> ls) ≡ₚ e :: lents stored_at ls.
Proof.
  intros Hl A. destruct (adds_ents _ _ _ _ _ _ A) as [P1 P2].
  rewrite !(lents_insert _ _ _ _ _ Hl), !(lents_split _ _ _ _ Hl). rewrite P1, P2.
  split; cbn [app]; symmetry; apply Permutation_middle.
Qed.

Lemma insert_clear_spec t sg b : wf_bucket hash t b ->
  exists b1 d, insert_clear t sg b = Some (b1, d) /\
     wf_bucket hash t b1 /\ entries t b1 = entries t b /\ stored b ≡ₚ d ++ stored b1 /\
     (t <> INDEX -> d = []) /\
     (forall x, x ∈ d -> exists bl, (bl = main b \/ bl ∈ links b) /\ reclaimable sg bl x) /\
     (forall p x, points_to t b p x -> points_to t b1 p x).
Proof.
  intros W. unfold insert_clear. destruct (_ && _) eqn:T.
  - apply andb_true_iff in T as [T _]. apply andb_true_iff in T as [T _].
    apply bool_decide_eq_true in T as ->.
    destruct (clear_unreachable_spec sg b W) as (b1 & d & E & W1 & E1 & P1 & M1 & N1).
    exists b1, d. done.
  - exists b, []. split; [done|]. split; [done|]. split; [done|]. split; [done|]. split; [done|].
    split; [|done]. intros x Hx. by apply elem_of_nil in Hx.
Qed.

Lemma points_to_live t b p x bl i : ptr_block b p = Some bl -> index p = Some i ->
  points_to t b p x <-> live_at t bl i = Some x.
Proof.
  intros Hb Hi. split.
  - intros (bl' & i' & Hb' & Hi' & L). congruence.
  - intros L. exists bl, i. done.
Qed.

Lemma insert_core_spec t b1 hv e : wf_bucket hash t b1 -> partial_hash hv = partial_hash (hash e.1) ->
  exists b' p, insert_core b1 hv e = Some (b', p) /\ wf_bucket hash t b' /\
    entries t b' ≡ₚ e :: entries t b1 /\ points_to t b' p e /\
    stored b' ≡ₚ e :: stored b1 /\
    (forall q x, points_to t b1 q x -> points_to t b' (shift_ptr b1 b' q) x /\ shift_ptr b1 b' q <> p).
Proof.
  intros [W1 WL] Hh. unfold insert_core.
  destruct (Nat.eqb_spec (trailing_ones (occ (main b1))) BUCKET_LEN) as [T|T].
  - unfold insert_overflow.
    destruct (insert_links_spec t hv e (links b1) 0) as (ls' & r & E & R); [apply W1|done|].
    rewrite E, obind. destruct r as [[j i]|].
    + destruct R as (n & l & l' & -> & Hl & -> & A).
      eexists _, _. split; [done|].
      destruct (insert_links_ents _ _ _ _ _ _ _ Hl A) as [Q1 Q2].
      pose proof A as (_ & WB & _).
      assert (EE : entries t (Bucket (blen b1 + 1) (main b1) (<[n:=l']> (links b1)) (lru b1)) ≡ₚ e :: entries t b1).
      { unfold entries, all_ents; cbn [main links]. rewrite Q1. symmetry. apply Permutation_middle. }
      pose proof (lookup_lt_Some _ _ _ Hl) as Hn.
      split; [|split; [done|split; [|split]]].
      * constructor; [constructor|].
        -- apply W1.
        -- cbn [links]. apply Forall_insert; [apply W1|done].
        -- cbn [blen]. rewrite EE. cbn [length]. rewrite (wf_len _ _ _ W1). lia.
        -- by apply wf_lru_same.
      * exists l', i. split; [|split; [done|apply A]]. unfold ptr_block; cbn [link_ptr links].
        by apply list_lookup_insert.
      * unfold stored, all_ents; cbn [main links]. rewrite Q2. symmetry. apply Permutation_middle.
      * intros q x (bq & iq & Hb & Hi & L).
        assert (Es : shift_ptr b1 (Bucket (blen b1 + 1) (main b1) (<[n:=l']> (links b1)) (lru b1)) q = q).
        { unfold shift_ptr; cbn [links]. rewrite insert_length, Nat.sub_diag. destruct q as [[jq|] ?]; cbn; [|done].
          by rewrite Nat.add_0_r. }
        rewrite Es. destruct A as (_ & _ & _ & _ & _ & _ & _ & LA & LN & _).
        unfold ptr_block in Hb. destruct (link_ptr q) as [jq|] eqn:Hq.
        -- destruct (decide (jq = n)) as [->|Hne].
           ++ assert (bq = l) as -> by congruence.
              assert (iq <> i) by congruence.
              split.
              ** exists l', iq. unfold ptr_block. rewrite Hq. cbn [links]. rewrite list_lookup_insert by done.
                 split; [done|]. split; [done|]. by rewrite LA.
              ** intros ->. cbn in Hi. congruence.
           ++ split.
              ** exists bq, iq. unfold ptr_block. rewrite Hq. cbn [links]. by rewrite list_lookup_insert_ne.
              ** intros ->. cbn in Hq. congruence.
        -- split.
           ** exists bq, iq. unfold ptr_block. rewrite Hq. done.
           ** intros ->. done.
    + subst ls'. eexists _, _. split; [done|].
      pose proof (wf_first_link t hv e Hh) as A. cbn zeta in A.
      set (l' := Block 1 0 _ _) in *. destruct (adds_ents _ _ _ _ _ _ A) as [Q1 Q2].
      pose proof A as (_ & WB & _).
      rewrite ents_new in Q1 by apply live_new. rewrite ents_new in Q2 by apply stored_new.
      assert (EE : entries t (Bucket (blen b1 + 1) (main b1) (l' :: links b1) (lru b1)) ≡ₚ e :: entries t b1).
      { unfold entries, all_ents; cbn [main links]. rewrite lents_cons, Q1. symmetry.
        apply (Permutation_middle _ _ e). }
      split; [|split; [done|split; [|split]]].
      * constructor; [constructor|].
        -- apply W1.
        -- cbn [links]. constructor; [done|apply W1].
        -- cbn [blen]. rewrite EE. cbn [length]. rewrite (wf_len _ _ _ W1). lia.
        -- by apply wf_lru_same.
      * exists l', 0. split; [done|split; [done|apply A]].
      * unfold stored, all_ents; cbn [main links]. rewrite lents_cons, Q2. symmetry.
        apply (Permutation_middle _ _ e).
      * intros q x (bq & iq & Hb & Hi & L). unfold shift_ptr; cbn [links length].
        replace (S (length (links b1)) - length (links b1)) with 1 by lia.
        unfold ptr_block in Hb. destruct (link_ptr q) as [jq|] eqn:Hq; cbn [option_map].
        -- split.
           ** exists bq, iq. split; [|done]. unfold ptr_block; cbn [link_ptr links].
              rewrite Nat.add_1_r. done.
           ** intros [=]. lia.
        -- split; [|done]. exists bq, iq. done.
  - assert (trailing_ones (occ (main b1)) < BUCKET_LEN) as Hlt.
    { pose proof (ones_lt _ _ _ (wf_main _ _ _ W1)). unfold BUCKET_LEN in *. lia. }
    destruct (insert_entry_adds t BUCKET_LEN (main b1) hv e) as (l' & E & A);
      [unfold BUCKET_LEN; lia|apply W1|done|done|].
    rewrite E, obind. eexists _, _. split; [done|].
    destruct (adds_ents _ _ _ _ _ _ A) as [Q1 Q2]. pose proof A as (_ & WB & RB & OB & _).
    assert (EE : entries t (Bucket (blen b1 + 1) l' (links b1) (lru b1)) ≡ₚ e :: entries t b1).
    { unfold entries, all_ents; cbn [main links]. by rewrite Q1. }
    split; [|split; [done|split; [|split]]].
    + constructor; [constructor|].
      * done.
      * apply W1.
      * cbn [blen]. rewrite EE. cbn [length]. rewrite (wf_len _ _ _ W1). lia.
      * by apply wf_lru_same.
    + exists l', (trailing_ones (occ (main b1))). split; [done|split; [done|apply A]].
    + unfold stored, all_ents; cbn [main links]. by rewrite Q2.
    + intros q x (bq & iq & Hb & Hi & L).
      assert (Es : shift_ptr b1 (Bucket (blen b1 + 1) l' (links b1) (lru b1)) q = q).
      { unfold shift_ptr; cbn [links]. rewrite Nat.sub_diag. destruct q as [[jq|] ?]; cbn; [|done].
        by rewrite Nat.add_0_r. }
      rewrite Es. destruct A as (_ & _ & _ & _ & _ & _ & _ & LA & LN & _).
      unfold ptr_block in Hb. destruct (link_ptr q) as [jq|] eqn:Hq.
      * split; [|intros ->; done]. exists bq, iq. unfold ptr_block. rewrite Hq. done.
      * injection Hb as <-. assert (iq <> trailing_ones (occ (main b1))) by congruence. split.
        -- exists l', iq. unfold ptr_block. rewrite Hq. split; [done|]. split; [done|]. by rewrite LA.
        -- intros ->. cbn [index] in Hi. congruence.
Qed.

Lemma insert_spec t sg b hv e : wf_bucket hash t b -> partial_hash hv = partial_hash (hash e.1) ->
  exists b' p d, insert t sg b hv e = Some (b', p, d) /\ wf_bucket hash t b' /\
    entries t b' ≡ₚ e :: entries t b /\ points_to t b' p e /\
    stored b' ++ d ≡ₚ e :: stored b /\ (t <> INDEX -> d = []) /\
    (forall x, x ∈ d -> exists bl, (bl = main b \/ bl ∈ links b) /\ reclaimable sg bl x).
Proof.
  intros W Hh. unfold insert.
  destruct (insert_clear_spec t sg b W) as (b1 & d & E & W1 & E1 & P1 & D1 & M1 & _).
  rewrite E, obind. cbn [fst snd].
  destruct (insert_core_spec t b1 hv e W1 Hh) as (b' & p & E' & W' & EE & P' & S' & _).
  rewrite E', obind. cbn [fst snd]. eexists _, _, _. split; [done|]. split; [done|].
  rewrite <- E1. split; [done|]. split; [done|]. split; [|done].
  rewrite S', P1. cbn [app]. constructor. apply Permutation_app_comm.
Qed.
End ops.
