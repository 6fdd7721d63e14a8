(** Removed entries of a HashIndex bucket that never holds more than 31 entries: the proof behind the
    positive half of C53. *)
From Coq Require Import NArith Lia.
From stdpp Require Import prelude list.
From Verif Require Import BucketModel BucketSpec BucketFacts BucketOps BucketOps2 BucketOps3 MapSpec BucketRun BucketRunFacts
  ReserveSpec ReserveFacts.

Section tidy.
Context {K V : Type} `{EqDecision K}.
Context (hash : K -> N).
Implicit Types (b : bucket K V).
Notation gone := (fun _ : N => false).

Lemma gen_mask_gone cells : forall i bm, gen_mask gone cells i bm = bm.
Proof. induction cells as [|c cs IH]; intros i bm; cbn [gen_mask]; auto. Qed.
Lemma max_ones : u32_max = N.ones 32.
Proof. reflexivity. Qed.
Lemma live_all (bl : block K V) : wf_block hash INDEX BUCKET_LEN bl -> rem bl = 0%N -> trailing_ones (occ bl) = BUCKET_LEN ->
  length (ents (live_at INDEX) BUCKET_LEN 0 bl) = BUCKET_LEN.
Proof.
  intros W R T. rewrite <- (full_ents hash BUCKET_LEN INDEX bl) at 2; [|unfold BUCKET_LEN; lia|done|done].
  f_equal. apply ents_ext. intros i _. unfold live_at, live_bitmap. rewrite R, N.ldiff_0_r.
  destruct (tb (occ bl) i) eqn:E; [done|]. destruct (stored_at bl i) eqn:S; [|done].
  assert (tb (occ bl) i = true) by (apply W; eauto). congruence.
Qed.
Lemma occ_max (bl : block K V) : wf_block hash INDEX BUCKET_LEN bl -> trailing_ones (occ bl) = BUCKET_LEN -> occ bl = u32_max.
Proof.
  intros W T. destruct (trailing_ones_spec (occ bl)) as (_ & T2 & _). rewrite T in T2.
  apply N.bits_inj. intros n. rewrite max_ones. destruct (N.ltb_spec n 32) as [Hn|Hn].
  - specialize (T2 (N.to_nat n)). unfold tb in T2. rewrite N2Nat.id in T2. rewrite T2 by (unfold BUCKET_LEN; lia).
    symmetry. by apply N.ones_spec_low.
  - rewrite N.ones_spec_high by done.
    destruct (N.testbit (occ bl) n) eqn:Tb; [|done].
    assert (tb (occ bl) (N.to_nat n) = true) as X by (unfold tb; by rewrite N2Nat.id).
    apply (wf_occ _ _ _ _ W) in X. pose proof (stored_lt hash _ _ _ _ W X). unfold BUCKET_LEN in *. lia.
Qed.
Lemma drop_rem_fuel n (bl : block K V) (dropped : N) :
  dropped = rem bl -> forall m' d',
  (r ← drop_loop n (data bl) dropped; Some (Block (N.ldiff (occ bl) dropped) (N.ldiff (rem bl) dropped) (hcell bl) r.1, r.2)) = Some (m', d') ->
  rem m' = 0%N.
Proof.
  intros -> m' d' D. destruct (drop_loop n (data bl) (rem bl)) as [r|]; [|done].
  rewrite obind in D. injection D as <- _. cbn [rem]. apply N.ldiff_diag.
Qed.
Lemma drop_rem (bl m' : block K V) d' : drop_unreachable gone bl = Some (m', d') -> rem m' = 0%N.
Proof. exact (drop_rem_fuel 33 bl _ (gen_mask_gone (hcell bl) 0 (rem bl)) m' d'). Qed.
Lemma clear_nolinks b b1 d : links b = [] -> clear_unreachable gone b = Some (b1, d) -> links b1 = [] /\ rem (main b1) = 0%N.
Proof.
  intros L E. unfold clear_unreachable in E. rewrite L in E. cbn [clear_links] in E. rewrite obind in E.
  destruct (drop_unreachable gone (main b)) as [[m' d']|] eqn:D; [|done]. rewrite obind in E. injection E as <- _.
  cbn [links main fst]. split; [done|]. by eapply drop_rem.
Qed.
Lemma clear_room b b1 d : wf_bucket hash INDEX b -> links b = [] -> length (entries INDEX b) <= 31 ->
  insert_clear INDEX gone b = Some (b1, d) -> links b1 = [] /\ trailing_ones (occ (main b1)) <> BUCKET_LEN.
Proof.
  intros W L Le E. destruct (insert_clear_spec hash INDEX gone b W) as (b2 & d2 & E2 & W2 & En & _).
  rewrite E in E2. injection E2 as <- <-.
  assert (links b1 = [] /\ (trailing_ones (occ (main b1)) = BUCKET_LEN -> rem (main b1) = 0%N)) as [Lk R].
  { unfold insert_clear in E. rewrite bool_decide_true in E by done. cbn [andb] in E.
    destruct (N.eqb_spec (occ (main b)) u32_max) as [C|C]; cbn [andb] in E.
    - destruct (N.eqb_spec (rem (main b)) 0) as [C2|C2]; cbn [negb] in E.
      + injection E as <- <-. done.
      + destruct (clear_nolinks b b1 d L E). done.
    - injection E as <- <-. split; [done|]. intros T. by destruct C; apply occ_max; [apply W|]. }
  split; [done|]. intros T.
  pose proof (live_all (main b1) (wf_main _ _ _ W2) (R T) T) as F.
  rewrite <- En in Le. unfold entries, all_ents in Le. rewrite Lk, app_length, F in Le. unfold BUCKET_LEN in Le. lia.
Qed.
Lemma core_room b1 hv e b' p : links b1 = [] -> trailing_ones (occ (main b1)) <> BUCKET_LEN ->
  insert_core b1 hv e = Some (b', p) -> links b' = [].
Proof.
  intros L T E. unfold insert_core in E. apply Nat.eqb_neq in T. rewrite T in E.
  destruct (insert_entry _ _ _ _ _); [|done]. rewrite obind in E. by injection E as <- <-.
Qed.
Lemma mark_links b p ep b' : links b = [] -> mark_removed b p ep = Some b' -> links b' = [].
Proof.
  intros L E. unfold mark_removed in E. destruct (dec_len _); [|done]. rewrite obind in E.
  destruct (index p); [|done]. rewrite obind in E. destruct (ptr_block b p); [|done]. rewrite obind in E.
  destruct (hcell _ !! _); [|done]. rewrite obind in E. injection E as <-. cbn [links].
  unfold set_ptr_block. destruct (link_ptr p); cbn [links]; rewrite L; done.
Qed.
Lemma bstep_room b o r : wf_bucket hash INDEX b -> links b = [] -> length (entries INDEX b) <= 31 ->
  bstep INDEX hash gone b o = Some r -> links r.1 = [].
Proof.
  intros W L Le E. destruct o as [k|k v ep|k ep| |n]; cbn [bstep] in E.
  - destruct (search_entry _ _ _ _); [|done]. rewrite obind in E. by injection E as <-.
  - destruct (get_entry_ptr _ _ _ _) as [p|]; [|done]. rewrite obind in E. destruct (is_valid p).
    + rewrite decide_True in E by done. destruct (get b p) as [e|]; [|done]. rewrite obind in E.
      destruct (update_index gone b p v ep) as [[[b2 p2] d2]|] eqn:U; [|done]. rewrite obind in E. injection E as <-. cbn [fst].
      unfold update_index in U. destruct (get b p); [|done]. rewrite obind in U.
      destruct (ptr_block b p); [|done]. rewrite obind in U. destruct (index p); [|done]. rewrite obind in U.
      destruct (hcell _ !! _); [|done]. rewrite obind in U.
      destruct (insert_clear INDEX gone b) as [[b1 d1]|] eqn:C; [|done]. rewrite obind in U. cbn [fst snd] in U.
      destruct (insert_core b1 _ _) as [[b3 p3]|] eqn:Q; [|done]. rewrite obind in U. cbn [fst snd] in U.
      destruct (mark_removed _ _ _) as [b4|] eqn:M; [|done]. rewrite obind in U. injection U as <- <- <-.
      destruct (clear_room b b1 d1 W L Le C) as [L1 T1]. eapply mark_links; [|exact M]. by eapply core_room.
    + destruct (insert _ _ _ _ _) as [[[b2 p2] d2]|] eqn:U; [|done]. rewrite obind in E. injection E as <-. cbn [fst].
      unfold insert in U. destruct (insert_clear INDEX gone b) as [[b1 d1]|] eqn:C; [|done]. rewrite obind in U. cbn [fst snd] in U.
      destruct (insert_core b1 _ _) as [[b3 p3]|] eqn:Q; [|done]. rewrite obind in U. injection U as <- <- <-. cbn [fst].
      destruct (clear_room b b1 d1 W L Le C) as [L1 T1]. by eapply core_room.
  - destruct (get_entry_ptr _ _ _ _) as [p|]; [|done]. rewrite obind in E. destruct (is_valid p); [|by injection E as <-].
    rewrite decide_True in E by done. destruct (get b p) as [e|]; [|done]. rewrite obind in E.
    destruct (mark_removed _ _ _) as [b4|] eqn:M; [|done]. rewrite obind in E. injection E as <-. cbn [fst]. by eapply mark_links.
  - by injection E as <-.
  - injection E as <-. cbn [fst]. unfold reserve_slots. destruct (_ <? _); [|done]. cbn [links]. rewrite L. by destruct (_ + n + 1).
Qed.
Lemma room_run os : forall b l b', wf_bucket hash INDEX b -> entries INDEX b ≡ₚ l -> NoDup l.*1 -> links b = [] ->
  (forall i, length (fafter l (take i os)) <= 31) -> bafter INDEX hash gone b os = Some b' ->
  wf_bucket hash INDEX b' /\ links b' = [] /\ entries INDEX b' ≡ₚ fafter l os.
Proof.
  induction os as [|o os IH]; intros b l b' W P ND L H E; cbn [bafter] in E.
  { by injection E as <-. }
  destruct (bstep_spec hash INDEX gone b l o W P ND) as (b1 & E1 & W1 & P1 & ND1). rewrite E1, obind in E. cbn [fst] in E.
  cbn [fafter]. apply (IH b1); try done.
  - pose proof (bstep_room b o _ W L ltac:(rewrite P; exact (H 0)) E1). done.
  - intros i. exact (H (S i)).
Qed.
Lemma tidy os b : (forall i, length (fafter [] (take i os)) <= 31) -> bafter INDEX hash gone new_bucket os = Some b ->
  length (stored b) <= 32 /\ entries INDEX b ≡ₚ fafter [] os.
Proof.
  intros H E. destruct (room_run os new_bucket [] b) as (W & L & P); try done.
  - apply wf_new_bucket.
  - constructor.
  - split; [|done]. unfold stored, all_ents. rewrite L, lents_nil, app_nil_r.
    apply (ents_le stored_at BUCKET_LEN).
Qed.
End tidy.
