(** Proofs about bucket histories. *)
From Coq Require Import NArith Lia.
From stdpp Require Import numbers prelude list.
From Verif Require Import LruModel BucketModel BucketSpec BucketFacts BucketOps BucketOps2 BucketOps3 MapSpec MapFacts BucketRun.

Section run_facts.
Context {K V : Type} `{EqDecision K}.
Context (hash : K -> N).
Implicit Types (b : bucket K V).

Lemma is_valid_null : is_valid null_ptr = false.
Proof. done. Qed.
Lemma points_to_valid t b p e : wf_core hash t b -> points_to t b p e -> is_valid p = true.
Proof.
  intros W (bl & i & Hb & Hi & L). pose proof (wf_ptr_block _ _ _ _ _ W Hb) as Wb.
  pose proof (live_lt _ _ _ _ _ _ Wb L) as Hl. unfold is_valid. rewrite Hi.
  rewrite bool_decide_false; [done|]. intros [= ->].
  unfold ptr_len, BUCKET_LEN, LINKED_BUCKET_LEN in Hl. destruct (link_ptr p); lia.
Qed.

(** What a lookup on a bucket with pairwise different keys returns. *)
Lemma lookup_ptr t b k : wf_bucket hash t b ->
  exists p, get_entry_ptr t b k (hash k) = Some p /\
    ((is_valid p = true /\ exists v, points_to t b p (k, v)) \/
     (is_valid p = false /\ k ∉ (entries t b).*1)).
Proof.
  intros W. unfold get_entry_ptr.
  destruct (search_spec hash t b k (hash k) W eq_refl) as (r & E & R). rewrite E, obind.
  destruct r as [[[k' v] p]|].
  - destruct R as [P X]. cbn in X. subst k'. exists p. split; [done|]. left.
    split; [exact (points_to_valid _ _ _ _ W P)|]. eauto.
  - exists null_ptr. split; [done|]. right. split; [done|]. intros X.
    apply elem_of_list_fmap in X as (e & -> & X). by apply (R e).
Qed.
Lemma search_entry_assoc t b k : wf_bucket hash t b -> NoDup (entries t b).*1 ->
  exists r, search_entry t b k (hash k) = Some r /\ option_map snd r = assoc k (entries t b) /\
    (forall e, r = Some e -> e.1 = k).
Proof.
  intros W ND. unfold search_entry.
  destruct (search_spec hash t b k (hash k) W eq_refl) as (r & E & R). rewrite E, obind.
  eexists. split; [done|]. destruct r as [[[k' v] p]|]; cbn.
  - destruct R as [P X]. cbn in X. subst k'. split; [|by intros e [= <-]].
    symmetry. apply assoc_Some; [done|]. exact (points_to_in hash _ _ _ _ W P).
  - split; [|done]. symmetry. apply assoc_None. intros X.
    apply elem_of_list_fmap in X as (e & -> & X). by apply (R e).
Qed.

Lemma bstep_spec t sg b l o : wf_bucket hash t b -> entries t b ≡ₚ l -> NoDup l.*1 ->
  exists b', bstep t hash sg b o = Some (b', (fstep l o).2) /\ wf_bucket hash t b' /\
    entries t b' ≡ₚ (fstep l o).1 /\ NoDup (fstep l o).1.*1.
Proof.
  intros W P ND. assert (NDe : NoDup (entries t b).*1) by (by rewrite P).
  destruct o as [k|k v ep|k ep| |n]; cbn [bstep fstep fst snd].
  - destruct (search_entry_assoc t b k W NDe) as (r & E & R & _). rewrite E, obind, R.
    rewrite (assoc_perm k _ _ NDe P). eauto.
  - destruct (lookup_ptr t b k W) as (p & E & [[V1 (v0 & Pt)]|[V1 N]]); rewrite E, obind, V1.
    + pose proof (points_to_split _ _ _ _ _ W Pt) as Sp.
      assert (A : assoc k l = Some v0).
      { rewrite <- (assoc_perm k _ _ NDe P), Sp. rewrite Sp in NDe. by apply assoc_split. }
      assert (D : del k (entries t b) = before (live_at t) b p ++ after (live_at t) b p).
      { rewrite Sp. rewrite Sp in NDe. by apply del_split. }
      destruct (decide (t = INDEX)) as [->|Ht].
      * rewrite (points_to_get _ _ _ _ Pt), obind.
        destruct (update_index_spec hash sg b p (k, v0) v ep W Pt) as (b' & p' & d & rest & E' & W' & E1 & E2 & _).
        rewrite E', obind. cbn [fst snd]. exists b'. rewrite A. split; [done|]. split; [done|].
        split; [|by apply put_NoDup].
        rewrite E2. cbn [fst]. unfold put. constructor. rewrite <- (del_perm k _ _ P), E1.
        rewrite del_cons_eq, del_notin; [done|].
        assert (NoDup ((k, v0) :: rest).*1) as X by (by rewrite <- E1). cbn in X. by apply NoDup_cons in X as [? _].
      * destruct (replace_value_spec hash t b p (k, v0) v W Pt) as (b' & E' & W' & E1 & _).
        rewrite E', obind. cbn [fst snd]. exists b'. rewrite A. split; [done|]. split; [done|].
        split; [|by apply put_NoDup]. rewrite E1. cbn [fst]. unfold put.
        rewrite <- (del_perm k _ _ P), D. symmetry. apply Permutation_middle.
    + destruct (insert_spec hash t sg b (hash k) (k, v) W eq_refl) as (b' & p' & d & E' & W' & E1 & _).
      rewrite E', obind. cbn [fst snd]. exists b'.
      assert (Nl : k ∉ l.*1) by (by rewrite <- P).
      rewrite (proj2 (assoc_None k l) Nl). split; [done|]. split; [done|]. split; [|by apply put_NoDup].
      rewrite E1, P. unfold put. by rewrite del_notin.
  - destruct (lookup_ptr t b k W) as (p & E & [[V1 (v0 & Pt)]|[V1 N]]); rewrite E, obind, V1.
    + pose proof (points_to_split _ _ _ _ _ W Pt) as Sp.
      assert (A : assoc k l = Some v0).
      { rewrite <- (assoc_perm k _ _ NDe P), Sp. rewrite Sp in NDe. by apply assoc_split. }
      assert (D : del k (entries t b) = before (live_at t) b p ++ after (live_at t) b p).
      { rewrite Sp. rewrite Sp in NDe. by apply del_split. }
      destruct (decide (t = INDEX)) as [->|Ht].
      * rewrite (points_to_get _ _ _ _ Pt), obind.
        destruct (mark_removed_spec hash b p (k, v0) ep W Pt) as (b' & E' & W' & E1 & _).
        rewrite E', obind. exists b'. rewrite A. split; [done|]. split; [done|].
        split; [|by apply del_NoDup]. by rewrite E1, <- D, (del_perm k _ _ P).
      * destruct (remove_spec hash t b p (k, v0) W Pt) as (b' & p' & E' & W' & T).
        rewrite E', obind. cbn [fst snd]. exists b'. rewrite A. split; [done|]. split; [done|].
        split; [|by apply del_NoDup]. by rewrite (taken_entries _ _ _ _ _ _ _ T), <- D, (del_perm k _ _ P).
    + exists b. assert (Nl : k ∉ l.*1) by (by rewrite <- P).
      rewrite (proj2 (assoc_None k l) Nl). split; [done|]. split; [done|].
      rewrite del_notin by done. done.
  - exists b. split; [|done]. by rewrite (wf_len _ _ _ W), P.
  - exists (reserve_slots b n). destruct (reserve_slots_spec hash t b n W) as (W' & E & _).
    split; [done|]. split; [done|]. rewrite E. done.
Qed.

Lemma brun_spec t sg os : forall b l, wf_bucket hash t b -> entries t b ≡ₚ l -> NoDup l.*1 ->
  brun t hash sg b os = Some (frun l os).
Proof.
  induction os as [|o os IH]; intros b l W P ND; cbn [brun frun]; [done|].
  destruct (bstep_spec t sg b l o W P ND) as (b' & E & W' & P' & ND'). rewrite E, obind. cbn [fst snd].
  by rewrite (IH _ _ W' P' ND'), obind.
Qed.

Lemma lC09_bucket_is_a_map t sg (os : list (bop K V)) : brun t hash sg new_bucket os = Some (frun [] os).
Proof. apply brun_spec; [apply wf_new_bucket|by rewrite entries_new|constructor]. Qed.
End run_facts.
