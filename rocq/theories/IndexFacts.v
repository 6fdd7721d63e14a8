(** The operations of a HashIndex against an association list. *)
From Coq Require Import NArith Lia.
From stdpp Require Import numbers prelude list.
From Verif Require CapModel CapSpec CapFacts CapThms.
From Verif Require Import LruModel BucketModel BucketSpec BucketFacts BucketOps BucketOps2 BucketOps3
  MapSpec MapFacts BucketRun BucketRunFacts TableModel TableSpec TableFacts TableReloc TableHouse TableResize TableAccess
  TableOps IterSpec TableIter MapFacts2 IndexModel IndexRef.

Section facts.
Context {K V : Type} `{EqDecision K}.
Context (hash : K -> N).
Context (Hh : forall k, (hash k < 2 ^ 64)%N).
Implicit Types (a c o : barray K V) (x : cell K V) (tb : table K V) (b : bucket K V) (l : loc).
Implicit Types (m : list (K * V)) (e : env).

(** The table now holds [m], and [new] are the entries that came into being. *)
Record ist tb tb' m (new : list (K * V)) : Prop := Ist {
  is_wf : wf_table hash INDEX tb';
  is_ents : tents INDEX tb' ≡ₚ m;
  is_acct : released tb' ++ tstored tb' ≡ₚ new ++ released tb ++ tstored tb }.
Lemma ist_same tb tb' m : tents INDEX tb ≡ₚ m -> same hash INDEX tb tb' -> ist tb tb' m [].
Proof. intros P S. split; [apply S|by rewrite (sm_ents _ _ _ _ S)|apply S]. Qed.
Lemma ist_trans tb tb1 tb2 m1 n1 m2 n2 : ist tb tb1 m1 n1 -> ist tb1 tb2 m2 n2 -> ist tb tb2 m2 (n2 ++ n1).
Proof.
  intros S1 S2. split; [apply S2|apply S2|]. by rewrite (is_acct _ _ _ _ S2), (is_acct _ _ _ _ S1), app_assoc.
Qed.
Lemma ist_trans0 tb tb1 tb2 m1 m2 n2 : ist tb tb1 m1 [] -> ist tb1 tb2 m2 n2 -> ist tb tb2 m2 n2.
Proof. intros S1 S2. rewrite <- (app_nil_r n2). by eapply ist_trans. Qed.
Lemma ist_after tb tb1 tb2 m new : ist tb tb1 m new -> same hash INDEX tb1 tb2 -> ist tb tb2 m new.
Proof.
  intros S1 S2. split; [apply S2|by rewrite (sm_ents _ _ _ _ S2), (is_ents _ _ _ _ S1)|].
  by rewrite (sm_acct _ _ _ _ S2), (is_acct _ _ _ _ S1).
Qed.
Lemma ist_perm tb tb' m m' new : ist tb tb' m new -> m ≡ₚ m' -> ist tb tb' m' new.
Proof. intros [] P. split; try done. by rewrite <- P. Qed.
Lemma wf_release tb d : wf_table hash INDEX tb -> wf_table hash INDEX (release tb d).
Proof. intros []. split; try done. by apply (wf_min_eq tb). Qed.

Lemma put_ist tb tb1 l b R RS b' tb' m d new : same hash INDEX tb tb1 -> tstored tb1 ≡ₚ stored b ++ RS ->
  put_back hash INDEX tb1 l R RS b' tb' -> entries INDEX b' ++ R ≡ₚ m -> stored b' ++ d ≡ₚ new ++ stored b ->
  ist tb (release tb' d) m new.
Proof.
  intros S TS PB P Pd. split.
  - apply wf_release, PB.
  - change (tents INDEX (release tb' d)) with (tents INDEX tb'). by rewrite (pb_ents _ _ _ _ _ _ _ _ PB).
  - change (tstored (release tb' d)) with (tstored tb'). cbn [release released].
    rewrite (pb_rel _ _ _ _ _ _ _ _ PB), (pb_stored _ _ _ _ _ _ _ _ PB).
    rewrite <- app_assoc, (app_assoc d), (Permutation_app_comm d), Pd, <- app_assoc, <- TS.
    rewrite <- (sm_acct _ _ _ _ S). apply perm3.
Qed.

(** ** Freeing the garbage chain *)
Lemma drop_arrays_spec (gs : list (barray K V)) : Forall (wf_array hash INDEX) gs ->
  exists es, drop_arrays INDEX gs = Some es /\ es ≡ₚ concat (map astored gs).
Proof.
  assert (One : forall a, wf_array hash INDEX a -> exists es, drop_array INDEX a = Some es /\ es ≡ₚ astored a).
  { intros a W. unfold drop_array. rewrite decide_True by done. change (N.to_nat 0) with 0. rewrite drop_0.
    destruct (drop_cells_spec hash Hh INDEX (bks a) (wf_cores hash INDEX a W)) as (es & E & P). eauto. }
  induction gs as [|a gs IH]; intros F; cbn [drop_arrays map concat]; [eauto|].
  apply Forall_cons in F as [Wa F]. destruct (One a Wa) as (es & E & P). destruct (IH F) as (es' & E' & P').
  rewrite E, obind, E', obind. eexists. split; [done|]. by rewrite P, P'.
Qed.
Lemma free_same tb n : wf_table hash INDEX tb -> exists es, drop_arrays INDEX (drop n (garbage tb)) = Some es /\
  same hash INDEX tb (Table (cur tb) (old tb) (mst tb) (maxcap tb) (take n (garbage tb)) (released tb ++ es)).
Proof.
  intros W. pose proof (wt_garbage _ _ _ W) as F. rewrite <- (take_drop n (garbage tb)) in F. apply Forall_app in F as [F1 F2].
  destruct (drop_arrays_spec _ F2) as (es & E & P). exists es. split; [done|]. split; try done.
  - destruct W. split; try done. by apply (wf_min_eq tb).
  - cbn [released]. unfold tstored. cbn [cur old garbage].
    rewrite <- (take_drop n (garbage tb)) at 2. rewrite map_app, concat_app, P, <- app_assoc.
    apply Permutation_app_head. rewrite Permutation_app_comm. by rewrite <- !app_assoc.
Qed.
Lemma reclaim_spec e tb : wf_table hash INDEX tb -> exists tb', reclaim_memory e tb = Some tb' /\ same hash INDEX tb tb'.
Proof.
  intros W. unfold reclaim_memory. destruct (expired e); [|eauto using same_refl].
  unfold dealloc_garbage. destruct (free_same tb 0 W) as (es & E & S). rewrite drop_0 in E. rewrite E, obind. eauto.
Qed.
Lemma settle_spec e tb : wf_table hash INDEX tb -> exists tb', settle e tb = Some tb' /\ same hash INDEX tb tb'.
Proof.
  intros W. unfold settle. destruct (cut e) as [n|]; [|eauto using same_refl].
  destruct (free_same tb n W) as (es & E & S). rewrite E, obind. eauto.
Qed.

(** ** Keyed operations *)
Lemma insert_owned e tb l b k v m p : wf_table hash INDEX tb -> tents INDEX tb ≡ₚ m ->
  owns hash tb l b -> lkey hash tb l k -> get_entry_ptr INDEX b k (hash k) = Some p -> is_valid p = false ->
  exists q tb', insert INDEX (same_gen e) b (hash k) (k, v) = Some q /\ set_loc tb l q.1.1 = Some tb' /\
    assoc k m = None /\ ist tb (release tb' q.2) (put k v m) [(k, v)].
Proof.
  intros W P Ow Lk Ep V0. destruct (owns_lock hash INDEX tb l b W Ow) as [L Wb].
  destruct (owns_assoc hash INDEX tb l b k m W Ow Lk P) as (R & RS & Pm & NR & ND & A & TS & PB).
  destruct (lookup_ptr hash INDEX b k Wb) as (p' & Ep' & [[V1 _]|[V1 N]]); [congruence|].
  destruct (insert_spec hash INDEX (same_gen e) b (hash k) (k, v) Wb eq_refl) as (b' & q & d & E' & W' & E1 & _ & Sd & _).
  destruct (PB b' W') as (tb2 & PBk).
  { intros z He. rewrite E1 in He. apply elem_of_cons in He as [->|He]; [by left|]. right. apply elem_of_list_fmap. eauto. }
  { rewrite E1. cbn. by apply NoDup_cons. }
  exists (b', q, d), tb2. split; [done|]. split; [apply PBk|]. split; [by rewrite A; apply assoc_None|]. cbn [fst snd].
  eapply (put_ist tb tb l b R RS b' tb2); [by apply same_refl|done|done| |done].
  rewrite E1. cbn [app]. unfold put. constructor. by rewrite (del_out k v _ _ _ Pm NR), (del_notin k _ N).
Qed.

Lemma insert_sync_ispec e tb k v m : wf_table hash INDEX tb -> tents INDEX tb ≡ₚ m ->
  exists tb', IndexModel.insert_sync e hash tb k v =
      Some (tb', match assoc k m with None => None | Some _ => Some (k, v) end) /\
    ist tb tb' (match assoc k m with None => put k v m | Some _ => m end)
               (match assoc k m with None => [(k, v)] | Some _ => [] end).
Proof.
  intros W P. unfold IndexModel.insert_sync, TableModel.insert_sync.
  destruct (reclaim_spec e tb W) as (tb0 & E0 & S0). rewrite E0, obind.
  destruct (writer_spec hash Hh INDEX (same_gen e) tb0 k (sm_wf _ _ _ _ S0)) as (tb1 & l & b & E & S & Lk & Ow). rewrite E, obind. cbn [fst snd].
  assert (S1 : same hash INDEX tb tb1) by (by eapply same_trans). pose proof (sm_wf _ _ _ _ S1) as W1.
  destruct (owns_lock hash INDEX tb1 l b W1 Ow) as [L Wb]. rewrite L, obind.
  assert (P1 : tents INDEX tb1 ≡ₚ m) by (by rewrite (sm_ents _ _ _ _ S1)).
  destruct (lookup_ptr hash INDEX b k Wb) as (p & Ep & [[V1 (v0 & Pt)]|[V1 N]]); rewrite Ep, obind, V1.
  - destruct (owns_assoc hash INDEX tb1 l b k m W1 Ow Lk P1) as (R & RS & Pm & NR & ND & A & TS & PB).
    destruct (points_assoc hash INDEX b k v0 p Wb ND Pt) as [A' _]. rewrite A, A'. exists tb1. split; [done|]. by apply ist_same.
  - destruct (insert_owned e tb1 l b k v m p W1 P1 Ow Lk Ep V1) as (q & tb' & E1 & E2 & A & I). rewrite E1, obind, E2, obind, A.
    eexists. split; [done|]. eapply ist_trans0; [by apply (ist_same tb tb1 m)|done].
Qed.

Lemma locked_mark_removed_spec e tb l b k v p m : wf_table hash INDEX tb -> tents INDEX tb ≡ₚ m ->
  owns hash tb l b -> lkey hash tb l k -> points_to INDEX b p (k, v) ->
  exists tb', locked_mark_removed e tb l p = Some tb' /\ ist tb tb' (del k m) [].
Proof.
  intros W P Ow Lk Pt. unfold locked_mark_removed.
  destruct (owns_lock hash INDEX tb l b W Ow) as [L Wb]. rewrite L, obind.
  destruct (owns_assoc hash INDEX tb l b k m W Ow Lk P) as (R & RS & Pm & NR & ND & A & TS & PB).
  destruct (points_assoc hash INDEX b k v p Wb ND Pt) as [A' D].
  destruct (mark_removed_spec hash b p (k, v) (epoch e) Wb Pt) as (b' & E' & W' & E1 & _ & _ & Sd & _). rewrite E', obind.
  rewrite <- D in E1.
  destruct (PB b' W') as (tb1 & PBk).
  { intros z He. right. rewrite E1 in He. apply (del_sub k). apply elem_of_list_fmap. eauto. }
  { rewrite E1. by apply del_NoDup. }
  rewrite (pb_set _ _ _ _ _ _ _ _ PBk), obind.
  assert (S1 : ist tb (release tb1 []) (del k m) []).
  { eapply (put_ist tb tb l b R RS b' tb1); [by apply same_refl|done|done| |by rewrite app_nil_r, Sd].
    rewrite E1. symmetry. by apply (del_out k v). }
  rewrite release_nil in S1.
  destruct (blen b' =? 0); [|eauto].
  destruct (locked_try_shrink_spec hash Hh INDEX tb1 l b') as (tb2 & E2 & S2); [apply PBk|apply PBk|].
  rewrite E2. exists tb2. split; [done|]. by eapply ist_after.
Qed.
Lemma locked_update_spec e tb l b k v0 v p m : wf_table hash INDEX tb -> tents INDEX tb ≡ₚ m ->
  owns hash tb l b -> lkey hash tb l k -> points_to INDEX b p (k, v0) ->
  exists tb', locked_update e tb l p v = Some tb' /\ ist tb tb' (put k v m) [(k, v)].
Proof.
  intros W P Ow Lk Pt. unfold locked_update.
  destruct (owns_lock hash INDEX tb l b W Ow) as [L Wb]. rewrite L, obind.
  destruct (owns_assoc hash INDEX tb l b k m W Ow Lk P) as (R & RS & Pm & NR & ND & A & TS & PB).
  destruct (update_index_spec hash (same_gen e) b p (k, v0) v (epoch e) Wb Pt) as (b' & q & d & rs & E' & W' & E1 & E2 & _ & Sd & _).
  cbn [fst snd] in *. rewrite E', obind. cbn [fst snd].
  assert (Nk : NoDup (k :: rs.*1)) by (by rewrite E1 in ND).
  destruct (PB b' W') as (tb1 & PBk).
  { intros z He. rewrite E2 in He. apply elem_of_cons in He as [->|He]; [by left|]. right. rewrite E1.
    apply elem_of_list_fmap. exists z. split; [done|by right]. }
  { by rewrite E2. }
  rewrite (pb_set _ _ _ _ _ _ _ _ PBk), obind. eexists. split; [done|].
  eapply (put_ist tb tb l b R RS b' tb1); [by apply same_refl|done|done| |done].
  rewrite E2. cbn [app]. unfold put. constructor. apply NoDup_cons in Nk as [Nk _].
  by rewrite (del_out k v _ _ _ Pm NR), E1, del_cons_eq, (del_notin k rs Nk).
Qed.
Lemma occupied_spec e tb l b k v p m ac : wf_table hash INDEX tb -> tents INDEX tb ≡ₚ m ->
  owns hash tb l b -> lkey hash tb l k -> points_to INDEX b p (k, v) ->
  exists tb', occupied e tb l p ac = Some tb' /\
    ist tb tb' (act_on m k ac) (match ac with Store v => [(k, v)] | _ => [] end).
Proof.
  intros W P Ow Lk Pt. destruct ac as [|v'|]; cbn [occupied act_on].
  - exists tb. split; [done|]. apply ist_same; [done|by apply same_refl].
  - by eapply locked_update_spec.
  - by eapply locked_mark_removed_spec.
Qed.

Lemma entry_sync_ispec e tb k f m : wf_table hash INDEX tb -> tents INDEX tb ≡ₚ m ->
  exists tb', entry_sync e hash tb k f = Some (tb', assoc k m) /\
    ist tb tb' (act_on m k (f (assoc k m))) (match f (assoc k m) with Store v => [(k, v)] | _ => [] end).
Proof.
  intros W P. unfold entry_sync.
  destruct (writer_spec hash Hh INDEX (same_gen e) tb k W) as (tb1 & l & b & E & S & Lk & Ow). rewrite E, obind. cbn [fst snd].
  pose proof (sm_wf _ _ _ _ S) as W1. destruct (owns_lock hash INDEX tb1 l b W1 Ow) as [L Wb]. rewrite L, obind.
  assert (P1 : tents INDEX tb1 ≡ₚ m) by (by rewrite (sm_ents _ _ _ _ S)).
  destruct (owns_assoc hash INDEX tb1 l b k m W1 Ow Lk P1) as (R & RS & Pm & NR & ND & A & TS & PB).
  destruct (lookup_ptr hash INDEX b k Wb) as (p & Ep & [[V1 (v0 & Pt)]|[V1 N]]); rewrite Ep, obind, V1.
  - destruct (points_assoc hash INDEX b k v0 p Wb ND Pt) as [A' _]. rewrite A, A'.
    rewrite (points_to_get _ _ _ _ Pt), obind. cbn [fst snd].
    destruct (occupied_spec e tb1 l b k v0 p m (f (Some v0)) W1 P1 Ow Lk Pt) as (tb2 & E2 & I). rewrite E2, obind.
    exists tb2. split; [done|]. eapply ist_trans0; [by apply (ist_same tb tb1 m)|done].
  - assert (A0 : assoc k m = None) by (by rewrite A; apply assoc_None). rewrite A0. destruct (f None) as [|v|]; cbn [act_on].
    + exists tb1. split; [done|]. by apply ist_same.
    + destruct (insert_owned e tb1 l b k v m p W1 P1 Ow Lk Ep V1) as (q & tb' & E1 & E2 & _ & I). rewrite E1, obind, E2, obind.
      eexists. split; [done|]. eapply ist_trans0; [by apply (ist_same tb tb1 m)|done].
    + exists tb1. split; [done|]. rewrite del_notin by (by apply assoc_None). by apply ist_same.
Qed.

(** [get_sync] and [remove_if_sync] find the bucket in the same way. *)
Lemma find_spec e tb k m : wf_table hash INDEX tb -> tents INDEX tb ≡ₚ m ->
  exists tb0 tb1 r, reclaim_memory e tb = Some tb0 /\ optional_writer INDEX (same_gen e) hash tb0 (hash k) = Some (tb1, r) /\
    wf_table hash INDEX tb1 /\ tents INDEX tb1 ≡ₚ m /\ ist tb tb1 m [] /\
    match r with
    | None => assoc k m = None
    | Some l => exists b p, lock tb1 l = Some b /\ owns hash tb1 l b /\ lkey hash tb1 l k /\
        get_entry_ptr INDEX b k (hash k) = Some p /\
        (if is_valid p then exists v, points_to INDEX b p (k, v) /\ assoc k m = Some v else assoc k m = None)
    end.
Proof.
  intros W P. destruct (reclaim_spec e tb W) as (tb0 & E0 & S0).
  destruct (optional_writer_spec hash Hh INDEX (same_gen e) tb0 k (sm_wf _ _ _ _ S0)) as (tb1 & r & E & S & H0).
  exists tb0, tb1, r. split; [done|]. split; [done|].
  assert (S1 : same hash INDEX tb tb1) by (by eapply same_trans). pose proof (sm_wf _ _ _ _ S1) as W1.
  assert (P1 : tents INDEX tb1 ≡ₚ m) by (by rewrite (sm_ents _ _ _ _ S1)).
  split; [done|]. split; [done|]. split; [by apply ist_same|].
  destruct r as [l|].
  - destruct H0 as (_ & Lk & b & Ow). destruct (owns_lock hash INDEX tb1 l b W1 Ow) as [L Wb].
    destruct (owns_assoc hash INDEX tb1 l b k m W1 Ow Lk P1) as (R & RS & Pm & NR & ND & A & TS & PB).
    destruct (lookup_ptr hash INDEX b k Wb) as (p & Ep & Q). exists b, p. do 4 (split; [done|]).
    destruct Q as [[V1 (v0 & Pt)]|[V1 N]]; rewrite V1.
    + exists v0. split; [done|]. rewrite A. by apply (points_assoc hash INDEX b k v0 p Wb ND Pt).
    + by rewrite A; apply assoc_None.
  - assert (m = []) as ->; [|done]. apply Permutation_nil. rewrite <- P, <- (sm_ents _ _ _ _ S0), H0. done.
Qed.
Lemma get_sync_ispec e tb k f m : wf_table hash INDEX tb -> tents INDEX tb ≡ₚ m ->
  exists tb', get_sync e hash tb k f = Some (tb', assoc k m) /\
    ist tb tb' (match assoc k m with Some v => act_on m k (f v) | None => m end)
      (match assoc k m with Some v => match f v with Store v => [(k, v)] | _ => [] end | None => [] end).
Proof.
  intros W P. unfold get_sync.
  destruct (find_spec e tb k m W P) as (tb0 & tb1 & r & E0 & E1 & W1 & P1 & I & Q). rewrite E0, obind, E1, obind. cbn [fst snd].
  destruct r as [l|]; [|rewrite Q; eauto].
  destruct Q as (b & p & L & Ow & Lk & Ep & Q). rewrite L, obind, Ep, obind.
  destruct (is_valid p); [|rewrite Q; eauto].
  destruct Q as (v & Pt & A). rewrite (points_to_get _ _ _ _ Pt), obind, A. cbn [fst snd].
  destruct (occupied_spec e tb1 l b k v p m (f v) W1 P1 Ow Lk Pt) as (tb2 & E2 & I2). rewrite E2, obind.
  exists tb2. split; [done|]. by eapply ist_trans0.
Qed.
Lemma remove_if_sync_ispec e tb k (c : V -> bool) m : wf_table hash INDEX tb -> tents INDEX tb ≡ₚ m ->
  exists tb', IndexModel.remove_if_sync e hash tb k c =
      Some (tb', match assoc k m with Some v => c v | None => false end) /\
    ist tb tb' (match assoc k m with Some v => if c v then del k m else m | None => m end) [].
Proof.
  intros W P. unfold IndexModel.remove_if_sync.
  destruct (find_spec e tb k m W P) as (tb0 & tb1 & r & E0 & E1 & W1 & P1 & I & Q). rewrite E0, obind, E1, obind. cbn [fst snd].
  destruct r as [l|]; [|rewrite Q; eauto].
  destruct Q as (b & p & L & Ow & Lk & Ep & Q). rewrite L, obind, Ep, obind.
  destruct (is_valid p); [|rewrite Q; eauto].
  destruct Q as (v & Pt & A). rewrite (points_to_get _ _ _ _ Pt), obind, A. cbn [fst snd].
  destruct (c v); [|eauto].
  destruct (locked_mark_removed_spec e tb1 l b k v p m W1 P1 Ow Lk Pt) as (tb2 & E2 & I2). rewrite E2, obind.
  exists tb2. split; [done|]. by eapply ist_trans0.
Qed.
End facts.
