(** Glue from the invariants to the HashMap property statements. *)
From Coq Require Import NArith Lia.
From stdpp Require Import numbers prelude list.
From Verif Require CapModel CapSpec CapFacts CapThms.
From Verif Require Import LruModel BucketModel BucketSpec BucketFacts BucketOps BucketOps2 BucketOps3
  MapSpec MapFacts BucketRun BucketRunFacts TableModel TableSpec TableFacts TableReloc TableHouse TableResize TableAccess
  TableOps IterSpec TableIter MapModel MapRef MapFacts2 MapRunFacts MapWhole.

Section thms.
Context {K V : Type} `{EqDecision K}.
Implicit Types (tb : table K V) (m : list (K * V)).

Lemma holds_behaves (hash : K -> N) (Hh : forall k, (hash k < 2 ^ 64)%N) sg tb m m' rel : holds hash MAP tb m rel -> 
  NoDup m'.*1 -> (forall k, assoc k m = assoc k m') -> behaves_as sg hash tb m'.
Proof.
  intros H ND A os. assert (P : m ≡ₚ m').
  { apply assoc_ext; [by apply (wf_nodup hash MAP tb); apply H|done|done]. }
  destruct (mrun_spec hash Hh sg os tb m' rel) as (tb' & outs & E & O & _); [by apply (holds_perm hash MAP tb m rel)|eauto].
Qed.
Lemma final_nodup (os : list (mop K V)) : NoDup (final os).*1.
Proof. apply rrun_nodup. constructor. Qed.
Lemma final_app (os os' : list (mop K V)) : final (os ++ os') = (rrun (final os) os').1.1.
Proof. unfold final. by rewrite rrun_app. Qed.

Section one_hash.
Context (hash : K -> N).
Context (Hh : forall k, (hash k < 2 ^ 64)%N).

Lemma after_spec sg cap os (o : mop K V) : exists x, after sg hash cap os o = Some x /\ out_eq x (r_out (rstep (final os) o)).
Proof.
  unfold after. destruct (run_map_spec hash Hh sg cap os) as (tb & outs & E & _ & H). rewrite E, obind. cbn [fst snd].
  destruct (mstep_spec hash Hh sg tb _ _ o H) as (tb' & out & E' & O & _). rewrite E', obind. eauto.
Qed.
Lemma after_read sg cap (os : list (mop K V)) k : after sg hash cap os (MRead k) =
  Some (OEntry (option_map (fun v => (k, v)) (assoc k (final os)))).
Proof. destruct (after_spec sg cap os (MRead k)) as (x & E & O). rewrite E. destruct x; cbn in O; try done; congruence. Qed.
Lemma readable sg cap (os : list (mop K V)) k v : after sg hash cap os (MRead k) = Some (OEntry (Some (k, v))) <-> (k, v) ∈ final os.
Proof.
  rewrite after_read, <- assoc_Some by apply final_nodup.
  destruct (assoc k (final os)) as [v'|]; cbn; split; intros [=]; congruence.
Qed.
Lemma out_sym (a b : mout K V) : out_eq a b -> out_eq b a.
Proof. destruct a, b; cbn; try congruence. by intros ->. Qed.

Lemma out_exact (a b : mout K V) : out_eq a b -> match b with OEntries _ => True | _ => a = b end.
Proof. destruct a, b; cbn; done. Qed.
Lemma lC07_hashmap_is_a_finite_map sg cap (os : list (mop K V)) : exists tb outs,
  run_map sg hash cap os = Some (tb, outs) /\ Forall2 out_eq outs (rrun [] os).1.2.
Proof. destruct (run_map_spec hash Hh sg cap os) as (tb & outs & E & O & _). eauto. Qed.

Lemma lC08_rejected_insert sg cap (os : list (mop K V)) k v v0 :
  after sg hash cap os (MRead k) = Some (OEntry (Some (k, v0))) ->
  after sg hash cap os (MInsert k v) = Some (OEntry (Some (k, v))) /\
  forall os' o, same_result (after sg hash cap (os ++ [MInsert k v] ++ os') o) (after sg hash cap (os ++ os') o).
Proof.
  intros R. apply readable in R. apply assoc_Some in R; [|apply final_nodup]. split.
  - destruct (after_spec sg cap os (MInsert k v)) as (x & E & O). rewrite E. cbn [rstep] in O. rewrite R in O.
    destruct x; cbn in O; try done; congruence.
  - intros os' o.
    destruct (after_spec sg cap (os ++ [MInsert k v] ++ os') o) as (x & E & O).
    destruct (after_spec sg cap (os ++ os') o) as (y & E' & O'). exists x, y. split; [done|]. split; [done|].
    rewrite !final_app in *. cbn [app rrun rstep] in O. rewrite R in O. cbn [r_map fst] in O.
    eapply out_trans; [exact O|by apply out_sym].
Qed.
Lemma lC08_accepted_insert sg cap (os : list (mop K V)) k v :
  after sg hash cap os (MRead k) = Some (OEntry None) ->
  after sg hash cap os (MInsert k v) = Some (OEntry None) /\
  after sg hash cap (os ++ [MInsert k v]) (MRead k) = Some (OEntry (Some (k, v))) /\
  forall k', k' <> k -> after sg hash cap (os ++ [MInsert k v]) (MRead k') = after sg hash cap os (MRead k').
Proof.
  rewrite after_read. destruct (assoc k (final os)) eqn:A; [done|]. intros _. split; [|split].
  - destruct (after_spec sg cap os (MInsert k v)) as (x & E & O). rewrite E. cbn [rstep] in O. rewrite A in O.
    destruct x; cbn in O; try done; congruence.
  - rewrite after_read, final_app. cbn [rrun rstep]. rewrite A. cbn [r_map fst]. by rewrite assoc_put_eq.
  - intros k' Hk. rewrite !after_read, final_app. cbn [rrun rstep]. rewrite A. cbn [r_map fst]. by rewrite assoc_put_ne.
Qed.

Lemma lC10_len_exact sg cap (os : list (mop K V)) : exists ks, NoDup ks /\
  (forall k, k ∈ ks <-> exists v, after sg hash cap os (MRead k) = Some (OEntry (Some (k, v)))) /\
  after sg hash cap os MLen = Some (OCount (N.min (N.of_nat (length ks)) (2 ^ 64 - 1))) /\
  after sg hash cap os MIsEmpty = Some (OBool (bool_decide (ks = []))).
Proof.
  exists (final os).*1. split; [apply final_nodup|]. split; [|split].
  - intros k. rewrite elem_of_list_fmap. split.
    + intros ([k' v] & -> & Hin). exists v. by apply readable.
    + intros [v Hv]. apply readable in Hv. by exists (k, v).
  - destruct (after_spec sg cap os MLen) as (x & E & O). rewrite E. cbn [rstep r_out] in O. rewrite fmap_length.
    by rewrite (out_exact x _ O).
  - destruct (after_spec sg cap os MIsEmpty) as (x & E & O). rewrite E. cbn [rstep r_out] in O.
    apply out_exact in O. subst x. by destruct (final os).
Qed.

Lemma lC11_iter sg cap (os : list (mop K V)) : exists tb outs, run_map sg hash cap os = Some (tb, outs) /\
  forall S (f : S -> K * V -> S * bool) s, exists tb' vs,
    iter_sync MAP sg hash tb f s = Some (tb', (visit f s vs).1, (visit f s vs).2) /\
    NoDup vs.*1 /\
    (forall k v, (k, v) ∈ vs <-> after sg hash cap os (MRead k) = Some (OEntry (Some (k, v)))) /\
    behaves_as sg hash tb' vs.
Proof.
  destruct (run_map_spec hash Hh sg cap os) as (tb & outs & E & _ & H). exists tb, outs. split; [done|].
  intros S f s. destruct (iter_sync_spec hash Hh MAP sg tb f s (hd_wf _ _ _ _ _ H)) as (tb' & vs & E' & P & Sm).
  exists tb', vs. split; [done|]. rewrite (hd_ents _ _ _ _ _ H) in P. fold (final os) in P.
  assert (ND : NoDup vs.*1) by (rewrite P; apply final_nodup). split; [done|]. split.
  - intros k v. rewrite readable. by rewrite P.
  - apply (holds_behaves hash Hh sg tb' (final os) vs (rrun [] os).2); [by apply (holds_same hash MAP tb)|done|].
    intros k. by apply assoc_perm; [apply final_nodup|].
Qed.
Lemma lC11_iter_mut sg cap (os : list (mop K V)) : exists tb outs, run_map sg hash cap os = Some (tb, outs) /\
  forall S (f : S -> K * V -> verdict V S) s, exists tb' vs s' kept consumed go,
    iter_mut_sync MAP sg hash tb f s = Some (tb', s', consumed, go) /\
    NoDup vs.*1 /\
    (forall k v, (k, v) ∈ vs <-> after sg hash cap os (MRead k) = Some (OEntry (Some (k, v)))) /\
    visit_mut (fun s e => (v_state (f s e), v_value (f s e), v_keep (f s e), v_go (f s e))) s vs = (s', kept, consumed, go) /\
    behaves_as sg hash tb' kept.
Proof.
  destruct (run_map_spec hash Hh sg cap os) as (tb & outs & E & _ & H). exists tb, outs. split; [done|].
  intros S f s. destruct (iter_mut_sync_spec hash Hh MAP sg tb f s) as (tb' & vs & s' & kept & cons & go & E' & P & Vm & Sm);
    [done|apply H|].
  exists tb', vs, s', kept, cons, go. split; [done|]. rewrite (hd_ents _ _ _ _ _ H) in P. fold (final os) in P.
  assert (ND : NoDup vs.*1) by (rewrite P; apply final_nodup). split; [done|]. split; [|split; [done|]].
  - intros k v. rewrite readable. by rewrite P.
  - apply (holds_behaves hash Hh sg tb' kept kept ((rrun [] os).2 ++ [])); [by apply (holds_step0 hash MAP tb _ (final os))| |done].
    eapply sublist_nodup; [by eapply visit_mut_keys|done].
Qed.
Lemma lC11_retain sg cap (os : list (mop K V)) : exists tb outs, run_map sg hash cap os = Some (tb, outs) /\
  forall S (f : S -> K * V -> S * V * bool) s, exists tb' vs s' kept dropped,
    retain_sync MAP sg hash tb f s = Some (tb', s') /\
    NoDup vs.*1 /\
    (forall k v, (k, v) ∈ vs <-> after sg hash cap os (MRead k) = Some (OEntry (Some (k, v)))) /\
    visit_mut (fun s e => (f s e, true)) s vs = (s', kept, dropped, true) /\
    behaves_as sg hash tb' kept /\
    released tb' = released tb ++ dropped.
Proof.
  destruct (run_map_spec hash Hh sg cap os) as (tb & outs & E & _ & H). exists tb, outs. split; [done|].
  intros S f s. destruct (retain_sync_spec hash Hh MAP sg tb f s) as (tb' & vs & s' & kept & cons & E' & P & Vm & Sm);
    [done|apply H|].
  exists tb', vs, s', kept, cons. split; [done|]. rewrite (hd_ents _ _ _ _ _ H) in P. fold (final os) in P.
  assert (ND : NoDup vs.*1) by (rewrite P; apply final_nodup). split; [done|]. split; [|split; [done|split]].
  - intros k v. rewrite readable. by rewrite P.
  - apply (holds_behaves hash Hh sg tb' kept kept ((rrun [] os).2 ++ cons)); [by apply (holds_step hash MAP tb _ (final os) _ _ cons)| |done].
    eapply sublist_nodup; [by eapply visit_mut_keys|done].
  - apply Sm.
Qed.

(** Ownership. *)
Lemma given_ext (o : mop K V) a b : out_eq a b -> given o a = given o b.
Proof. destruct o, a, b; cbn; intros; simplify_eq; done. Qed.
Lemma returned_ext (o : mop K V) a b : out_eq a b -> returned o a = returned o b.
Proof. destruct o, a, b; cbn; intros; simplify_eq; done. Qed.
Lemma zip_ext (g : mop K V -> mout K V -> list (K * V)) (os : list (mop K V)) : forall (outs outs' : list (mout K V)),
  (forall o a b, out_eq a b -> g o a = g o b) ->
  Forall2 out_eq outs outs' -> zip_with g os outs = zip_with g os outs'.
Proof.
  induction os as [|o os IH]; intros outs outs' G F; [done|]. destruct F; [done|]. cbn. f_equal; [by apply G|by apply IH].
Qed.
Lemma put_account k v m v0 : NoDup m.*1 -> assoc k m = Some v0 -> (k, v) :: m ≡ₚ (k, v0) :: put k v m.
Proof.
  intros ND A. apply assoc_Some in A; [|done]. apply elem_of_list_split in A as (l1 & l2 & ->).
  unfold put. rewrite (del_split k v0) by done. rewrite <- Permutation_middle. constructor.
Qed.
Lemma del_account k m v0 : NoDup m.*1 -> assoc k m = Some v0 -> m ≡ₚ (k, v0) :: del k m.
Proof.
  intros ND A. apply assoc_Some in A; [|done]. apply elem_of_list_split in A as (l1 & l2 & ->).
  rewrite (del_split k v0) by done. symmetry. apply Permutation_middle.
Qed.
Lemma rstep_account m (o : mop K V) : NoDup m.*1 -> in_place o ->
  given o (r_out (rstep m o)) ++ m ≡ₚ returned o (r_out (rstep m o)) ++ r_drops (rstep m o) ++ r_map (rstep m o).
Proof.
  intros ND I. destruct o as [k v|k v|k f|k c|k f|k| | | |p| |n|i]; cbn [rstep in_place] in *.
  - destruct (assoc k m) eqn:A; cbn [r_out r_drops r_map given returned app]; [done|].
    apply assoc_None in A. unfold put. by rewrite del_notin.
  - cbn [r_out r_drops r_map given returned]. destruct (assoc k m) eqn:A; cbn [app].
    + by apply put_account.
    + apply assoc_None in A. unfold put. by rewrite del_notin.
  - destruct (assoc k m) as [v|] eqn:A; cbn [r_out r_drops r_map given returned app]; [|done]. rewrite I.
    apply (Permutation_cons_inv (a:=(k, v))). by apply put_account.
  - destruct (assoc k m) as [v|] eqn:A; [|done]. pose proof (I v) as Iv. destruct (c v) as [v' b]. cbn [fst snd] in *. subst v'.
    destruct b; cbn [r_out r_drops r_map given returned app].
    + by apply del_account.
    + apply (Permutation_cons_inv (a:=(k, v))). by apply put_account.
  - cbn [r_out r_drops r_map given returned]. destruct (assoc k m) as [v|] eqn:A; destruct (f _) as [w|]; cbn [app].
    + by apply put_account.
    + by apply del_account.
    + apply assoc_None in A. unfold put. by rewrite del_notin.
    + done.
  - done.
  - done.
  - done.
  - done.
  - cbn [r_out r_drops r_map given returned app].
    assert (E : forall l : list (K * V), map (fun e => (e.1, (p e).1)) l = l).
    { induction l as [|[k v] l IH]; [done|]. cbn [map fst]. rewrite IH, I. done. }
    rewrite !E. clear -m. induction m as [|e m IH]; [done|]. destruct ((p e).2) eqn:Ep.
    + rewrite filter_cons_False, filter_cons_True by (rewrite Ep; done). rewrite <- Permutation_middle. by constructor.
    + rewrite filter_cons_True, filter_cons_False by (rewrite Ep; done). cbn [app]. by constructor.
  - cbn [r_out r_drops r_map given returned app]. by rewrite app_nil_r.
  - done.
  - done.
Qed.
Lemma rrun_account (os : list (mop K V)) : forall m, NoDup m.*1 -> Forall in_place os ->
  concat (zip_with given os (rrun m os).1.2) ++ m ≡ₚ
  concat (zip_with returned os (rrun m os).1.2) ++ (rrun m os).2 ++ (rrun m os).1.1.
Proof.
  induction os as [|o os IH]; intros m ND I; cbn [rrun fst snd zip_with concat app]; [done|].
  apply Forall_cons in I as [Io I].
  pose proof (rstep_account m o ND Io) as P1. pose proof (IH _ (rstep_nodup m o ND) I) as P2.
  rewrite (Permutation_app_comm (given _ _)), <- app_assoc, P1.
  set (g2 := concat (zip_with given os _)) in *. set (r2 := concat (zip_with returned os _)) in *.
  rewrite <- !app_assoc. rewrite (Permutation_app_comm g2), <- !app_assoc. apply Permutation_app_head.
  rewrite (Permutation_app_comm (r_map (rstep m o))), P2.
  rewrite (Permutation_app_comm (r_drops (rstep m o))), <- !app_assoc. apply Permutation_app_head.
  rewrite (Permutation_app_comm (r_drops (rstep m o))), <- !app_assoc.
  rewrite (Permutation_app_comm (rrun (r_map (rstep m o)) os).2). rewrite <- !app_assoc.
  rewrite (Permutation_app_comm (rrun (r_map (rstep m o)) os).1.1), <- app_assoc. done.
Qed.
Lemma lC33_map_released_once sg cap (os : list (mop K V)) : Forall in_place os ->
  exists tb outs es, run_map sg hash cap os = Some (tb, outs) /\ drop_table MAP tb = Some es /\
    concat (zip_with given os outs) ≡ₚ concat (zip_with returned os outs) ++ es.
Proof.
  intros I. destruct (run_map_spec hash Hh sg cap os) as (tb & outs & E & O & H).
  destruct (drop_table_spec hash Hh MAP tb _ _ ltac:(done) H) as (es & Ed & P).
  exists tb, outs, es. split; [done|]. split; [done|].
  rewrite (zip_ext given os outs _ given_ext O), (zip_ext returned os outs _ returned_ext O), P.
  rewrite <- (rrun_account os [] ltac:(constructor) I). by rewrite app_nil_r.
Qed.

Lemma lC34_clone sg cap (os : list (mop K V)) : exists tb outs tb' c, run_map sg hash cap os = Some (tb, outs) /\
  clone sg hash tb = Some (tb', c) /\ behaves_as sg hash tb' (final os) /\ behaves_as sg hash c (final os).
Proof.
  destruct (run_map_spec hash Hh sg cap os) as (tb & outs & E & O & H).
  destruct (clone_spec hash Hh sg tb _ _ H) as (tb' & c & Ec & H1 & H2). exists tb, outs, tb', c.
  split; [done|]. split; [done|].
  split; [apply (holds_behaves hash Hh sg tb' (final os) (final os) _ H1)|apply (holds_behaves hash Hh sg c (final os) (final os) _ H2)];
    try done; apply final_nodup.
Qed.

Lemma lC35_from_iter sg hint (l : list (K * V)) m : NoDup m.*1 -> (forall k, assoc k m = assoc k (rev l)) ->
  exists tb, from_iter sg hash hint l = Some tb /\ behaves_as sg hash tb m.
Proof.
  intros ND A. unfold from_iter. destruct (CapThms.lC06_size_hint hint.1 hint.2) as (c & Ec & _). rewrite Ec, obind.
  destruct (new_map_spec (V:=V) hash c) as (tb0 & E0 & H0 & _). rewrite E0, obind.
  destruct (upsert_all_spec hash Hh sg l tb0 [] [] H0) as (tb & m' & rel' & E & H & A' & _). exists tb. split; [done|].
  apply (holds_behaves hash Hh sg tb m' m _ H ND). intros k. by rewrite A', A, app_nil_r.
Qed.
Lemma lC35_set_from_iter sg hint (l : list (K * V)) m : NoDup m.*1 -> (forall k, assoc k m = assoc k l) ->
  exists tb, set_from_iter sg hash hint l = Some tb /\ behaves_as sg hash tb m.
Proof.
  intros ND A. unfold set_from_iter. destruct (CapThms.lC06_size_hint hint.1 hint.2) as (c & Ec & _). rewrite Ec, obind.
  destruct (new_map_spec (V:=V) hash c) as (tb0 & E0 & H0 & _). rewrite E0, obind.
  destruct (insert_all_spec hash Hh sg l tb0 [] [] H0) as (tb & m' & rel' & E & H & A' & _). exists tb. split; [done|].
  apply (holds_behaves hash Hh sg tb m' m _ H ND). intros k. by rewrite A', A.
Qed.
Lemma lC35_collect_drops_once sg hint (l : list (K * V)) : exists tb es, from_iter sg hash hint l = Some tb /\
  drop_table MAP tb = Some es /\ es ≡ₚ l.
Proof.
  unfold from_iter. destruct (CapThms.lC06_size_hint hint.1 hint.2) as (c & Ec & _). rewrite Ec, obind.
  destruct (new_map_spec (V:=V) hash c) as (tb0 & E0 & H0 & _). rewrite E0, obind.
  destruct (upsert_all_spec hash Hh sg l tb0 [] [] H0) as (tb & m' & rel' & E & H & _ & P).
  destruct (drop_table_spec hash Hh MAP tb _ _ ltac:(done) H) as (es & Ed & Pe). exists tb, es. split; [done|]. split; [done|].
  by rewrite Pe, P.
Qed.

Lemma rstep_other m (o : mop K V) k k' : key_of o = Some k -> k' <> k -> assoc k' (r_map (rstep m o)) = assoc k' m.
Proof.
  intros Ko Hk. destruct o as [j v|j v|j f|j c|j f|j| | | |p| |n|i]; cbn [key_of] in Ko; try done; injection Ko as ->; cbn [rstep].
  - destruct (assoc k m); cbn [r_map]; [done|]. by rewrite assoc_put_ne.
  - cbn [r_map]. by rewrite assoc_put_ne.
  - destruct (assoc k m); cbn [r_map]; [|done]. by rewrite assoc_put_ne.
  - destruct (assoc k m) as [v|]; [|done]. destruct (c v).2; cbn [r_map]; [by rewrite assoc_del_ne|by rewrite assoc_put_ne].
  - cbn [r_map]. destruct (assoc k m), (f _); rewrite ?assoc_put_ne, ?assoc_del_ne by done; done.
Qed.
Lemma lC40_other_keys sg cap os (o : mop K V) k k' : key_of o = Some k -> k' <> k ->
  after sg hash cap (os ++ [o]) (MRead k') = after sg hash cap os (MRead k').
Proof.
  intros Ko Hk. rewrite !after_read, final_app. cbn [rrun fst]. by rewrite (rstep_other _ _ k k').
Qed.
End one_hash.

Lemma lC34_eq `{EqDecision V} (hash1 hash2 : K -> N) (Hh1 : forall k, (hash1 k < 2 ^ 64)%N) (Hh2 : forall k, (hash2 k < 2 ^ 64)%N)
  sg cap1 cap2 (os1 os2 : list (mop K V)) : exists tb1 outs1 tb2 outs2 tb1' tb2' r,
  run_map sg hash1 cap1 os1 = Some (tb1, outs1) /\ run_map sg hash2 cap2 os2 = Some (tb2, outs2) /\
  eq_sync sg hash1 hash2 tb1 tb2 = Some (tb1', tb2', r) /\
  (r = true <-> forall k, after sg hash1 cap1 os1 (MRead k) = after sg hash2 cap2 os2 (MRead k)) /\
  behaves_as sg hash1 tb1' (final os1) /\ behaves_as sg hash2 tb2' (final os2).
Proof.
  destruct (run_map_spec hash1 Hh1 sg cap1 os1) as (tb1 & outs1 & E1 & O1 & H1).
  destruct (run_map_spec hash2 Hh2 sg cap2 os2) as (tb2 & outs2 & E2 & O2 & H2).
  destruct (eq_sync_spec hash1 hash2 Hh1 Hh2 sg tb1 tb2 _ _ _ _ H1 H2) as (tb1' & tb2' & r & E & H1' & H2' & R).
  exists tb1, outs1, tb2, outs2, tb1', tb2', r. split; [done|]. split; [done|]. split; [done|]. split; [|split].
  - rewrite R. split; intros X k.
    + rewrite !after_read by done. fold (final os1) (final os2) in X. by rewrite X.
    + specialize (X k). rewrite !after_read in X by done. fold (final os1) (final os2).
      destruct (assoc k (final os1)), (assoc k (final os2)); cbn in X; congruence.
  - apply (holds_behaves hash1 Hh1 sg tb1' (final os1) (final os1) _ H1'); [apply final_nodup|done].
  - apply (holds_behaves hash2 Hh2 sg tb2' (final os2) (final os2) _ H2'); [apply final_nodup|done].
Qed.
Lemma lC35_serde_round_trip (hash1 hash2 : K -> N) (Hh1 : forall k, (hash1 k < 2 ^ 64)%N) (Hh2 : forall k, (hash2 k < 2 ^ 64)%N)
  sg cap hint (os : list (mop K V)) : exists tb outs tb' vs tb2,
  run_map sg hash1 cap os = Some (tb, outs) /\
  serialize sg hash1 tb = Some (tb', (N.min (N.of_nat (length vs)) (2 ^ 64 - 1), vs)) /\
  deserialize sg hash2 hint vs = Some tb2 /\
  behaves_as sg hash1 tb' (final os) /\ behaves_as sg hash2 tb2 (final os).
Proof.
  destruct (run_map_spec hash1 Hh1 sg cap os) as (tb & outs & E & O & H).
  destruct (serialize_spec hash1 Hh1 sg tb _ _ H) as (tb' & vs & Es & H' & P).
  unfold deserialize.
  destruct (new_map_spec (V:=V) hash2 (N.min (match hint with Some n => n | None => 0%N end) SERDE_MAX_CAPACITY)) as (tb0 & E0 & H0 & _).
  destruct (upsert_all_spec hash2 Hh2 sg vs tb0 [] [] H0) as (tb2 & m' & rel' & E2 & H2 & A' & _).
  exists tb, outs, tb', vs, tb2. split; [done|]. split; [done|]. split; [by rewrite E0, obind|].
  split; [apply (holds_behaves hash1 Hh1 sg tb' (final os) (final os) _ H'); [apply final_nodup|done]|].
  apply (holds_behaves hash2 Hh2 sg tb2 m' (final os) _ H2); [apply final_nodup|].
  intros k. rewrite A', app_nil_r. symmetry. apply assoc_perm; [apply final_nodup|].
  unfold final. rewrite <- P. apply Permutation_rev.
Qed.
End thms.
