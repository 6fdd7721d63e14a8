(** Whole-container operations of HashIndex, and glue to its property statements. *)
From Coq Require Import NArith Lia.
From stdpp Require Import numbers prelude list.
From Verif Require CapModel CapSpec CapFacts CapThms.
From Verif Require Import LruModel BucketModel BucketSpec BucketFacts BucketOps BucketOps2 BucketOps3
  MapSpec MapFacts BucketRun BucketRunFacts TableModel TableSpec TableFacts TableReloc TableHouse TableResize TableAccess
  TableOps IterSpec TableIter MapRunFacts MapWhole IndexModel IndexRef IndexFacts IndexFacts2 IndexIter IndexRun.

Section thms.
Context {K V : Type} `{EqDecision K}.
Implicit Types (tb : table K V) (m : list (K * V)).

Lemma jfinal_nodup (os : list (env * iop K V)) : NoDup (jfinal os).*1.
Proof. apply jrun_nodup. constructor. Qed.
Lemma jfinal_app (os os' : list (env * iop K V)) : jfinal (os ++ os') = (jrun (jfinal os) os'.*2).1.
Proof. unfold jfinal. by rewrite fmap_app, jrun_app. Qed.
Lemma jout_sym (a b : iout K V) : jout_eq a b -> jout_eq b a.
Proof. destruct a, b; cbn; try congruence. by intros ->. Qed.
Lemma jout_exact (a b : iout K V) : jout_eq a b -> match b with JEntries _ => True | _ => a = b end.
Proof. destruct a, b; cbn; done. Qed.

Lemma wf_ibehaves (hash : K -> N) (Hh : forall k, (hash k < 2 ^ 64)%N) tb m m' : wf_table hash INDEX tb -> tents INDEX tb ≡ₚ m ->
  NoDup m'.*1 -> (forall k, assoc k m = assoc k m') -> ibehaves_as hash tb m'.
Proof.
  intros W P ND A os. assert (P' : m ≡ₚ m').
  { apply assoc_ext; [by apply (wf_nodup hash INDEX tb)|done|done]. }
  destruct (irun_spec hash Hh os tb m' W) as (tb' & outs & E & O & _); [by rewrite P|eauto].
Qed.

Section one_hash.
Context (hash : K -> N).
Context (Hh : forall k, (hash k < 2 ^ 64)%N).

(** Inserting a sequence. *)
Lemma insert_all_ispec e (l : list (K * V)) : forall tb m, wf_table hash INDEX tb -> tents INDEX tb ≡ₚ m ->
  exists tb' m' rej, insert_all e hash tb l = Some (tb', rej) /\ wf_table hash INDEX tb' /\ tents INDEX tb' ≡ₚ m' /\
    (forall k, assoc k m' = assoc k (m ++ l)) /\
    rej ++ released tb' ++ tstored tb' ≡ₚ l ++ released tb ++ tstored tb.
Proof.
  induction l as [|[k v] l IH]; intros tb m W P; cbn [insert_all fst snd].
  - exists tb, m, []. rewrite app_nil_r. done.
  - destruct (insert_sync_ispec hash Hh e tb k v m W P) as (tb1 & E & S). rewrite E, obind. cbn [fst snd].
    destruct (IH tb1 _ (is_wf _ _ _ _ _ S) (is_ents _ _ _ _ _ S)) as (tb' & m' & rej & E' & W' & P' & A & Ac).
    rewrite E', obind. cbn [fst snd]. pose proof (is_acct _ _ _ _ _ S) as Ac1. destruct (assoc k m) as [v0|] eqn:Em.
    + exists tb', m', ((k, v) :: rej). split; [done|]. split; [done|]. split; [done|]. split.
      * intros k'. rewrite A, !assoc_app. destruct (assoc k' m) eqn:Ek; [done|].
        cbn [assoc]. case_decide as D; [congruence|done].
      * cbn [app]. constructor. rewrite Ac, Ac1. done.
    + exists tb', m', rej. split; [done|]. split; [done|]. split; [done|]. split.
      * intros k'. rewrite A, !assoc_app. unfold put. cbn [assoc]. case_decide as D.
        -- subst. by rewrite Em.
        -- by rewrite assoc_del_ne by done.
      * rewrite Ac, Ac1. cbn [app]. symmetry. apply Permutation_middle.
Qed.
Lemma clone_ispec e tb m : wf_table hash INDEX tb -> tents INDEX tb ≡ₚ m ->
  exists c mc, clone e hash tb = Some c /\ wf_table hash INDEX c /\ tents INDEX c ≡ₚ mc /\ (forall k, assoc k mc = assoc k m).
Proof.
  intros W P. unfold clone. destruct (new_index_spec (V:=V) hash (capacity tb)) as (c0 & E0 & W0 & T0 & _). rewrite E0, obind.
  rewrite (iter_all_spec hash tb W), obind.
  destruct (insert_all_ispec e (tents INDEX tb) c0 [] W0) as (c & mc & rej & E & Wc & Pc & A & _); [by rewrite T0|].
  rewrite E, obind. exists c, mc. split; [done|]. split; [done|]. split; [done|]. intros k. rewrite A. cbn [app].
  apply assoc_perm; [|done]. rewrite P. by apply (wf_nodup hash INDEX tb).
Qed.
Lemma iserialize_spec e tb m : wf_table hash INDEX tb -> tents INDEX tb ≡ₚ m ->
  exists tb' vs, serialize e hash tb = Some (tb', (N.min (N.of_nat (length vs)) usize_max, vs)) /\
    wf_table hash INDEX tb' /\ tents INDEX tb' ≡ₚ m /\ vs ≡ₚ m.
Proof.
  intros W P. unfold serialize.
  destruct (len_same hash Hh INDEX (same_gen e) tb m W P) as (tb1 & E & S). rewrite E, obind. cbn [fst snd].
  assert (P1 : tents INDEX tb1 ≡ₚ m) by (by rewrite (sm_ents _ _ _ _ S)).
  rewrite (iter_all_spec hash tb1 (sm_wf _ _ _ _ S)), obind. exists tb1, (tents INDEX tb1).
  split; [by rewrite (Permutation_length P1)|]. split; [apply S|]. done.
Qed.

Lemma iafter_spec cap os (o : env * iop K V) : exists x, iafter hash cap os o = Some x /\ jout_eq x (jstep (jfinal os) o.2).2.
Proof.
  unfold iafter. destruct (run_index_spec hash Hh cap os) as (tb & outs & E & _ & W & P & _). rewrite E, obind. cbn [fst snd].
  destruct (istep_spec hash Hh o.1 tb _ o.2 W P) as (tb' & out & E' & O & _). rewrite E', obind. eauto.
Qed.
Lemma iafter_peek cap (os : list (env * iop K V)) e k : iafter hash cap os (e, IPeek k) =
  Some (JEntry (option_map (fun v => (k, v)) (assoc k (jfinal os)))).
Proof. destruct (iafter_spec cap os (e, IPeek k)) as (x & E & O). rewrite E. destruct x; cbn in O; try done; congruence. Qed.
Lemma peekable cap (os : list (env * iop K V)) e k v : iafter hash cap os (e, IPeek k) = Some (JEntry (Some (k, v))) <-> (k, v) ∈ jfinal os.
Proof.
  rewrite iafter_peek, <- assoc_Some by apply jfinal_nodup.
  destruct (assoc k (jfinal os)) as [v'|]; cbn; split; intros [=]; congruence.
Qed.

Lemma lC52_hashindex_is_a_finite_map cap (os : list (env * iop K V)) : exists tb outs,
  run_index hash cap os = Some (tb, outs) /\ Forall2 jout_eq outs (jrun [] os.*2).2.
Proof. destruct (run_index_spec hash Hh cap os) as (tb & outs & E & O & _). eauto. Qed.

Lemma lC08_index_rejected_insert cap (os : list (env * iop K V)) e e' k v v0 :
  iafter hash cap os (e, IPeek k) = Some (JEntry (Some (k, v0))) ->
  iafter hash cap os (e', IInsert k v) = Some (JEntry (Some (k, v))) /\
  forall os' o, jsame_result (iafter hash cap (os ++ [(e', IInsert k v)] ++ os') o) (iafter hash cap (os ++ os') o).
Proof.
  intros R. apply peekable in R. apply assoc_Some in R; [|apply jfinal_nodup]. split.
  - destruct (iafter_spec cap os (e', IInsert k v)) as (x & E & O). rewrite E. cbn [jstep snd] in O. rewrite R in O.
    destruct x; cbn in O; try done; congruence.
  - intros os' o.
    destruct (iafter_spec cap (os ++ [(e', IInsert k v)] ++ os') o) as (x & E & O).
    destruct (iafter_spec cap (os ++ os') o) as (y & E' & O'). exists x, y. split; [done|]. split; [done|].
    rewrite !jfinal_app in *. cbn [app fmap list_fmap snd jrun jstep] in O. rewrite R in O. cbn [fst] in O.
    eapply jout_trans; [exact O|by apply jout_sym].
Qed.
Lemma lC08_index_accepted_insert cap (os : list (env * iop K V)) e e' k v :
  iafter hash cap os (e, IPeek k) = Some (JEntry None) ->
  iafter hash cap os (e', IInsert k v) = Some (JEntry None) /\
  iafter hash cap (os ++ [(e', IInsert k v)]) (e, IPeek k) = Some (JEntry (Some (k, v))) /\
  forall k', k' <> k -> iafter hash cap (os ++ [(e', IInsert k v)]) (e, IPeek k') = iafter hash cap os (e, IPeek k').
Proof.
  rewrite iafter_peek. destruct (assoc k (jfinal os)) eqn:A; [done|]. intros _. split; [|split].
  - destruct (iafter_spec cap os (e', IInsert k v)) as (x & E & O). rewrite E. cbn [jstep snd] in O. rewrite A in O.
    destruct x; cbn in O; try done; congruence.
  - rewrite iafter_peek, jfinal_app. cbn [fmap list_fmap snd jrun jstep]. rewrite A. cbn [fst]. by rewrite assoc_put_eq.
  - intros k' Hk. rewrite !iafter_peek, jfinal_app. cbn [fmap list_fmap snd jrun jstep]. rewrite A. cbn [fst]. by rewrite assoc_put_ne.
Qed.

Lemma lC10_index_len_exact cap (os : list (env * iop K V)) e : exists ks, NoDup ks /\
  (forall k, k ∈ ks <-> exists v, iafter hash cap os (e, IPeek k) = Some (JEntry (Some (k, v)))) /\
  iafter hash cap os (e, ILen) = Some (JCount (N.min (N.of_nat (length ks)) (2 ^ 64 - 1))) /\
  iafter hash cap os (e, IIsEmpty) = Some (JBool (bool_decide (ks = []))).
Proof.
  exists (jfinal os).*1. split; [apply jfinal_nodup|]. split; [|split].
  - intros k. rewrite elem_of_list_fmap. split.
    + intros ([k' v] & -> & Hin). exists v. by apply peekable.
    + intros [v Hv]. apply peekable in Hv. by exists (k, v).
  - destruct (iafter_spec cap os (e, ILen)) as (x & E & O). rewrite E. cbn [jstep snd] in O. rewrite fmap_length.
    by rewrite (jout_exact x _ O).
  - destruct (iafter_spec cap os (e, IIsEmpty)) as (x & E & O). rewrite E. cbn [jstep snd] in O.
    apply jout_exact in O. subst x. by destruct (jfinal os).
Qed.

Lemma lC11_index_iter cap (os : list (env * iop K V)) e : exists tb outs, run_index hash cap os = Some (tb, outs) /\
  forall S (f : S -> K * V -> S * bool) s, exists tb' vs,
    IndexModel.iter_sync e hash tb f s = Some (tb', (visit f s vs).1, (visit f s vs).2) /\
    NoDup vs.*1 /\
    (forall k v, (k, v) ∈ vs <-> iafter hash cap os (e, IPeek k) = Some (JEntry (Some (k, v)))) /\
    ibehaves_as hash tb' vs.
Proof.
  destruct (run_index_spec hash Hh cap os) as (tb & outs & E & _ & W & P & _). exists tb, outs. split; [done|].
  intros S f s. unfold IndexModel.iter_sync. destruct (reclaim_spec hash Hh e tb W) as (tb0 & E0 & S0). rewrite E0, obind.
  destruct (iter_sync_spec hash Hh INDEX (same_gen e) tb0 f s (sm_wf _ _ _ _ S0)) as (tb' & vs & E' & Pv & Sm).
  exists tb', vs. split; [done|]. rewrite (sm_ents _ _ _ _ S0), P in Pv.
  assert (ND : NoDup vs.*1) by (rewrite Pv; apply jfinal_nodup). split; [done|]. split.
  - intros k v. rewrite peekable. by rewrite Pv.
  - apply (wf_ibehaves hash Hh tb' vs vs); [apply Sm| |done|done].
    by rewrite (sm_ents _ _ _ _ Sm), (sm_ents _ _ _ _ S0), P, Pv.
Qed.
Lemma lC11_index_retain cap (os : list (env * iop K V)) e : exists tb outs, run_index hash cap os = Some (tb, outs) /\
  forall S (f : S -> K * V -> S * bool) s, exists tb' vs s' kept removed,
    IndexModel.retain_sync e hash tb f s = Some (tb', s') /\
    NoDup vs.*1 /\
    (forall k v, (k, v) ∈ vs <-> iafter hash cap os (e, IPeek k) = Some (JEntry (Some (k, v)))) /\
    visit_mut (fun s x => ((f s x).1, x.2, (f s x).2, true)) s vs = (s', kept, removed, true) /\
    ibehaves_as hash tb' kept.
Proof.
  destruct (run_index_spec hash Hh cap os) as (tb & outs & E & _ & W & P & _). exists tb, outs. split; [done|].
  intros S f s. destruct (retain_sync_ispec hash Hh e tb f s W) as (tb' & vs & s' & kept & cons & E' & Pv & Vm & Sm).
  exists tb', vs, s', kept, cons. split; [done|]. rewrite P in Pv.
  assert (ND : NoDup vs.*1) by (rewrite Pv; apply jfinal_nodup). split; [done|]. split; [|split; [done|]].
  - intros k v. rewrite peekable. by rewrite Pv.
  - apply (wf_ibehaves hash Hh tb' kept kept); [apply Sm|apply Sm| |done].
    eapply sublist_nodup; [by eapply visit_mut_keys|done].
Qed.

Lemma lC20_iter_exactly_once cap (os : list (env * iop K V)) e : exists tb outs vs it it',
  run_index hash cap os = Some (tb, outs) /\
  nexts (length vs) tb iter_new = Some (it, map Some vs) /\ next tb it = Some (it', None) /\
  NoDup vs.*1 /\
  (forall k v, (k, v) ∈ vs <-> iafter hash cap os (e, IPeek k) = Some (JEntry (Some (k, v)))).
Proof.
  destruct (run_index_spec hash Hh cap os) as (tb & outs & E & _ & W & P & _).
  destruct (nexts_all hash tb W) as (it & it' & E1 & E2). exists tb, outs, (tents INDEX tb), it, it'.
  split; [done|]. split; [done|]. split; [done|]. split; [rewrite P; apply jfinal_nodup|].
  intros k v. rewrite peekable. by rewrite P.
Qed.

Lemma lC33_index_released_once cap (os : list (env * iop K V)) :
  exists tb outs es, run_index hash cap os = Some (tb, outs) /\ drop_table INDEX tb = Some es /\
    concat (zip_with jgiven os.*2 outs) ≡ₚ concat (zip_with jreturned os.*2 outs) ++ es.
Proof.
  destruct (run_index_spec hash Hh cap os) as (tb & outs & E & _ & W & P & A).
  destruct (drop_index_spec hash Hh tb W) as (es & Ed & Pe). exists tb, outs, es. split; [done|]. split; [done|].
  by rewrite Pe.
Qed.
Lemma lC33_index_not_released_early cap (os : list (env * iop K V)) :
  exists tb outs vs, run_index hash cap os = Some (tb, outs) /\ NoDup vs.*1 /\
    (forall e k v, iafter hash cap os (e, IPeek k) = Some (JEntry (Some (k, v))) <-> (k, v) ∈ vs) /\
    concat (zip_with jreturned os.*2 outs) ++ released tb ++ vs ⊆+ concat (zip_with jgiven os.*2 outs).
Proof.
  destruct (run_index_spec hash Hh cap os) as (tb & outs & E & _ & W & P & A). exists tb, outs, (jfinal os).
  split; [done|]. split; [apply jfinal_nodup|]. split; [intros; apply peekable|].
  rewrite A. apply submseteq_app; [done|]. apply submseteq_app; [done|]. rewrite <- P. apply tents_tstored.
Qed.

Lemma lC34_index_clone cap (os : list (env * iop K V)) e : exists tb outs c, run_index hash cap os = Some (tb, outs) /\
  clone e hash tb = Some c /\ ibehaves_as hash tb (jfinal os) /\ ibehaves_as hash c (jfinal os).
Proof.
  destruct (run_index_spec hash Hh cap os) as (tb & outs & E & _ & W & P & _).
  destruct (clone_ispec e tb _ W P) as (c & mc & Ec & Wc & Pc & A). exists tb, outs, c.
  split; [done|]. split; [done|].
  split; [apply (wf_ibehaves hash Hh tb (jfinal os) (jfinal os))|apply (wf_ibehaves hash Hh c mc (jfinal os))];
    try done; apply jfinal_nodup.
Qed.
Lemma lC35_index_from_iter e hint (l : list (K * V)) m : NoDup m.*1 -> (forall k, assoc k m = assoc k l) ->
  exists tb rej es, from_iter e hash hint l = Some (tb, rej) /\ ibehaves_as hash tb m /\
    drop_table INDEX tb = Some es /\ rej ++ es ≡ₚ l.
Proof.
  intros ND A. unfold from_iter. destruct (CapThms.lC06_size_hint hint.1 hint.2) as (c & Ec & _). rewrite Ec, obind.
  destruct (new_index_spec (V:=V) hash c) as (tb0 & E0 & W0 & T0 & R0 & S0). rewrite E0, obind.
  destruct (insert_all_ispec e l tb0 [] W0) as (tb & m' & rej & E & W & P & A' & Ac); [by rewrite T0|].
  destruct (drop_index_spec hash Hh tb W) as (es & Ed & Pe). exists tb, rej, es. split; [done|]. split; [|split; [done|]].
  - apply (wf_ibehaves hash Hh tb m' m W P ND). intros k. by rewrite A', A.
  - rewrite Pe, Ac, R0, S0. cbn [app]. by rewrite app_nil_r.
Qed.
Lemma jstep_other m (o : iop K V) k k' : ikey_of o = Some k -> k' <> k -> assoc k' (jstep m o).1 = assoc k' m.
Proof.
  assert (Ao : forall a, k' <> k -> assoc k' (act_on m k a) = assoc k' m).
  { intros a Hk. destruct a; cbn [act_on]; [done|by rewrite assoc_put_ne|by rewrite assoc_del_ne]. }
  intros Ko Hk. destruct o as [j v|j f|j f|j c|j| | | | |p| |n|i]; cbn [ikey_of] in Ko; try done; injection Ko as ->; cbn [jstep].
  - destruct (assoc k m); cbn [fst]; [done|]. by rewrite assoc_put_ne.
  - cbn [fst]. by apply Ao.
  - cbn [fst]. destruct (assoc k m); [by apply Ao|done].
  - destruct (assoc k m) as [v|]; [|done]. destruct (c v); cbn [fst]; [by rewrite assoc_del_ne|done].
Qed.
Lemma lC40_index_other_keys cap os (o : env * iop K V) e k k' : ikey_of o.2 = Some k -> k' <> k ->
  iafter hash cap (os ++ [o]) (e, IPeek k') = iafter hash cap os (e, IPeek k').
Proof.
  intros Ko Hk. rewrite !iafter_peek, jfinal_app. cbn [fmap list_fmap jrun fst]. by rewrite (jstep_other _ _ k k').
Qed.
End one_hash.

Lemma all_in_spec `{EqDecision V} (hash : K -> N) (Hh : forall k, (hash k < 2 ^ 64)%N) e (vs : list (K * V)) :
  forall tb m, wf_table hash INDEX tb -> tents INDEX tb ≡ₚ m ->
  exists tb' r, all_in e hash vs tb = Some (tb', r) /\ wf_table hash INDEX tb' /\ tents INDEX tb' ≡ₚ m /\
    (r = true <-> forall k v, (k, v) ∈ vs -> assoc k m = Some v).
Proof.
  induction vs as [|[k v] vs IH]; intros tb m W P.
  - exists tb, true. split; [done|]. split; [done|]. split; [done|]. split; [|done]. intros _ k v X. by apply elem_of_nil in X.
  - cbn [all_in fst snd]. destruct (peek_ispec hash Hh e tb k m W P) as (tb1 & q & E & S & ->). rewrite E, obind. cbn [fst snd].
    assert (Eq : option_map snd (option_map (fun v => (k, v)) (assoc k m)) = assoc k m) by (by destruct (assoc k m)).
    rewrite Eq. destruct (bool_decide_reflect (assoc k m = Some v)) as [D|D].
    + destruct (IH tb1 m (is_wf _ _ _ _ _ S) (is_ents _ _ _ _ _ S)) as (tb2 & r & E2 & W2 & P2 & R).
      exists tb2, r. split; [done|]. split; [done|]. split; [done|].
      rewrite R. split; intros X k' v' Hin.
      * apply elem_of_cons in Hin as [[= -> ->]|Hin]; [done|by apply X].
      * apply X. by apply elem_of_cons; right.
    + exists tb1, false. split; [done|]. split; [apply S|]. split; [apply S|]. split; [done|]. intros X. exfalso. apply D. apply X. by left.
Qed.
Lemma eq_ispec `{EqDecision V} (hash1 hash2 : K -> N) (Hh1 : forall k, (hash1 k < 2 ^ 64)%N) (Hh2 : forall k, (hash2 k < 2 ^ 64)%N)
  e tb1 tb2 m1 m2 : wf_table hash1 INDEX tb1 -> tents INDEX tb1 ≡ₚ m1 -> wf_table hash2 INDEX tb2 -> tents INDEX tb2 ≡ₚ m2 ->
  exists tb1' tb2' r, eq_sync e hash1 hash2 tb1 tb2 = Some (tb1', tb2', r) /\
    wf_table hash1 INDEX tb1' /\ tents INDEX tb1' ≡ₚ m1 /\ wf_table hash2 INDEX tb2' /\ tents INDEX tb2' ≡ₚ m2 /\
    (r = true <-> forall k, assoc k m1 = assoc k m2).
Proof.
  intros W1 P1 W2 P2. unfold eq_sync.
  assert (N1 : NoDup m1.*1) by (by apply (wf_nodup hash1 INDEX tb1)).
  assert (N2 : NoDup m2.*1) by (by apply (wf_nodup hash2 INDEX tb2)).
  destruct (reclaim_spec hash1 Hh1 e tb1 W1) as (tb0 & E0 & S0). rewrite E0, obind. pose proof (sm_wf _ _ _ _ S0) as W0.
  assert (P0 : tents INDEX tb0 ≡ₚ m1) by (by rewrite (sm_ents _ _ _ _ S0)).
  rewrite (iter_all_spec hash1 tb0 W0), obind.
  destruct (all_in_spec hash2 Hh2 e (tents INDEX tb0) tb2 m2 W2 P2) as (tb2' & r & E & W2' & P2' & R). rewrite E, obind. cbn [fst snd].
  assert (R1 : r = true <-> forall k v, assoc k m1 = Some v -> assoc k m2 = Some v).
  { rewrite R. split; intros X k v Hk.
    - apply X. rewrite P0. by apply assoc_Some.
    - apply X. apply assoc_Some; [done|]. by rewrite <- P0. }
  destruct r.
  - rewrite (iter_all_spec hash2 tb2' W2'), obind.
    destruct (all_in_spec hash1 Hh1 e (tents INDEX tb2') tb0 m1 W0 P0) as (tb1' & r & E' & W1' & P1' & R2). rewrite E', obind. cbn [fst snd].
    exists tb1', tb2', r. split; [done|]. do 4 (split; [done|]). rewrite R2. split.
    + intros X k. destruct (assoc k m1) as [v|] eqn:A1.
      * symmetry. by apply R1.
      * destruct (assoc k m2) as [v|] eqn:A2; [|done]. rewrite <- A1. apply X. rewrite P2'. by apply assoc_Some.
    + intros X k v Hv. rewrite X. apply assoc_Some; [done|]. by rewrite <- P2'.
  - exists tb0, tb2', false. split; [done|]. do 4 (split; [done|]). split; [done|].
    intros X. exfalso. assert (false = true) by (apply R1; intros k v; by rewrite X). done.
Qed.
Lemma lC34_index_eq `{EqDecision V} (hash1 hash2 : K -> N) (Hh1 : forall k, (hash1 k < 2 ^ 64)%N) (Hh2 : forall k, (hash2 k < 2 ^ 64)%N)
  e cap1 cap2 (os1 os2 : list (env * iop K V)) : exists tb1 outs1 tb2 outs2 tb1' tb2' r,
  run_index hash1 cap1 os1 = Some (tb1, outs1) /\ run_index hash2 cap2 os2 = Some (tb2, outs2) /\
  eq_sync e hash1 hash2 tb1 tb2 = Some (tb1', tb2', r) /\
  (r = true <-> forall k, iafter hash1 cap1 os1 (e, IPeek k) = iafter hash2 cap2 os2 (e, IPeek k)) /\
  ibehaves_as hash1 tb1' (jfinal os1) /\ ibehaves_as hash2 tb2' (jfinal os2).
Proof.
  destruct (run_index_spec hash1 Hh1 cap1 os1) as (tb1 & outs1 & E1 & _ & W1 & P1 & _).
  destruct (run_index_spec hash2 Hh2 cap2 os2) as (tb2 & outs2 & E2 & _ & W2 & P2 & _).
  destruct (eq_ispec hash1 hash2 Hh1 Hh2 e tb1 tb2 _ _ W1 P1 W2 P2) as (tb1' & tb2' & r & E & W1' & P1' & W2' & P2' & R).
  exists tb1, outs1, tb2, outs2, tb1', tb2', r. split; [done|]. split; [done|]. split; [done|]. split; [|split].
  - rewrite R. split; intros X k.
    + rewrite !iafter_peek by done. by rewrite X.
    + specialize (X k). rewrite !iafter_peek in X by done.
      destruct (assoc k (jfinal os1)), (assoc k (jfinal os2)); cbn in X; congruence.
  - apply (wf_ibehaves hash1 Hh1 tb1' (jfinal os1) (jfinal os1)); try done. apply jfinal_nodup.
  - apply (wf_ibehaves hash2 Hh2 tb2' (jfinal os2) (jfinal os2)); try done. apply jfinal_nodup.
Qed.
Lemma lC35_index_serde_round_trip (hash1 hash2 : K -> N) (Hh1 : forall k, (hash1 k < 2 ^ 64)%N) (Hh2 : forall k, (hash2 k < 2 ^ 64)%N)
  e cap hint (os : list (env * iop K V)) : exists tb outs tb' vs tb2 rej,
  run_index hash1 cap os = Some (tb, outs) /\
  serialize e hash1 tb = Some (tb', (N.min (N.of_nat (length vs)) (2 ^ 64 - 1), vs)) /\
  deserialize e hash2 hint vs = Some (tb2, rej) /\
  ibehaves_as hash1 tb' (jfinal os) /\ ibehaves_as hash2 tb2 (jfinal os).
Proof.
  destruct (run_index_spec hash1 Hh1 cap os) as (tb & outs & E & _ & W & P & _).
  destruct (iserialize_spec hash1 Hh1 e tb _ W P) as (tb' & vs & Es & W' & P' & Pv).
  unfold deserialize.
  destruct (new_index_spec (V:=V) hash2 (N.min (match hint with Some n => n | None => 0%N end) SERDE_MAX_CAPACITY)) as (tb0 & E0 & W0 & T0 & _).
  destruct (insert_all_ispec hash2 Hh2 e vs tb0 [] W0) as (tb2 & m' & rej & E2 & W2 & P2 & A' & _); [by rewrite T0|].
  exists tb, outs, tb', vs, tb2, rej. split; [done|]. split; [done|]. split; [by rewrite E0, obind|].
  split; [apply (wf_ibehaves hash1 Hh1 tb' (jfinal os) (jfinal os)); try done; apply jfinal_nodup|].
  apply (wf_ibehaves hash2 Hh2 tb2 m' (jfinal os)); [done|done|apply jfinal_nodup|].
  intros k. rewrite A'. cbn [app]. symmetry. apply assoc_perm; [apply jfinal_nodup|]. by rewrite Pv.
Qed.
End thms.
