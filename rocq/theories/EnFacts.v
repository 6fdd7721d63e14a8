(** The operations of an [Entry] act on its cell. *)
From Coq Require Import NArith Lia.
From stdpp Require Import numbers prelude list.
From Verif Require CapModel.
From Verif Require Import BucketModel BucketSpec BucketFacts BucketOps BucketOps2 BucketOps3 BucketRunFacts MapSpec MapFacts
  TableModel TableSpec TableFacts TableReloc TableResize TableHouse TableAccess TableOps IterSpec TableIter
  MapModel MapRef MapFacts2 MapRunFacts MapWhole MapThms EnModel EnSpec.

Section facts.
Context {K V : Type} `{EqDecision K}.
Context (hash : K -> N).
Context (Hh : forall k, (hash k < 2 ^ 64)%N).
Context (sg : N -> bool) (k : K) (tb0 : table K V) (rest : list (K * V)) (Hr : k ∉ rest.*1) (l : loc).
Implicit Types (tb : table K V) (b : bucket K V) (c : option V) (h : held).

Definition with_cell c : list (K * V) := match c with Some v => (k, v) :: rest | None => rest end.
Definition at_cell b h c : Prop :=
  match h, c with Occ p, Some v => points_to MAP b p (k, v) | Vac, None => True | _, _ => False end.
Record inv tb h c : Prop := Inv {
  i_step : step hash MAP tb0 tb (with_cell c) [];
  i_lkey : lkey hash tb l k;
  i_at : exists b, owns hash tb l b /\ at_cell b h c }.

Lemma del_cell c : del k (with_cell c) = rest.
Proof. destruct c; cbn [with_cell]; [rewrite del_cons_eq|]; by apply del_notin. Qed.
Lemma get_inv tb p v : inv tb (Occ p) (Some v) -> exists b, lock tb l = Some b /\ get b p = Some (k, v).
Proof.
  intros [S _ (b & Ow & Pt)]. destruct (owns_lock hash MAP tb l b (sp_wf _ _ _ _ _ _ S) Ow) as [L _]. exists b.
  split; [done|]. by apply (points_to_get MAP).
Qed.
Lemma change_spec tb p v f : inv tb (Occ p) (Some v) ->
  exists tb', change tb l p f = Some (tb', v, f v) /\ inv tb' (Occ p) (Some (f v)).
Proof.
  intros I. destruct (get_inv tb p v I) as (b & L & G). destruct I as [S Lk (b0 & Ow & Pt)]. pose proof (sp_wf _ _ _ _ _ _ S) as W.
  destruct (owns_lock hash MAP tb l b0 W Ow) as [L0 Wb]. assert (b0 = b) as -> by congruence.
  unfold change. rewrite L, obind, G, obind. cbn [snd].
  destruct (owns_assoc hash MAP tb l b k _ W Ow Lk (sp_ents _ _ _ _ _ _ S)) as (R & RS & Pm & NR & ND & A & _ & PB).
  destruct (replace_step hash MAP tb tb l b k v (f v) p _ R RS ltac:(done) (same_refl _ _ _ W) Wb ND Pt Pm NR PB)
    as (b' & tb' & E1 & E2 & St & Ow' & Lk' & Pt' & _).
  rewrite E1, obind. cbn [fst]. rewrite E2, obind.
  assert (I' : inv tb' (Occ p) (Some (f v))).
  { split; [|by apply Lk'|by exists b']. change (@nil (K * V)) with (@nil (K * V) ++ []). eapply step_trans; [exact S|].
    unfold put in St. by rewrite del_cell in St. }
  destruct (get_inv tb' p (f v) I') as (b2 & L2 & G2). rewrite L2, obind, G2, obind. eauto.
Qed.
Lemma fill_spec tb v : inv tb Vac None -> exists tb' p, fill sg hash tb l k v = Some (tb', Occ p, v) /\ inv tb' (Occ p) (Some v).
Proof.
  intros [S Lk (b & Ow & _)]. pose proof (sp_wf _ _ _ _ _ _ S) as W.
  destruct (owns_lock hash MAP tb l b W Ow) as [L Wb]. unfold fill. rewrite L, obind.
  destruct (owns_assoc hash MAP tb l b k _ W Ow Lk (sp_ents _ _ _ _ _ _ S)) as (R & RS & Pm & NR & ND & A & _ & PB).
  destruct (insert_spec hash MAP sg b (hash k) (k, v) Wb eq_refl) as (b' & p' & d & E' & W' & E1 & Pt & _ & Hd & _).
  assert (N : k ∉ (entries MAP b).*1). { intros Hk. apply Hr. cbn [with_cell] in Pm. rewrite Pm, fmap_app. apply elem_of_app. by constructor 1. }
  rewrite E', obind. cbn [fst snd]. rewrite (Hd ltac:(done)). destruct (PB b' W') as (tb2 & PBk).
  { intros e He. rewrite E1 in He. apply elem_of_cons in He as [->|He]; [by left|]. right. apply elem_of_list_fmap. eauto. }
  { rewrite E1. cbn. by apply NoDup_cons. }
  rewrite (pb_set _ _ _ _ _ _ _ _ PBk), obind, release_nil.
  assert (I' : inv tb2 (Occ p') (Some v)).
  { split; [|by apply (pb_lkey _ _ _ _ _ _ _ _ PBk)|exists b'; split; [apply PBk|done]].
    change (@nil (K * V)) with (@nil (K * V) ++ []). eapply step_trans; [exact S|].
    eapply put_step; [done|by apply same_refl|exact PBk|]. rewrite E1. cbn [app with_cell]. constructor. by symmetry. }
  destruct (get_inv tb2 p' v I') as (b2 & L2 & G2). rewrite L2, obind, G2, obind. eauto.
Qed.
Lemma estep_spec tb h c o : inv tb h c ->
  exists tb' h', estep sg hash k tb l h o = Some (tb', h', (ecell k c o).2) /\ inv tb' h' (ecell k c o).1.
Proof.
  intros I. destruct h as [p|]; destruct c as [v|]; try (by destruct I as [_ _ (? & _ & [])]).
  - destruct o as [f|g|v'|]; cbn [estep ecell fst snd option_map].
    + destruct (change_spec tb p v f I) as (tb' & E & I'). rewrite E, obind. eauto.
    + destruct (get_inv tb p v I) as (b & L & G). rewrite L, obind, G, obind. eauto.
    + destruct (change_spec tb p v (fun _ => v') I) as (tb' & E & I'). rewrite E, obind. eauto.
    + destruct (get_inv tb p v I) as (b & L & G). rewrite L, obind, G, obind. eauto.
  - destruct o as [f|g|v'|]; cbn [estep ecell fst snd option_map]; [by eauto| | |by eauto].
    + destruct (fill_spec tb (g k) I) as (tb' & p & E & I'). rewrite E, obind. eauto.
    + destruct (fill_spec tb v' I) as (tb' & p & E & I'). rewrite E, obind. eauto.
Qed.
Lemma esteps_spec os : forall tb h c, inv tb h c ->
  exists tb' h', esteps sg hash k tb l h os = Some (tb', h', (ecells k c os).2) /\ inv tb' h' (ecells k c os).1.
Proof.
  induction os as [|o os IH]; intros tb h c I; cbn [esteps ecells fst snd]; [by eauto|].
  destruct (estep_spec tb h c o I) as (tb1 & h1 & E & I1). rewrite E, obind. cbn [fst snd].
  destruct (IH tb1 h1 _ I1) as (tb2 & h2 & E2 & I2). rewrite E2, obind. eauto.
Qed.
End facts.

Section chain.
Context {K V : Type} `{EqDecision K}.
Context (hash : K -> N).
Context (Hh : forall k, (hash k < 2 ^ 64)%N).

Lemma chain_spec sg (tb : table K V) k os fin m : wf_table hash MAP tb -> tents MAP tb ≡ₚ m -> let c := assoc k m in
  exists tb', entry_chain sg hash tb k os fin = Some (tb', (ecells k c os).2, taken k (ecells k c os).1 fin) /\
    step hash MAP tb tb' (left k (ecells k c os).1 fin (del k m)) [].
Proof.
  intros W P c. unfold entry_chain. assert (ND0 : NoDup m.*1) by (by apply (wf_nodup hash MAP tb)).
  destruct (writer_spec hash Hh MAP sg tb k W) as (tb1 & l & b & E & S & Lk & Ow). rewrite E, obind. cbn [fst snd].
  pose proof (sm_wf _ _ _ _ S) as W1. destruct (owns_lock hash MAP tb1 l b W1 Ow) as [L Wb]. rewrite L, obind.
  assert (P1 : tents MAP tb1 ≡ₚ m) by (by rewrite (sm_ents _ _ _ _ S)).
  destruct (owns_assoc hash MAP tb1 l b k m W1 Ow Lk P1) as (R & RS & Pm & NR & ND & A & _ & PB).
  assert (Hk : k ∉ (del k m).*1) by apply del_keys.
  assert (I : exists p, get_entry_ptr MAP b k (hash k) = Some p /\ inv hash k tb (del k m) l tb1 (if is_valid p then Occ p else Vac) c).
  { destruct (lookup_ptr hash MAP b k Wb) as (p & Ep & [[V1 (v0 & Pt)]|[V1 N]]); exists p; rewrite V1; (split; [done|]).
    - destruct (points_assoc hash MAP b k v0 p Wb ND Pt) as [A' _]. assert (c = Some v0) as -> by (unfold c; congruence).
      split; [|done|by exists b]. apply step_same; [done| |done]. rewrite P. apply del_account; [done|congruence].
    - assert (Hc : c = None). { unfold c. rewrite A. by apply assoc_None. } rewrite Hc.
      split; [|done|by exists b]. apply step_same; [done| |done]. cbn [with_cell]. rewrite del_notin; [done|]. by apply assoc_None. }
  destruct I as (p & Ep & I). rewrite Ep, obind.
  destruct (esteps_spec hash sg k tb (del k m) Hk l os tb1 _ c I) as (tb2 & h2 & E2 & I2). rewrite E2, obind. cbn [fst snd].
  destruct I2 as [S2 Lk2 (b2 & Ow2 & At)]. destruct (ecells k c os) as [c2 us]. cbn [fst snd] in *.
  destruct fin; [exists tb2; split; [by destruct h2|exact S2]|].
  destruct h2 as [p2|]; destruct c2 as [v2|]; try done; cbn [taken option_map left].
  - destruct (locked_remove_spec hash Hh MAP tb2 l b2 k v2 p2 _ ltac:(done) (sp_wf _ _ _ _ _ _ S2) (sp_ents _ _ _ _ _ _ S2) Ow2 Lk2 At) as (tb3 & E3 & S3).
    rewrite E3, obind. exists tb3. split; [done|]. change (@nil (K * V)) with (@nil (K * V) ++ []). eapply step_trans; [exact S2|].
    by rewrite (del_cell k (del k m) Hk (Some v2)) in S3.
  - exists tb2. split; [done|exact S2].
Qed.

Lemma chain_after sg cap (os : list (mop K V)) k es fin : exists tb outs, run_map sg hash cap os = Some (tb, outs) /\
  exists tb' us r c rest, entry_chain sg hash tb k es fin = Some (tb', us, r) /\
    after sg hash cap os (MRead k) = Some (OEntry (option_map (pair k) c)) /\
    NoDup rest.*1 /\
    (forall k' v, (k', v) ∈ rest <-> k' <> k /\ after sg hash cap os (MRead k') = Some (OEntry (Some (k', v)))) /\
    us = (ecells k c es).2 /\ r = taken k (ecells k c es).1 fin /\
    behaves_as sg hash tb' (left k (ecells k c es).1 fin rest).
Proof.
  destruct (run_map_spec hash Hh sg cap os) as (tb & outs & E & _ & H). exists tb, outs. split; [done|].
  pose proof (hd_ents _ _ _ _ _ H) as P. fold (final os) in P. pose proof (hd_wf _ _ _ _ _ H) as W.
  destruct (chain_spec sg tb k es fin (final os) W P) as (tb' & E' & St). set (c := assoc k (final os)) in *.
  eexists tb', _, _, c, (del k (final os)). split; [exact E'|].
  split; [apply (after_read hash Hh)|].
  split; [apply del_NoDup, final_nodup|].
  split. { intros k' v. rewrite (readable hash Hh). unfold del. rewrite elem_of_list_filter. done. }
  split; [done|]. split; [done|]. set (u := left k (ecells k c es).1 fin (del k (final os))) in *.
  apply (holds_behaves hash Hh sg tb' u u ((rrun [] os).2 ++ [])); [by apply (holds_step0 hash MAP tb _ (final os))| |done].
  apply (wf_nodup hash MAP tb'); apply St.
Qed.
End chain.
