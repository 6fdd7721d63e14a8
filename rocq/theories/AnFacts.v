(** [any_sync] searches all the entries in some order. *)
From Coq Require Import NArith Lia.
From stdpp Require Import numbers prelude list.
From Verif Require CapModel.
From Verif Require Import BucketModel BucketSpec BucketFacts BucketOps BucketOps2 BucketOps3 BucketRunFacts MapSpec MapFacts
  TableModel TableSpec TableFacts TableReloc TableResize TableHouse TableAccess TableOps IterSpec TableIter
  MapModel MapRef MapFacts2 MapRunFacts MapWhole MapThms AnModel AnSpec.

Section facts.
Context {K V : Type} `{EqDecision K} {S : Type}.
Context (hash : K -> N).
Context (Hh : forall k, (hash k < 2 ^ 64)%N).
Implicit Types (c : barray K V) (tb : table K V) (b : bucket K V) (m : list (K * V)).
Implicit Types (pred : S -> K * V -> S * bool) (s : S).

Lemma search_app pred l1 l2 : forall s, search pred s (l1 ++ l2) =
  match (search pred s l1).2 with Some e => ((search pred s l1).1, Some e) | None => search pred (search pred s l1).1 l2 end.
Proof. induction l1 as [|e l1 IH]; intros s; [done|]. cbn. destruct (pred s e).2; [done|apply IH]. Qed.
Lemma find_loop_spec t pred n : forall s b p, wf_core hash t b -> wf_ptr b p -> length (BucketSpec.after (live_at t) b p) < n ->
  exists r, find_loop t n pred s b p = Some ((search pred s (BucketSpec.after (live_at t) b p)).1, r) /\
    match (search pred s (BucketSpec.after (live_at t) b p)).2, r with
    | Some e, Some q => points_to t b q e
    | None, None => True
    | _, _ => False
    end.
Proof.
  induction n as [|n IH]; intros s b p W Wp L; [lia|]. cbn [find_loop].
  pose proof (move_to_next_spec hash t b p W Wp) as M. destruct (move_to_next t b p) as [p' []].
  - destruct M as (e & Pt & E). rewrite E in L |- *. cbn [length] in L. cbn [search].
    rewrite (points_to_get _ _ _ _ Pt), obind. destruct (pred s e).2; [by exists (Some p')|].
    apply IH; [done| |lia]. exact (points_to_wf_ptr hash t b p' e W Pt).
  - destruct M as [E _]. rewrite E. by exists None.
Qed.
(** Where the entry is. *)
Definition placed (t : kind) tb (r : option (loc * eptr)) (found : option (K * V)) : Prop :=
  match found, r with
  | Some e, Some (l, p) => exists b, owns hash tb l b /\ points_to t b p e
  | None, None => True
  | _, _ => False
  end.
Lemma any_seek_spec t sg pred n : forall i tb c s, wf_table hash t tb -> cur tb = Some c -> (i + N.of_nat n = alen c)%N -> pending hash t tb c i ->
  exists tb' r vs, any_seek t sg hash tb (TableModel.range i (i + N.of_nat n)) pred s = Some (tb', (search pred s vs).1, r) /\
    low t c i ++ vs ≡ₚ tents t tb /\ same hash t tb tb' /\ placed t tb' r (search pred s vs).2.
Proof.
  induction n as [|n IH]; intros i tb c s W C Hn Pd.
  - replace (TableModel.range i (i + N.of_nat 0)) with (@nil N).
    2:{ unfold TableModel.range. by replace (N.to_nat (i + N.of_nat 0 - i)) with 0 by lia. }
    exists tb, None, []. split; [done|]. rewrite app_nil_r. split; [|split; [by apply same_refl|done]].
    assert (i = alen c) as -> by lia. destruct (wf_tab_cur _ _ _ _ W C) as (Wc & _).
    rewrite (tents_low t tb c (alen c) C), (high_len hash t c Wc), (pending_end hash Hh t tb c W C Pd). by rewrite app_nil_r.
  - rewrite range_cons. cbn [any_seek].
    destruct (prepare_low hash Hh t sg tb c i W C) as (tb1 & c1 & x & E1 & S1 & C1 & Z1 & L1 & P1 & X & Ow); [lia|done|].
    rewrite E1, obind. pose proof (sm_wf _ _ _ _ S1) as W1.
    destruct (owns_lock hash t tb1 _ _ W1 Ow) as [Lk Wb]. rewrite Lk, obind.
    destruct (find_loop_spec t pred (Datatypes.S (blen (bkt x))) s (bkt x) null_ptr) as (r & Ef & Rf);
      [apply Wb|apply wf_null|rewrite after_null, (wf_len _ _ _ Wb); lia|].
    rewrite after_null in Ef, Rf. rewrite Ef, obind. cbn [fst snd].
    destruct ((search pred s (entries t (bkt x))).2) as [e|] eqn:G; destruct r as [q|]; try done.
    + exists tb1, (Some ((Cur, i), q)), (entries t (bkt x) ++ oents t (old tb1) ++ high t c1 (i + 1)).
      rewrite search_app, G. split; [done|]. split; [|split; [done|]].
      * rewrite <- (sm_ents _ _ _ _ S1), (tents_low t tb1 c1 i C1), L1. apply Permutation_app_head.
        rewrite (high_S t c1 i x X). symmetry. apply perm3.
      * cbn [placed snd]. by exists (bkt x).
    + destruct (IH (i + 1)%N tb1 c1 (search pred s (entries t (bkt x))).1 W1 C1) as (tb2 & r & vs & E2 & P2 & S2 & R2).
      { unfold alen. rewrite Z1. unfold alen in Hn. lia. } { done. }
      rewrite E2. exists tb2, r, (entries t (bkt x) ++ vs). rewrite search_app, G. split; [done|]. split; [|split].
      * rewrite <- (sm_ents _ _ _ _ S1), <- P2, (low_S t c1 i x X), L1. by rewrite app_assoc.
      * by eapply same_trans.
      * done.
Qed.
Lemma any_sync_spec t sg tb pred s : wf_table hash t tb ->
  exists tb' r vs, any_sync t sg hash tb pred s = Some (tb', (search pred s vs).1, r) /\
    vs ≡ₚ tents t tb /\ same hash t tb tb' /\ placed t tb' r (search pred s vs).2.
Proof.
  intros W. unfold any_sync. destruct (cur tb) as [c|] eqn:C.
  - destruct (any_seek_spec t sg pred (N.to_nat (alen c)) 0 tb c s W C) as (tb' & r & vs & E & P & S' & R); [lia|apply pending_0|].
    replace (0 + N.of_nat (N.to_nat (alen c)))%N with (alen c) in E by lia. rewrite low_0 in P. by exists tb', r, vs.
  - exists tb, None, []. split; [done|]. split; [by rewrite (wf_none_tents hash t tb W C)|]. split; [by apply same_refl|done].
Qed.
Lemma any_then_spec sg tb pred s use : wf_table hash MAP tb ->
  exists tb' vs, any_then sg hash tb pred s use = Some (tb', (search pred s vs).1, (search pred s vs).2) /\
    vs ≡ₚ tents MAP tb /\ step hash MAP tb tb' (used use (search pred s vs).2 vs) [].
Proof.
  intros W. assert (Ht : MAP <> INDEX) by done. unfold any_then.
  destruct (any_sync_spec MAP sg tb pred s W) as (tb1 & r & vs & E & P & S1 & R). rewrite E, obind. cbn [fst snd].
  pose proof (sm_wf _ _ _ _ S1) as W1. assert (P1 : tents MAP tb1 ≡ₚ vs) by (by rewrite (sm_ents _ _ _ _ S1)).
  destruct (search pred s vs) as [s' [[k v0]|]] eqn:Se; cbn [fst snd placed] in *.
  - destruct r as [[l p]|]; [|done]. destruct R as (b & Ow & Pt). destruct (owns_lock hash MAP tb1 l b W1 Ow) as [L Wb]. rewrite L, obind.
    rewrite (points_to_get _ _ _ _ Pt), obind.
    assert (Hb : (k, v0) ∈ entries MAP b) by (apply (points_to_in hash MAP b p); [apply Wb|done]).
    pose proof (owns_lkey hash MAP tb1 l b (k, v0) W1 Ow Hb) as Lk. cbn [fst] in Lk. unfold used. cbn [fst].
    destruct (use (k, v0)) as [v|] eqn:U.
    + destruct (owns_assoc hash MAP tb1 l b k vs W1 Ow Lk P1) as (R & RS & Pm & NR & ND & A & _ & PB).
      destruct (replace_step hash MAP tb tb1 l b k v0 v p vs R RS Ht S1 Wb ND Pt Pm NR PB) as (b' & tb' & E1 & E2 & St & _).
      rewrite E1, obind. cbn [fst snd]. rewrite E2, obind. exists tb', vs. rewrite Se. cbn [fst snd]. rewrite U. split; [done|]. split; [done|]. exact St.
    + destruct (locked_remove_spec hash Hh MAP tb1 l b k v0 p vs Ht W1 P1 Ow Lk Pt) as (tb2 & E3 & S3).
      rewrite E3, obind. cbn [fst snd]. exists tb2, vs. rewrite Se. cbn [fst snd]. rewrite U. split; [done|]. split; [done|].
      change (@nil (K * V)) with (@nil (K * V) ++ []). eapply step_trans; [apply (step_same hash MAP tb tb1 vs); [done|by symmetry|done]|exact S3].
  - destruct r; [done|]. exists tb1, vs. rewrite Se. split; [done|]. split; [done|]. apply step_same; [done|by symmetry|done].
Qed.

Lemma any_after sg cap (os : list (mop K V)) : exists tb outs, run_map sg hash cap os = Some (tb, outs) /\
  forall pred s use, exists tb' s' found vs, any_then sg hash tb pred s use = Some (tb', s', found) /\
    NoDup vs.*1 /\ (forall k v, (k, v) ∈ vs <-> after sg hash cap os (MRead k) = Some (OEntry (Some (k, v)))) /\
    search pred s vs = (s', found) /\ behaves_as sg hash tb' (used use found vs).
Proof.
  destruct (run_map_spec hash Hh sg cap os) as (tb & outs & E & _ & H). exists tb, outs. split; [done|].
  intros pred s use. pose proof (hd_ents _ _ _ _ _ H) as P. fold (final os) in P.
  destruct (any_then_spec sg tb pred s use (hd_wf _ _ _ _ _ H)) as (tb' & vs & E' & Pv & St). rewrite P in Pv.
  exists tb', (search pred s vs).1, (search pred s vs).2, vs. split; [done|].
  assert (ND : NoDup vs.*1) by (rewrite Pv; apply final_nodup). split; [done|].
  split; [intros k v; rewrite (readable hash Hh); by rewrite Pv|]. split; [by destruct (search pred s vs)|].
  set (u := used use (search pred s vs).2 vs) in *.
  apply (holds_behaves hash Hh sg tb' u u ((rrun [] os).2 ++ [])); [by apply (holds_step0 hash MAP tb _ (final os))| |done].
  apply (wf_nodup hash MAP tb'); apply St.
Qed.
(** A predicate without a state. *)
Lemma search_plain (p : K * V -> bool) l : forall u : unit, match (search (fun u e => (u, p e)) u l).2 with
  | Some e => e ∈ l /\ p e = true
  | None => forall e, e ∈ l -> p e = false
  end.
Proof.
  induction l as [|e l IH]; intros u; cbn; [intros e H; by apply elem_of_nil in H|]. destruct (p e) eqn:Pe; [split; [left|done]|].
  specialize (IH u). destruct (search _ _ _).2 as [x|]; [split; [right|]; apply IH|].
  intros x Hx. apply elem_of_cons in Hx as [->|Hx]; [done|by apply IH].
Qed.
End facts.

Lemma any_plain {K V : Type} `{EqDecision K} (hash : K -> N) (Hh : forall k, (hash k < 2 ^ 64)%N) sg cap (os : list (mop K V)) (p : K * V -> bool) use tb outs :
  run_map sg hash cap os = Some (tb, outs) -> exists tb' found, any_then sg hash tb (fun u e => (u, p e)) tt use = Some (tb', tt, found) /\
  match found with
  | Some e => after sg hash cap os (MRead e.1) = Some (OEntry (Some e)) /\ p e = true
  | None => forall k v, after sg hash cap os (MRead k) = Some (OEntry (Some (k, v))) -> p (k, v) = false
  end.
Proof.
  intros E. destruct (any_after (S := unit) hash Hh sg cap os) as (tb0 & outs0 & E0 & A). rewrite E in E0. injection E0 as <- <-.
  destruct (A (fun u e => (u, p e)) tt use) as (tb' & [] & found & vs & Q & _ & Vs & Se & _). exists tb', found. split; [done|].
  pose proof (search_plain p vs tt) as Sp. rewrite Se in Sp. cbn [snd] in Sp. destruct found as [[k v]|].
  - destruct Sp as [I Pe]. split; [by apply Vs|done].
  - intros k v R. apply Sp. by apply Vs.
Qed.
