(** [any_sync] of HashIndex. *)
From Coq Require Import NArith Lia.
From stdpp Require Import numbers prelude list.
From Verif Require CapModel.
From Verif Require Import BucketModel BucketSpec BucketFacts BucketOps BucketOps2 BucketOps3 BucketRunFacts MapSpec MapFacts
  TableModel TableSpec TableFacts TableReloc TableResize TableHouse TableAccess TableOps IterSpec TableIter
  IndexModel IndexRef IndexFacts IndexFacts2 IndexRun IndexThms AnModel AnSpec AnFacts.

Section facts.
Context {K V : Type} `{EqDecision K} {S : Type}.
Context (hash : K -> N).
Context (Hh : forall k, (hash k < 2 ^ 64)%N).
Implicit Types (tb : table K V) (m : list (K * V)) (e : env).
Implicit Types (pred : S -> K * V -> S * bool) (s : S).

Lemma iany_then_spec e tb pred s use : wf_table hash INDEX tb ->
  exists tb' vs new, iany_then e hash tb pred s use = Some (tb', (search pred s vs).1, (search pred s vs).2) /\
    vs ≡ₚ tents INDEX tb /\ ist hash tb tb' (iused use (search pred s vs).2 vs) new.
Proof.
  intros W. unfold iany_then. destruct (reclaim_spec hash Hh e tb W) as (tb0 & E0 & S0). rewrite E0, obind.
  destruct (any_sync_spec hash Hh INDEX (same_gen e) tb0 pred s (sm_wf _ _ _ _ S0)) as (tb1 & r & vs & E & P & S1' & R).
  pose proof (same_trans _ _ _ _ _ S0 S1') as S1. rewrite (sm_ents _ _ _ _ S0) in P. rewrite E, obind. cbn [fst snd].
  pose proof (sm_wf _ _ _ _ S1) as W1. assert (P1 : tents INDEX tb1 ≡ₚ vs) by (by rewrite (sm_ents _ _ _ _ S1)).
  pose proof (ist_same hash tb tb1 vs (Permutation_sym P) S1) as I1.
  destruct (search pred s vs) as [s' [[k v0]|]] eqn:Se; cbn [fst snd placed] in *.
  - destruct r as [[l p]|]; [|done]. destruct R as (b & Ow & Pt). destruct (owns_lock hash INDEX tb1 l b W1 Ow) as [L Wb]. rewrite L, obind.
    rewrite (points_to_get _ _ _ _ Pt), obind.
    assert (Hb : (k, v0) ∈ entries INDEX b) by (apply (points_to_in hash INDEX b p); [apply Wb|done]).
    pose proof (owns_lkey hash INDEX tb1 l b (k, v0) W1 Ow Hb) as Lk. cbn [fst] in Lk.
    destruct (occupied_spec hash Hh e tb1 l b k v0 p vs (use (k, v0)) W1 P1 Ow Lk Pt) as (tb2 & E2 & I2).
    rewrite E2, obind. eexists tb2, vs, _. rewrite Se. cbn [fst snd]. split; [done|]. split; [done|].
    unfold iused. cbn [fst]. unfold act_on, put, del in I2. eapply ist_trans0; [exact I1|exact I2].
  - destruct r; [done|]. exists tb1, vs, []. rewrite Se. done.
Qed.

Lemma iany_after cap (os : list (env * iop K V)) e : exists tb outs, run_index hash cap os = Some (tb, outs) /\
  forall pred s use, exists tb' s' found vs, iany_then e hash tb pred s use = Some (tb', s', found) /\
    NoDup vs.*1 /\ (forall k v, (k, v) ∈ vs <-> iafter hash cap os (e, IPeek k) = Some (JEntry (Some (k, v)))) /\
    search pred s vs = (s', found) /\ ibehaves_as hash tb' (iused use found vs).
Proof.
  destruct (run_index_spec hash Hh cap os) as (tb & outs & E & _ & W & P & _). exists tb, outs. split; [done|].
  intros pred s use. destruct (iany_then_spec e tb pred s use W) as (tb' & vs & new & E' & Pv & I). rewrite P in Pv.
  exists tb', (search pred s vs).1, (search pred s vs).2, vs. split; [done|].
  assert (ND : NoDup vs.*1) by (rewrite Pv; apply jfinal_nodup). split; [done|].
  split; [intros k v; rewrite (peekable hash Hh); by rewrite Pv|]. split; [by destruct (search pred s vs)|].
  set (u := iused use (search pred s vs).2 vs) in *.
  apply (wf_ibehaves hash Hh tb' u u); [apply I|apply I| |done].
  apply (wf_nodup hash INDEX tb'); apply I.
Qed.
End facts.

Lemma iany_plain {K V : Type} `{EqDecision K} (hash : K -> N) (Hh : forall k, (hash k < 2 ^ 64)%N) cap (os : list (env * iop K V)) e (p : K * V -> bool) use tb outs :
  run_index hash cap os = Some (tb, outs) -> exists tb' found, iany_then e hash tb (fun u x => (u, p x)) tt use = Some (tb', tt, found) /\
  match found with
  | Some x => iafter hash cap os (e, IPeek x.1) = Some (JEntry (Some x)) /\ p x = true
  | None => forall k v, iafter hash cap os (e, IPeek k) = Some (JEntry (Some (k, v))) -> p (k, v) = false
  end.
Proof.
  intros E. destruct (iany_after (S := unit) hash Hh cap os e) as (tb0 & outs0 & E0 & A). rewrite E in E0. injection E0 as <- <-.
  destruct (A (fun u x => (u, p x)) tt use) as (tb' & [] & found & vs & Q & _ & Vs & Se & _). exists tb', found. split; [done|].
  pose proof (search_plain p vs tt) as Sp. rewrite Se in Sp. cbn [snd] in Sp. destruct found as [[k v]|].
  - destruct Sp as [I Pe]. split; [by apply Vs|done].
  - intros k v R. apply Sp. by apply Vs.
Qed.
