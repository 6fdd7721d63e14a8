(** The operations of an [Entry] of a HashIndex act on its cell. *)
From Coq Require Import NArith Lia.
From stdpp Require Import numbers prelude list.
From Verif Require CapModel MapThms.
From Verif Require Import BucketModel BucketSpec BucketFacts BucketOps BucketOps2 BucketOps3 BucketRunFacts MapSpec MapFacts
  TableModel TableSpec TableFacts TableReloc TableResize TableHouse TableAccess TableOps IterSpec TableIter
  IndexModel IndexRef IndexFacts IndexFacts2 IndexRun IndexThms EnModel EnSpec EnxModel EnxSpec.

Section facts.
Context {K V : Type} `{EqDecision K}.
Context (hash : K -> N).
Context (Hh : forall k, (hash k < 2 ^ 64)%N).
Context (k : K) (rest : list (K * V)) (Hr : k ∉ rest.*1) (l : loc).
Implicit Types (tb : table K V) (b : bucket K V) (c : option V) (h : held).

Definition xcell c : list (K * V) := match c with Some v => (k, v) :: rest | None => rest end.
Definition at_xcell b h c : Prop :=
  match h, c with Occ p, Some v => points_to INDEX b p (k, v) | Vac, None => True | _, _ => False end.
Record xinv tb h c : Prop := XInv {
  x_wf : wf_table hash INDEX tb;
  x_ents : tents INDEX tb ≡ₚ xcell c;
  x_lkey : lkey hash tb l k;
  x_at : exists b, owns hash tb l b /\ at_xcell b h c }.

Lemma del_xcell c : del k (xcell c) = rest.
Proof. destruct c; cbn [xcell]; [rewrite del_cons_eq|]; by apply del_notin. Qed.
Lemma get_xinv tb p v : xinv tb (Occ p) (Some v) -> exists b, lock tb l = Some b /\ get b p = Some (k, v).
Proof.
  intros [W _ _ (b & Ow & Pt)]. destruct (owns_lock hash INDEX tb l b W Ow) as [L _]. exists b.
  split; [done|]. by apply (points_to_get INDEX).
Qed.
(** Putting a bucket back that has the new value of the cell at [q]. *)
Lemma back tb R RS b' q d tb1 v : put_back hash INDEX tb l R RS b' tb1 -> lkey hash tb l k ->
  points_to INDEX b' q (k, v) -> entries INDEX b' ++ R ≡ₚ (k, v) :: rest -> xinv (release tb1 d) (Occ q) (Some v).
Proof.
  intros PB Lk Pt E. split.
  - apply wf_release, PB.
  - change (tents INDEX (release tb1 d)) with (tents INDEX tb1). by rewrite (pb_ents _ _ _ _ _ _ _ _ PB).
  - apply (pb_lkey _ _ _ _ _ _ _ _ PB) in Lk. exact Lk.
  - exists b'. split; [|done]. exact (pb_owns _ _ _ _ _ _ _ _ PB).
Qed.
Lemma xchange_spec e tb p v0 v : xinv tb (Occ p) (Some v0) ->
  exists tb' q, xchange e tb l p v = Some (tb', Occ q, v) /\ xinv tb' (Occ q) (Some v).
Proof.
  intros [W P Lk (b & Ow & Pt)]. unfold xchange. destruct (owns_lock hash INDEX tb l b W Ow) as [L Wb]. rewrite L, obind.
  destruct (owns_assoc hash INDEX tb l b k _ W Ow Lk P) as (R & RS & Pm & NR & ND & A & TS & PB).
  destruct (update_index_spec hash (same_gen e) b p (k, v0) v (epoch e) Wb Pt) as (b' & q & d & rs & E' & W' & E1 & E2 & Pt' & _ & _).
  cbn [fst snd] in *. rewrite E', obind. cbn [fst snd].
  assert (Nk : NoDup (k :: rs.*1)) by (by rewrite E1 in ND).
  destruct (PB b' W') as (tb1 & PBk).
  { intros z He. rewrite E2 in He. apply elem_of_cons in He as [->|He]; [by left|]. right. rewrite E1.
    apply elem_of_list_fmap. exists z. split; [done|by right]. }
  { by rewrite E2. }
  rewrite (pb_set _ _ _ _ _ _ _ _ PBk), obind.
  assert (I : xinv (release tb1 d) (Occ q) (Some v)).
  { eapply back; [exact PBk|done|done|]. rewrite E2. cbn [app]. constructor.
    cbn [xcell] in Pm. rewrite E1 in Pm. by apply Permutation_cons_inv in Pm. }
  destruct (get_xinv _ _ _ I) as (b2 & L2 & G2). rewrite L2, obind, G2, obind. eauto.
Qed.
Lemma xfill_spec e tb v : xinv tb Vac None -> exists tb' q, xfill e hash tb l k v = Some (tb', Occ q, v) /\ xinv tb' (Occ q) (Some v).
Proof.
  intros [W P Lk (b & Ow & _)]. unfold xfill. destruct (owns_lock hash INDEX tb l b W Ow) as [L Wb]. rewrite L, obind.
  destruct (owns_assoc hash INDEX tb l b k _ W Ow Lk P) as (R & RS & Pm & NR & ND & A & TS & PB).
  destruct (insert_spec hash INDEX (same_gen e) b (hash k) (k, v) Wb eq_refl) as (b' & q & d & E' & W' & E1 & Pt & _).
  cbn [xcell] in Pm. assert (N : k ∉ (entries INDEX b).*1). { intros Hk. apply Hr. rewrite Pm, fmap_app. apply elem_of_app. tauto. }
  rewrite E', obind. cbn [fst snd]. destruct (PB b' W') as (tb2 & PBk).
  { intros z He. rewrite E1 in He. apply elem_of_cons in He as [->|He]; [by left|]. right. apply elem_of_list_fmap. eauto. }
  { rewrite E1. cbn. by apply NoDup_cons. }
  rewrite (pb_set _ _ _ _ _ _ _ _ PBk), obind.
  assert (I : xinv (release tb2 d) (Occ q) (Some v)).
  { eapply back; [exact PBk|done|done|]. rewrite E1. cbn [app]. constructor. by symmetry. }
  destruct (get_xinv _ _ _ I) as (b2 & L2 & G2). rewrite L2, obind, G2, obind. eauto.
Qed.
Lemma xstep_spec e tb h c o : xinv tb h c ->
  exists tb' h', xstep e hash k tb l h o = Some (tb', h', (ecell k c (on_cell o)).2) /\ xinv tb' h' (ecell k c (on_cell o)).1.
Proof.
  intros I. destruct h as [p|]; destruct c as [v|]; try (by destruct I as [_ _ _ (? & _ & [])]).
  - destruct o as [g|v'|]; cbn [xstep on_cell ecell fst snd option_map].
    + destruct (get_xinv tb p v I) as (b & L & G). rewrite L, obind, G, obind. eauto.
    + destruct (xchange_spec e tb p v v' I) as (tb' & q & E & I'). rewrite E, obind. eauto.
    + destruct (get_xinv tb p v I) as (b & L & G). rewrite L, obind, G, obind. eauto.
  - destruct o as [g|v'|]; cbn [xstep on_cell ecell fst snd option_map]; [| |by eauto].
    + destruct (xfill_spec e tb (g k) I) as (tb' & p & E & I'). rewrite E, obind. eauto.
    + destruct (xfill_spec e tb v' I) as (tb' & p & E & I'). rewrite E, obind. eauto.
Qed.
Lemma xsteps_spec (os : list (env * xop K V)) : forall tb h c, xinv tb h c -> let es := map (fun o => on_cell o.2) os in
  exists tb' h', xsteps hash k tb l h os = Some (tb', h', (ecells k c es).2) /\ xinv tb' h' (ecells k c es).1.
Proof.
  induction os as [|[e o] os IH]; intros tb h c I; cbn [xsteps map ecells fst snd]; [by eauto|].
  destruct (xstep_spec e tb h c o I) as (tb1 & h1 & E & I1). rewrite E, obind. cbn [fst snd].
  destruct (IH tb1 h1 _ I1) as (tb2 & h2 & E2 & I2). rewrite E2, obind. eauto.
Qed.
End facts.

Section chain.
Context {K V : Type} `{EqDecision K}.
Context (hash : K -> N).
Context (Hh : forall k, (hash k < 2 ^ 64)%N).

Lemma xchain_spec e (tb : table K V) k (os : list (env * xop K V)) e' fin m : wf_table hash INDEX tb -> tents INDEX tb ≡ₚ m ->
  let c := assoc k m in let es := map (fun o => on_cell o.2) os in
  exists tb', xchain e hash tb k os e' fin = Some (tb', (ecells k c es).2) /\
    wf_table hash INDEX tb' /\ tents INDEX tb' ≡ₚ left k (ecells k c es).1 fin (del k m).
Proof.
  intros W P c es. unfold xchain. assert (ND0 : NoDup m.*1) by (by apply (wf_nodup hash INDEX tb)).
  destruct (writer_spec hash Hh INDEX (same_gen e) tb k W) as (tb1 & l & b & E & S & Lk & Ow). rewrite E, obind. cbn [fst snd].
  pose proof (sm_wf _ _ _ _ S) as W1. destruct (owns_lock hash INDEX tb1 l b W1 Ow) as [L Wb]. rewrite L, obind.
  assert (P1 : tents INDEX tb1 ≡ₚ m) by (by rewrite (sm_ents _ _ _ _ S)).
  destruct (owns_assoc hash INDEX tb1 l b k m W1 Ow Lk P1) as (R & RS & Pm & NR & ND & A & _ & PB).
  assert (Hk : k ∉ (del k m).*1) by apply del_keys.
  assert (I : exists p, get_entry_ptr INDEX b k (hash k) = Some p /\ xinv hash k (del k m) l tb1 (if is_valid p then Occ p else Vac) c).
  { destruct (lookup_ptr hash INDEX b k Wb) as (p & Ep & [[V1 (v0 & Pt)]|[V1 N]]); exists p; rewrite V1; (split; [done|]).
    - destruct (points_assoc hash INDEX b k v0 p Wb ND Pt) as [A' _]. assert (Hc : c = Some v0) by (unfold c; congruence). rewrite Hc.
      split; [done| |done|by exists b]. rewrite P1. apply MapThms.del_account; [done|congruence].
    - assert (Hc : c = None). { unfold c. rewrite A. by apply assoc_None. } rewrite Hc.
      split; [done| |done|by exists b]. cbn [xcell]. rewrite P1, del_notin; [done|]. by apply assoc_None. }
  destruct I as (p & Ep & I). rewrite Ep, obind.
  destruct (xsteps_spec hash k (del k m) Hk l os tb1 _ c I) as (tb2 & h2 & E2 & I2). rewrite E2, obind. cbn [fst snd]. fold es in I2 |- *.
  destruct I2 as [W2 P2 Lk2 (b2 & Ow2 & At)]. destruct (ecells k c es) as [c2 us]. cbn [fst snd] in *.
  destruct fin; [exists tb2; split; [by destruct h2|]; split; [done|exact P2]|].
  destruct h2 as [p2|]; destruct c2 as [v2|]; try done; cbn [left].
  - destruct (locked_mark_removed_spec hash Hh e' tb2 l b2 k v2 p2 _ W2 P2 Ow2 Lk2 At) as (tb3 & E3 & I3).
    rewrite E3, obind. exists tb3. split; [done|]. split; [apply I3|].
    rewrite (is_ents _ _ _ _ _ I3). by rewrite (del_xcell k (del k m) Hk (Some v2)).
  - exists tb2. done.
Qed.

Lemma xchain_after cap (os : list (env * iop K V)) e k (xs : list (env * xop K V)) e' fin : exists tb outs, run_index hash cap os = Some (tb, outs) /\
  exists tb' us c rest, xchain e hash tb k xs e' fin = Some (tb', us) /\
    iafter hash cap os (e, IPeek k) = Some (JEntry (option_map (pair k) c)) /\
    NoDup rest.*1 /\
    (forall k' v, (k', v) ∈ rest <-> k' <> k /\ iafter hash cap os (e, IPeek k') = Some (JEntry (Some (k', v)))) /\
    us = (ecells k c (map (fun o => on_cell o.2) xs)).2 /\
    ibehaves_as hash tb' (left k (ecells k c (map (fun o => on_cell o.2) xs)).1 fin rest).
Proof.
  destruct (run_index_spec hash Hh cap os) as (tb & outs & E & _ & W & P & _). exists tb, outs. split; [done|].
  destruct (xchain_spec e tb k xs e' fin (jfinal os) W P) as (tb' & E' & W' & P'). set (c := assoc k (jfinal os)) in *.
  eexists tb', _, c, (del k (jfinal os)). split; [exact E'|].
  split; [apply (iafter_peek hash Hh)|].
  split; [apply del_NoDup, jfinal_nodup|].
  split. { intros k' v. rewrite (peekable hash Hh). unfold del. rewrite elem_of_list_filter. done. }
  split; [done|]. eapply (wf_ibehaves hash Hh tb'); [done|exact P'| |done].
  apply (wf_nodup hash INDEX tb'); done.
Qed.
End chain.
