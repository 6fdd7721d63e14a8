(** Removal of an entry from a tree. *)
From stdpp Require Import prelude list sorting.
From Verif Require Import LeafModel LeafSpec LeafFacts OrdFacts LeafOps LeafSeq TreeLeaf TreeModel TreeHeap TreeLink TreeSplit TreeShape TreeIns.
Opaque scan fill.

Section facts.
Context {K V : Type} (cmp : K -> K -> comparison) (T : total_order cmp).
Implicit Types (h : heap K V) (l : leaf K V) (L A B : list (option K * nat)) (i : nat) (s u : option K).
Notation good := (good cmp). Notation core := (core cmp). Notation leaf_ok := (leaf_ok cmp). Notation prior := (prior cmp).
Notation below := (below cmp). Notation kle := (kle cmp). Notation klt := (klt cmp). Notation kwf := (kwf cmp).
Notation linked := (linked cmp). Notation nwf := (nwf cmp).

(** ** Dropping a child *)
Lemma kid_drop {C} (c : leaf K C) es1 e es2 : good c -> frozen (md c) = false -> scan c = es1 ++ e :: es2 ->
  let c' := (remove_if cmp c e.1 (fun _ => true)).1 in
  good c' /\ frozen (md c') = false /\ scan c' = es1 ++ es2.
Proof.
  intros G F Sc c'. destruct (remove_if_spec cmp T c e.1 (fun _ => true) G) as (G' & F' & Sp). fold c' in G', F', Sp.
  pose proof (scan_asc cmp _ G) as Asc. rewrite Sc in Asc. apply asc_app in Asc as (_ & A2 & A3). apply asc_cons in A2 as [_ A2].
  assert (scan c' = odel cmp (scan c) e.1 -> scan c' = es1 ++ es2) as Go.
  { intros ->. rewrite Sc. change (es1 ++ e :: es2) with (es1 ++ [e] ++ es2). rewrite (odel_mid cmp T).
    - unfold odel. cbn. by rewrite (cmp_refl cmp T).
    - intros x Hx. apply A3; [done|by left].
    - done. }
  split; [done|]. split; [by rewrite F'|]. destruct ((remove_if cmp c e.1 (fun _ => true)).2).
  - apply Go. apply Sp.
  - apply Go. apply Sp.
  - exfalso. destruct Sp as (_ & _ & Sp).
    assert (oget cmp (scan c) e.1 = Some e.2) as Eg.
    { rewrite Sc. change (es1 ++ e :: es2) with (es1 ++ [e] ++ es2). rewrite (oget_mid cmp T).
      - unfold oget. cbn. by rewrite (cmp_refl cmp T).
      - intros x Hx. apply A3; [done|by left].
      - done. }
    by apply Sp in Eg.
  - exfalso. destruct Sp as [Sp _]. congruence.
Qed.

(** ** Dropping a leaf that is empty *)
Lemma delete_self_agree h i j : i <> j -> agree h (delete_self h i) j.
Proof.
  intros N. split; [unfold leaf_at; by rewrite delete_self_ne|]. intros c H. exists c. by rewrite delete_self_ne.
Qed.
Lemma delete_self_leaf h i j : leaf_at (delete_self h i) j = leaf_at h j.
Proof.
  destruct (decide (i = j)) as [->|N]; [|unfold leaf_at; by rewrite delete_self_ne].
  destruct (h !! j) as [c|] eqn:E; [|unfold delete_self; by rewrite E].
  by rewrite (leaf_at_lookup _ _ _ E), (leaf_at_lookup _ _ _ (delete_self_lookup _ _ _ E)).
Qed.
Lemma linked_delete h A s i B : linked h (A ++ (s, i) :: B) -> ents h i = [] ->
  linked (delete_self h i) (A ++ B) /\ fents (delete_self h i) (A ++ B) = fents h (A ++ (s, i) :: B).
Proof.
  intros [C Sg] En. assert (forall p, p ∈ A ++ B -> agree h (delete_self h i) p.2) as Ag.
  { intros p Hp. apply delete_self_agree. by eapply core_others. }
  split; [split|].
  - apply (agree_core cmp h); [done|]. by apply (core_drop cmp h A [(s, i)] B).
  - rewrite fmap_app. rewrite fmap_app, fmap_cons in Sg. apply seg_delete; [|done|done|done].
    pose proof (cr_nodup _ _ _ C) as N. by rewrite fmap_app, fmap_cons in N.
  - rewrite (agree_fents h _ _ Ag), !fents_app, fents_cons, En. done.
Qed.

Lemma ln_loop_ok A R es : forall h (c : leaf K nat) kept prev unc,
  good c -> frozen (md c) = false -> scan c = kept ++ es -> (prev = true <-> kept <> []) ->
  linked h (A ++ map lab kept ++ map lab es ++ R) ->
  let '(h', c', prev', _) := ln_coalesce_loop cmp es h c prev unc in
  let es' := List.filter (fun e : K * nat => negb (retired (md (leaf_at h e.2)))) es in
  good c' /\ frozen (md c') = false /\ scan c' = kept ++ es' /\ (prev' = true <-> kept ++ es' <> []) /\
  linked h' (A ++ map lab (kept ++ es') ++ R) /\
  fents h' (A ++ map lab (kept ++ es') ++ R) = fents h (A ++ map lab kept ++ map lab es ++ R) /\
  (forall i, leaf_at h' i = leaf_at h i) /\ (forall p, p ∈ A ++ R -> agree h h' p.2).
Proof.
  induction es as [|e es IH]; intros h c kept prev unc G F Sc Hp Lk.
  - cbn [ln_coalesce_loop List.filter]. rewrite app_nil_r in *. cbn [map app] in *. do 7 (split; [done|]). intros p _. apply agree_refl.
  - cbn [ln_coalesce_loop List.filter]. destruct (retired (md (leaf_at h e.2))) eqn:Rt; cbn [negb].
    + destruct (kid_drop c kept e es G F Sc) as (G1 & F1 & S1).
      assert (A ++ map lab kept ++ map lab (e :: es) ++ R = (A ++ map lab kept) ++ (Some e.1, e.2) :: map lab es ++ R) as El.
      { cbn [map]. unfold lab at 2. by rewrite <-app_assoc. }
      rewrite El in *.
      assert (ents h e.2 = []) as En.
      { pose proof (core_at _ _ _ _ _ (proj1 Lk)) as O. apply (retired_scan cmp); [by apply (ok_good _ _ _ O)|done]. }
      destruct (linked_delete h _ _ _ _ Lk En) as [Lk1 F2]. rewrite <-app_assoc in Lk1, F2.
      pose proof (IH (delete_self h e.2) _ kept prev (unc || negb prev) G1 F1 S1 Hp Lk1) as IH1.
      destruct (ln_coalesce_loop cmp es (delete_self h e.2) _ prev (unc || negb prev)) as [[[h' c'] prev'] unc'].
      cbn zeta in *. destruct IH1 as (H1 & H2 & H3 & H4 & H5 & H6 & H7 & H8).
      assert (List.filter (fun e0 : K * nat => negb (retired (md (leaf_at (delete_self h e.2) e0.2)))) es =
        List.filter (fun e0 : K * nat => negb (retired (md (leaf_at h e0.2)))) es) as Ee.
      { apply List.filter_ext. intros a. by rewrite delete_self_leaf. }
      rewrite Ee in *. split; [done|]. split; [done|]. split; [done|]. split; [done|]. split; [done|].
      split; [by rewrite H6|]. split; [intros i; by rewrite H7, delete_self_leaf|].
      intros p Hq. apply agree_trans with (h2 := delete_self h e.2); [|by apply H8]. apply delete_self_agree.
      eapply core_others; [exact (proj1 Lk)|]. apply elem_of_app in Hq as [Hq|Hq]; apply elem_of_app.
      * left. apply elem_of_app. by left.
      * right. apply elem_of_app. by right.
    + assert (map lab (kept ++ [e]) ++ map lab es ++ R = map lab kept ++ map lab (e :: es) ++ R) as El.
      { rewrite map_app, <-app_assoc. done. }
      pose proof (IH h c (kept ++ [e]) true unc G F) as IH1. rewrite El in IH1.
      destruct (ln_coalesce_loop cmp es h c true unc) as [[[h' c'] prev'] unc']. cbn zeta in *. rewrite <-!app_assoc in IH1.
      cbn [app] in IH1. apply IH1; [done| |done]. split; [|done]. intros _. by destruct kept.
Qed.

(** What the removal of [k] means for the entries. *)
Definition taken (cond : V -> bool) (es : list (K * V)) k : Prop := exists v, oget cmp es k = Some v /\ cond v = true.
Definition rem_ok (d : nat) u A B h (n : tree K d) (k : K) (cond : V -> bool) (z : heap K V * tree K d * rem_out) : Prop :=
  let L := A ++ flat d u n ++ B in
  let '(h', n', r) := z in
  let L' := A ++ flat d u n' ++ B in
  (forall p, p ∈ A ++ B -> agree h h' p.2) /\
  match r with
  | OSuccess | OCleanup => kwf (S d) n' /\ linked h' L' /\ taken cond (fents h L) k /\ fents h' L' = odel cmp (fents h L) k
  | ORetired => ub n' = Gone /\ scan (ch n') = [] /\ linked h' (A ++ B) /\ taken cond (fents h L) k /\
      fents h' (A ++ B) = odel cmp (fents h L) k
  | OFail => kwf (S d) n' /\ linked h' L' /\ (forall v, oget cmp (fents h L) k = Some v -> cond v = false) /\ fents h' L' = fents h L
  | OErr => False
  end.

Lemma filter_none {X} (f : X -> bool) (l : list X) : existsb (fun x => negb (f x)) (List.filter f l) = false.
Proof. induction l as [|x l IH]; cbn; [done|]. destruct (f x) eqn:E; cbn; [by rewrite E|done]. Qed.

Lemma ln_coalesce_ok u A B h (n : inode K nat) f : kwf 1 n -> linked h (A ++ flat 0 u n ++ B) ->
  let '(h', n', r) := ln_coalesce cmp (S f) h n false in
  let L' := A ++ flat 0 u n' ++ B in
  (forall p, p ∈ A ++ B -> agree h h' p.2) /\
  match r with
  | OSuccess | OCleanup => kwf 1 n' /\ linked h' L' /\ fents h' L' = fents h (A ++ flat 0 u n ++ B)
  | ORetired => ub n' = Gone /\ scan (ch n') = [] /\ linked h' (A ++ B) /\ fents h' (A ++ B) = fents h (A ++ flat 0 u n ++ B)
  | _ => False
  end.
Proof.
  intros W Lk. pose proof W as [G F (ul & Eu & _) _]. change (@ub K nat n = To ul) in Eu.
  assert (forall c : leaf K nat, flat 0 u (INode c (To ul) : tree K 0) = map lab (scan c) ++ [(u, ul)]) as Ef.
  { intros c. rewrite flat0. done. }
  assert (flat 0 u n = map lab (scan (ch n)) ++ [(u, ul)]) as En.
  { rewrite flat0. unfold ukids, ub_kid. change (kid K 0) with nat. by rewrite Eu. }
  rewrite En in *. cbn [ln_coalesce].
  pose proof (ln_loop_ok A ([(u, ul)] ++ B) (scan (ch n)) h (ch n) [] false false G F eq_refl) as Lp.
  cbn [map app] in Lp. rewrite <-app_assoc in Lk.
  assert (false = true <-> (@nil (K * nat)) <> []) as Hp by (by split).
  specialize (Lp Hp Lk).
  destruct (ln_coalesce_loop cmp (scan (ch n)) h (ch n) false false) as [[[h1 c] prev] unc].
  cbn zeta in Lp. set (es' := List.filter _ _) in *. destruct Lp as (G1 & F1 & S1 & P1 & L1 & E1 & Lf & Ag).
  assert (forall p, p ∈ A ++ B -> agree h h1 p.2) as Ag'.
  { intros p Hq. apply Ag. apply elem_of_app in Hq as [Hq|Hq]; apply elem_of_app; [by left|right; by right]. }
  assert (existsb (fun e : K * nat => retired (md (leaf_at h1 e.2))) es' = false) as Ex.
  { rewrite <-(filter_none (fun e : K * nat => negb (retired (md (leaf_at h e.2)))) (scan (ch n))). fold es'.
    clear -Lf. clearbody es'. induction es' as [|e l IH]; cbn; [done|]. by rewrite IH, negb_involutive, Lf. }
  destruct prev.
  - assert (es' <> []) as Ne by (by apply P1). rewrite Eu. cbv beta iota zeta.
    assert (ln_has_retired h1 (INode c (To ul)) = false) as ->.
    { unfold ln_has_retired. cbn [ch ub]. rewrite S1. cbn [app]. rewrite Ex. by destruct es'. }
    assert (kwf 1 (INode c (To ul) : tree K 0) /\ linked h1 (A ++ flat 0 u (INode c (To ul) : tree K 0) ++ B) /\
      fents h1 (A ++ flat 0 u (INode c (To ul) : tree K 0) ++ B) = fents h (A ++ (map lab (scan (ch n)) ++ [(u, ul)]) ++ B)) as Go.
    { split; [split; try done; by exists ul|]. rewrite Ef, S1, <-!app_assoc. done. }
    split; [done|]. by destruct unc.
  - assert (es' = []) as Ne.
    { destruct es' as [|x l]; [done|]. exfalso. assert (false = true) as X by (by apply P1). done. }
    rewrite Ne in *. rewrite Eu. cbv beta iota zeta. cbn [app map] in *.
    destruct (retired (md (leaf_at h1 ul))) eqn:Rt; cbv beta iota zeta.
    + assert (ents h1 ul = []) as Ee.
      { pose proof (core_at _ _ _ _ _ (proj1 L1)) as O. apply (retired_scan cmp); [by apply (ok_good _ _ _ O)|done]. }
      destruct (linked_delete h1 A u ul B L1 Ee) as [L2 E2]. split.
      * intros p Hq. apply agree_trans with (h2 := h1); [by apply Ag'|]. apply delete_self_agree. by eapply core_others; [exact (proj1 L1)|].
      * cbn [ch ub]. split; [done|]. split; [done|]. split; [done|].
        etransitivity; [exact E2|]. etransitivity; [exact E1|]. by rewrite <-app_assoc.
    + assert (ln_has_retired h1 (INode c (To ul)) = false) as ->.
      { unfold ln_has_retired. cbn [ch ub]. rewrite S1. cbn. done. }
      assert (kwf 1 (INode c (To ul) : tree K 0) /\ linked h1 (A ++ flat 0 u (INode c (To ul) : tree K 0) ++ B) /\
        fents h1 (A ++ flat 0 u (INode c (To ul) : tree K 0) ++ B) = fents h (A ++ (map lab (scan (ch n)) ++ [(u, ul)]) ++ B)) as Go.
      { split; [split; try done; by exists ul|]. rewrite Ef, S1, <-!app_assoc. done. }
      split; [done|]. by destruct unc.
Qed.

(** A tree of depth 0. *)
Lemma leaf_remove_ok h A s i B k cond : linked h (A ++ (s, i) :: B) -> below A k -> kle k s ->
  let L := A ++ (s, i) :: B in
  let l' := (remove_if cmp (leaf_at h i) k cond).1 in let h' := set_leaf h i l' in
  linked h' L /\ (forall p, p ∈ A ++ B -> agree h h' p.2) /\
  match (remove_if cmp (leaf_at h i) k cond).2 with
  | RSuccess | RRetired => taken cond (fents h L) k /\ fents h' L = odel cmp (fents h L) k
  | RFail => (forall v, oget cmp (fents h L) k = Some v -> cond v = false) /\ fents h' L = fents h L
  | RFrozen => False
  end.
Proof.
  intros [C Sg] Bl Lk L l' h'. pose proof (core_at _ _ _ _ _ C) as O.
  pose proof (ok_good _ _ _ O) as G. cbn in G. pose proof (ok_unfrozen _ _ _ O) as F. cbn in F.
  destruct (remove_if_spec cmp T (leaf_at h i) k cond G) as (G' & F' & Sp). fold l' in G', F', Sp.
  destruct (core_around cmp T h A s i B k C Bl Lk) as [Ca Cb].
  assert (fents h L = fents h A ++ scan (leaf_at h i) ++ fents h B) as Ef.
  { unfold L. rewrite fents_app, fents_cons. done. }
  assert (fents h' L = fents h A ++ scan l' ++ fents h B) as Ef' by (by apply (fents_set cmp)).
  assert (oget cmp (fents h L) k = oget cmp (scan (leaf_at h i)) k) as Eg by (rewrite Ef; by apply oget_mid).
  assert (odel cmp (fents h L) k = fents h A ++ odel cmp (scan (leaf_at h i)) k ++ fents h B) as Ed by (rewrite Ef; by apply odel_mid).
  assert (forall e, e ∈ scan l' -> e ∈ scan (leaf_at h i)) as Sub.
  { intros e He. destruct ((remove_if cmp (leaf_at h i) k cond).2).
    - destruct Sp as (_ & _ & _ & E & _). rewrite E in He. by apply (odel_elem cmp T) in He as [He _].
    - destruct Sp as (_ & _ & _ & E & _). rewrite E in He. by apply (odel_elem cmp T) in He as [He _].
    - destruct Sp as (_ & -> & _). done.
    - destruct Sp as (_ & ->). done. }
  split; [split|split].
  - apply (core_set cmp); [done|done|by rewrite F'|]. intros e He. apply Sub in He. destruct O as (c & Hc & _ & _ & _ & Ks). split; [by apply Ks|].
    intros a Ha. apply core_app in C as (_ & _ & P). destruct (P a (s, i) Ha) as [_ (ka & Ea & _ & Hk)]; [by left|].
    exists ka. split; [done|]. by apply Hk.
  - by apply seg_set_leaf.
  - intros p Hp. apply agree_set_leaf. by eapply core_others.
  - unfold taken. rewrite Eg, Ed, Ef'. destruct ((remove_if cmp (leaf_at h i) k cond).2).
    + destruct Sp as (_ & _ & Hv & -> & _). done.
    + destruct Sp as (_ & _ & Hv & -> & _). done.
    + destruct Sp as (_ & -> & Hv). by rewrite Ef.
    + destruct Sp as (Sp & _). congruence.
Qed.
Definition rem_spec d k cond : Prop :=
  forall u A B h (n : tree K d), kwf (S d) n -> linked h (A ++ flat d u n ++ B) -> below A k -> kle k u -> above cmp h u B ->
    rem_ok d u A B h n k cond (node_remove cmp d k cond h n).
Lemma ln_remove_ok k cond : rem_spec 0 k cond.
Proof.
  intros u A B h n W Lk Bl Lu Ab.
  destruct (route cmp T 0 u A B h n k W Lk Bl Lu) as (p & id & X & s & Y & E & Pl & Bx & Ls & _ & Ef & Et & Bt).
  rewrite !gflat0 in *. cbn [kflat app] in Et.
  change (kid K 0) with nat in Et, Bt, X, Y, id. cbn [node_remove]. rewrite E. cbn [fst snd].
  pose proof Lk as Lk0. rewrite Et in Lk0. pose proof (leaf_remove_ok h _ s id _ k cond Lk0 Bt Ls) as R. cbn zeta in R.
  destruct (remove_if cmp (leaf_at h id) k cond) as [l' r]. cbn [fst snd] in R. destruct R as (L1 & Ag & R).
  assert (forall p0, p0 ∈ A ++ B -> agree h (set_leaf h id l') p0.2) as Ag'.
  { intros q Hq. apply Ag. apply elem_of_app in Hq as [Hq|Hq]; apply elem_of_app; [left|right]; apply elem_of_app; [by left|by right]. }
  rewrite <-Et in L1, R. destruct r.
  - split; [done|]. destruct R as [R1 R2]. done.
  - pose proof (ln_coalesce_ok u A B _ n 2 W L1) as Co. destruct (ln_coalesce cmp 3 (set_leaf h id l') n false) as [[h' n'] r].
    cbn zeta in Co. destruct Co as [Ag2 Co]. destruct R as [R1 R2].
    split; [intros q Hq; apply agree_trans with (h2 := set_leaf h id l'); auto|].
    destruct r; try done; rewrite R2 in Co.
    + destruct Co as (C1 & C2 & C3). done.
    + destruct Co as (C1 & C2 & C3). done.
    + destruct Co as (C1 & C2 & C3 & C4). done.
  - split; [done|]. destruct R as [R1 R2]. done.
  - done.
Qed.

(** ** Internal nodes *)
(** A child is in use, or retired and empty. *)
Definition okkid d (c : tree K d) : Prop := kwf (S d) c \/ (ub c = Gone /\ scan (ch c) = []).
Lemma okkid_retired d (c : tree K d) : okkid d c -> node_retired c = true -> forall s, kflat (S d) s c = [].
Proof.
  intros [W|[E S]] Rt s.
  - exfalso. destruct (nw_ub _ _ _ W) as (x & E & _). unfold node_retired in Rt. change (@ub K (kid K d) c = To x) in E.
    rewrite E in Rt. done.
  - change (flat d s c = []). unfold flat, ukids, ub_kid. rewrite E, S. done.
Qed.
Lemma okkid_live d (c : tree K d) : okkid d c -> node_retired c = false -> kwf (S d) c.
Proof. intros [W|[E S]] Rt; [done|]. unfold node_retired in Rt. by rewrite E in Rt. Qed.

Lemma in_loop_ok {C} es : forall (c : leaf K (inode K C)) kept del,
  good c -> frozen (md c) = false -> scan c = kept ++ es ->
  let '(c', last', _) := in_coalesce_loop cmp es c (last kept) del in
  let es' := List.filter (fun e : K * inode K C => negb (node_retired e.2)) es in
  good c' /\ frozen (md c') = false /\ scan c' = kept ++ es' /\ last' = last (kept ++ es').
Proof.
  induction es as [|e es IH]; intros c kept del G F Sc.
  - cbn. rewrite app_nil_r in *. done.
  - cbn [in_coalesce_loop List.filter]. destruct (node_retired e.2) eqn:Rt; cbn [negb].
    + destruct (kid_drop c kept e es G F Sc) as (G1 & F1 & S1). by apply (IH _ kept).
    + pose proof (IH c (kept ++ [e]) del G F) as IH1. rewrite last_snoc in IH1.
      destruct (in_coalesce_loop cmp es c (Some e) del) as [[c' l'] d']. cbn zeta in *. rewrite <-!app_assoc in IH1. by apply IH1.
Qed.

Lemma kflat_end d : forall (n : kid K d), kwf d n -> exists F i, forall u, kflat d u n = F ++ [(u, i)].
Proof.
  induction d as [|d IH]; intros n W.
  - exists [], n. done.
  - destruct (nw_ub _ _ _ W) as (c & E & Wc). destruct (IH c Wc) as (F & i & Ef).
    exists (gflat (kflat d) (map lab (scan (ch n))) ++ F), i. intros u. change (kflat (S d) u n) with (flat d u n). unfold flat, ukids, ub_kid.
    change (@ub K (kid K d) n = To c) in E. rewrite E, gflat_app, gflat_cons, Ef.
    unfold gflat at 2. cbn. by rewrite app_nil_r, app_assoc.
Qed.
Lemma kflat_seps d h n : kwf d n -> forall A u B, core h (A ++ kflat d u n ++ B) -> forall k, u = Some k ->
  forall a, a ∈ kflat d u n -> exists ka, a.1 = Some ka /\ cmp ka k <> Gt.
Proof.
  intros W A u B C k -> a Ha. destruct (kflat_end d n W) as (F & i & E). rewrite E in *.
  apply elem_of_app in Ha as [Ha|Ha].
  - apply core_app in C as (_ & C & _). apply core_app in C as (C & _). apply core_app in C as (_ & _ & P).
    destruct (P a (Some k, i) Ha) as [_ (ka & Ea & La & _)]; [by left|]. exists ka. split; [done|]. cbn in La. congruence.
  - apply elem_of_list_singleton in Ha as ->. exists k. split; [done|]. by rewrite (cmp_refl cmp T).
Qed.
(** Changing the separator of the last leaf. *)
Lemma linked_relabel d h A (c : kid K d) k u B : kwf d c -> linked h (A ++ kflat d (Some k) c ++ B) -> klt k u -> above cmp h u B ->
  linked h (A ++ kflat d u c ++ B) /\ fents h (A ++ kflat d u c ++ B) = fents h (A ++ kflat d (Some k) c ++ B).
Proof.
  intros W [C Sg] Lu Ab. destruct (kflat_end d c W) as (F & i & E).
  assert (forall s, A ++ kflat d s c ++ B = (A ++ F) ++ (s, i) :: B) as E2.
  { intros s. rewrite E, <-!app_assoc. done. }
  rewrite !E2 in *. split; [split|].
  - eapply (core_relabel cmp); [exact C| | |done].
    + destruct (core_at _ _ _ _ _ C) as (c' & _ & _ & _ & _ & Ks). intros e He. apply klt_le.
      eapply (kle_klt cmp T); [|exact Lu]. by apply (Ks e).
    + intros a Ha. apply core_app in C as (_ & _ & P). destruct (P a (Some k, i) Ha) as [_ (ka & Ea & La & _)]; [by left|].
      exists ka. split; [done|]. cbn in La. eapply (kle_klt cmp T); [|exact Lu]. cbn. congruence.
  - rewrite fmap_app, fmap_cons in *. exact Sg.
  - rewrite !fents_app, !fents_cons. done.
Qed.

Lemma in_coalesce_ok d u A B h (n : inode K (tree K d)) f :
  nwf (okkid d) n -> (forall e, e ∈ scan (ch n) -> klt e.1 u) -> above cmp h u B ->
  linked h (A ++ flat (S d) u n ++ B) ->
  let '(n', r) := in_coalesce cmp (S f) n false in
  match r with
  | OSuccess | OCleanup => kwf (S (S d)) n' /\ linked h (A ++ flat (S d) u n' ++ B) /\
      fents h (A ++ flat (S d) u n' ++ B) = fents h (A ++ flat (S d) u n ++ B)
  | ORetired => ub n' = Gone /\ scan (ch n') = [] /\ flat (S d) u n = []
  | _ => False
  end.
Proof.
  intros [G F (cu & Eu & Ou) Ks] Lt_ Ab Lk. cbn [in_coalesce].
  pose proof (in_loop_ok (C:=kid K d) (scan (ch n)) (ch n) [] false G F eq_refl) as Lp. cbn [last] in Lp.
  change (tree K d) with (inode K (kid K d)) in *.
  destruct (in_coalesce_loop cmp (scan (ch n)) (ch n) None false) as [[c la] del]. cbn zeta in Lp. cbn [app] in Lp.
  set (es' := List.filter _ _) in *. destruct Lp as (G1 & F1 & S1 & El). rewrite Eu.
  assert (forall e, e ∈ es' -> kwf (S d) e.2 /\ klt e.1 u /\ node_retired e.2 = false) as Hes.
  { intros e He. apply elem_of_list_In, filter_In in He as [He Rt]. apply elem_of_list_In in He. apply negb_true_iff in Rt.
    split; [|auto]. apply okkid_live; [by apply Ks|done]. }
  assert (gflat (kflat (S d)) (map lab (scan (ch n))) = gflat (kflat (S d)) (map lab es')) as Eg.
  { unfold es'. clear -Ks. induction (scan (ch n)) as [|e es IH]; [done|]. cbn [map List.filter].
    change (gflat (kflat (S d)) (lab e :: map lab es)) with (kflat (S d) (Some e.1) e.2 ++ gflat (kflat (S d)) (map lab es)).
    destruct (node_retired e.2) eqn:Rt; cbn [negb].
    - rewrite (okkid_retired d e.2); [|apply Ks; by left|done]. apply IH. intros x Hx. apply Ks. by right.
    - cbn [map]. change (gflat (kflat (S d)) (lab e :: ?l)) with (kflat (S d) (Some e.1) e.2 ++ gflat (kflat (S d)) l).
      f_equal. apply IH. intros x Hx. apply Ks. by right. }
  assert (flat (S d) u n = gflat (kflat (S d)) (map lab es') ++ kflat (S d) u cu) as Efn.
  { unfold flat, ukids, ub_kid. change (kid K (S d)) with (inode K (kid K d)). rewrite Eu, gflat_app, gflat_cons.
    f_equal; [exact Eg|]. apply app_nil_r. }
  assert (forall (c' : leaf K (inode K (kid K d))) (w : inode K (kid K d)),
    flat (S d) u (INode c' (To w) : tree K (S d)) = gflat (kflat (S d)) (map lab (scan c')) ++ kflat (S d) u w) as Ef.
  { intros c' w. unfold flat, ukids, ub_kid. cbn [ch ub]. rewrite gflat_app, gflat_cons. f_equal. apply app_nil_r. }
  assert (forall es, (forall e : K * inode K (kid K d), e ∈ es -> node_retired e.2 = false) -> existsb (fun e : K * inode K (kid K d) => node_retired e.2) es = false) as Nx.
  { intros es H. induction es as [|e es IH]; [done|]. cbn. rewrite (H e) by (by left). apply IH. intros x Hx. apply H. by right. }
  destruct (node_retired cu) eqn:Rt.
  - rewrite El. destruct (last es') as [e|] eqn:Ela.
    + apply last_Some in Ela as [es1 Ees]. rewrite Ees in S1.
      destruct (kid_drop c es1 e [] G1 F1 S1) as (G2 & F2 & S2). rewrite app_nil_r in S2.
      cbv beta iota zeta. set (c2 := (remove_if cmp c e.1 (fun _ => true)).1) in *.
      destruct (Hes e) as (We & Le & Re); [rewrite Ees; apply elem_of_app; right; by left|].
      assert (in_has_retired (INode c2 (To e.2)) = false) as ->.
      { unfold in_has_retired. cbn [ch ub]. rewrite S2, Nx; [destruct es1; [exact Re|done]|].
        intros x Hx. apply Hes. rewrite Ees. apply elem_of_app. by left. }
      split; [|].
      * split; cbn [ch ub]; [done|done|by exists e.2|]. intros x Hx. change (x ∈ @scan K (inode K (kid K d)) c2) in Hx. rewrite S2 in Hx. apply Hes. rewrite Ees. apply elem_of_app. by left.
      * rewrite Ef, S2, Efn, (okkid_retired d cu Ou Rt), app_nil_r, Ees, map_app, gflat_app.
        assert (gflat (kflat (S d)) (map lab [e]) = kflat (S d) (Some e.1) e.2) as ->.
        { unfold gflat. cbn [map concat lab fst snd]. by rewrite app_nil_r. }
        rewrite Efn, (okkid_retired d cu Ou Rt), app_nil_r, Ees, map_app, gflat_app in Lk.
        assert (gflat (kflat (S d)) (map lab [e]) = kflat (S d) (Some e.1) e.2) as Ege.
        { unfold gflat. cbn [map concat lab fst snd]. by rewrite app_nil_r. }
        rewrite Ege in Lk. rewrite <-!app_assoc in *. rewrite !(app_assoc A) in *. by apply (linked_relabel (S d)) with (k := e.1).
    + apply last_None in Ela. cbv beta iota zeta. cbn [ch ub]. split; [done|]. split; [by rewrite S1|].
      rewrite Efn, Ela, (okkid_retired d cu Ou Rt). done.
  - cbv beta iota zeta.
    assert (in_has_retired (INode c (To cu)) = false) as ->.
    { unfold in_has_retired. cbn [ch ub]. rewrite S1, Nx; [destruct es'; [exact Rt|done]|]. intros x Hx. by apply Hes. }
    assert (kwf (S (S d)) (INode c (To cu) : tree K (S d)) /\ linked h (A ++ flat (S d) u (INode c (To cu) : tree K (S d)) ++ B) /\
      fents h (A ++ flat (S d) u (INode c (To cu) : tree K (S d)) ++ B) = fents h (A ++ flat (S d) u n ++ B)) as Go.
    { rewrite Ef, S1, Efn. rewrite Efn in Lk. split; [|done]. split; cbn [ch ub]; [done|done| |].
      - exists cu. split; [done|]. by apply okkid_live.
      - intros x Hx. change (x ∈ @scan K (inode K (kid K d)) c) in Hx. rewrite S1 in Hx. by apply Hes. }
    by destruct del.
Qed.

Lemma seps_lt d u A B h (n : tree K d) : kwf (S d) n -> core h (A ++ flat d u n ++ B) -> forall e, e ∈ scan (ch n) -> klt e.1 u.
Proof.
  intros W C e He. pose proof W as [_ _ (cu & Eu & Wu) Ks].
  unfold flat, ukids, ub_kid in C. rewrite Eu, gflat_app in C. apply core_app in C as (_ & C & _). apply core_app in C as (C & _ & _).
  apply core_app in C as (_ & _ & P).
  destruct (gflat_sep cmp d (map lab (scan (ch n))) (Some e.1) e.2) as [i Hi].
  { apply elem_of_list_In, in_map_iff. exists e. split; [done|]. by apply elem_of_list_In. }
  { by apply Ks. }
  destruct (gflat_sep cmp d [(u, cu)] u cu) as [j Hj]; [by left|done|].
  destruct (P _ _ Hi Hj) as [_ (k & E & L & _)]. cbn in E. by injection E as <-.
Qed.
Lemma above_here d h A s (c : kid K d) R : kwf d c -> core h (A ++ kflat d s c ++ R) -> above cmp h s R.
Proof.
  intros W C b Hb. destruct (kflat_last cmp d s c W) as (F & i & E). rewrite E in C.
  apply core_app in C as (_ & C & _). apply core_app in C as (_ & _ & P).
  destruct (P (s, i) b) as [_ Pr]; [apply elem_of_app; right; by left|done|]. by apply (prior_fst cmp h s i 0 b).
Qed.
Lemma nwf_weaken {C} (P Q : C -> Prop) (n : inode K C) : (forall c, P c -> Q c) -> nwf P n -> nwf Q n.
Proof. intros H [G F (c & E & Pc) Ks]. split; [done|done|exists c; auto|]. intros e He. by apply H, Ks. Qed.

Lemma labels_same {C} u (n n1 : inode K C) p s c c' X Y c0 c1 : place n u p s c X Y -> place n1 u p s c' X Y ->
  ub n = To c0 -> ub n1 = To c1 -> map fst (scan (ch n1)) = map fst (scan (ch n)).
Proof.
  intros Pl Pl1 Eu0 Eu1. pose proof (place_ukids _ _ _ _ _ _ _ Pl1) as U1. pose proof (place_ukids _ _ _ _ _ _ _ Pl) as U0.
  unfold ukids, ub_kid in U1, U0. rewrite Eu0 in U0. rewrite Eu1 in U1.
  apply (f_equal (map fst)) in U1. apply (f_equal (map fst)) in U0. rewrite !map_app in U0, U1. cbn [map fst] in U0, U1.
  rewrite <-U0 in U1. apply app_inj_tail in U1 as [Em _]. rewrite !map_map in Em. cbn [lab fst] in Em.
  apply (f_equal (omap id)) in Em. revert Em.
  assert (forall l : list (K * C), omap id (map (fun x => Some x.1) l) = map fst l) as Ho.
  { intros l. induction l as [|x l IH]; [done|]. cbn. f_equal. exact IH. }
  by rewrite !Ho.
Qed.
Lemma in_remove_ok d k cond : rem_spec d k cond -> rem_spec (S d) k cond.
Proof.
  intros IH u A B h n W Lk Bl Lu Ab.
  destruct (route cmp T (S d) u A B h n k W Lk Bl Lu) as (p & c & X & s & Y & E & Pl & Bx & Ls & Wc & Ef & Et & Bt).
  cbn [node_remove]. rewrite E. cbn [fst snd]. pose proof Lk as Lk0. rewrite Et in Lk0.
  set (FX := gflat (kflat (S d)) X) in *. set (FY := gflat (kflat (S d)) Y) in *.
  pose proof (above_here (S d) h _ s c _ Wc (proj1 Lk0)) as Ab'.
  pose proof (IH s _ _ h c Wc Lk0 Bt Ls Ab') as I. destruct (node_remove cmp d k cond h c) as [[h1 c'] r]. destruct I as [Ag I].
  assert (forall p0, p0 ∈ A ++ B -> agree h h1 p0.2) as Ag'.
  { intros q Hq. apply Ag. apply elem_of_app in Hq as [Hq|Hq]; apply elem_of_app; [left|right]; apply elem_of_app; [by left|by right]. }
  set (n1 := @put K (inode K (kid K d)) n p c').
  assert (forall s', @place K (kid K (S d)) n1 u p s c' X Y -> A ++ flat (S d) u n1 ++ B = (A ++ FX) ++ kflat (S d) s c' ++ FY ++ B) as Et'.
  { intros _ Pl'. rewrite (flat_place _ _ _ _ _ _ _ _ Pl'), <-!app_assoc. done. }
  change (flat d s c) with (kflat (S d) s c) in I. rewrite <-Et in I.
  assert (kwf (S d) c' -> kwf (S (S d)) n1 /\ A ++ flat (S d) u n1 ++ B = (A ++ FX) ++ flat d s c' ++ FY ++ B) as Go.
  { intros Wc'. destruct (put_spec cmp T (kwf (S d)) n u p s c c' X Y W Pl Wc') as [W' Pl']. split; [exact W'|]. by apply Et'. }
  destruct r.
  - destruct I as (Wc' & L1 & Tk & F1). destruct (Go Wc') as [W1 Et1]. rewrite <-Et1 in L1, F1. split; [done|]. done.
  - destruct I as (Wc' & L1 & Tk & F1). destruct (Go Wc') as [W1 Et1]. rewrite <-Et1 in L1, F1. split; [done|].
    destruct (cleanup_link cmp (S d) k false _); done.
  - destruct I as (Eg & Es & L1 & Tk & F1).
    assert (nwf (okkid d) n) as Wo. { eapply nwf_weaken; [|exact W]. intros x Hx. by left. }
    assert (okkid d c') as Oc by (by right).
    destruct (put_spec cmp T (okkid d) n u p s c c' X Y Wo Pl Oc) as [W1 Pl1].
    specialize (Et' s Pl1). rewrite (okkid_retired d c' Oc) in Et'; [|unfold node_retired; by rewrite Eg]. cbn [app] in Et'.
    rewrite <-app_assoc in L1, F1, Et'.
    assert (linked h1 (A ++ flat (S d) u n1 ++ B)) as L2 by (rewrite Et'; exact L1).
    assert (forall e, e ∈ scan (ch n1) -> klt e.1 u) as Lt1.
    { intros e He. destruct (nw_ub _ _ _ W1) as (c1 & Eu1 & _). destruct (nw_ub _ _ _ W) as (c0 & Eu0 & _).
      pose proof (labels_same u n n1 p s c c' X Y c0 c1 Pl Pl1 Eu0 Eu1) as Em.
      assert (e.1 ∈ map fst (scan (ch n))) as Hk.
      { rewrite <-Em. apply elem_of_list_In, in_map_iff. exists e. split; [done|]. by apply elem_of_list_In. }
      apply elem_of_list_In, in_map_iff in Hk as (e0 & E0 & H0). rewrite <-E0.
      eapply seps_lt; [exact W|exact (proj1 Lk)|]. by apply elem_of_list_In. }
    pose proof (in_coalesce_ok d u A B h1 n1 2 W1 Lt1) as Co.
    assert (above cmp h1 u B) as Ab1.
    { eapply agree_above; [|exact Ab]. intros q Hq. apply Ag'. apply elem_of_app. by right. }
    specialize (Co Ab1 L2).
    change (rem_ok (S d) u A B h n k cond (h1, (in_coalesce cmp 3 n1 false).1, (in_coalesce cmp 3 n1 false).2)).
    destruct (in_coalesce cmp 3 n1 false) as [n' r]. rewrite Et' in Co. rewrite F1 in Co. cbn [fst snd].
    split; [done|]. destruct r; try done.
    + destruct Co as (C1 & C2 & C3). done.
    + destruct Co as (C1 & C2 & C3). done.
    + destruct Co as (C1 & C2 & C3).
      assert (A ++ FX ++ FY ++ B = A ++ B) as Ee by (rewrite <-Et', C3; done). rewrite Ee in *. done.
  - destruct I as (Wc' & L1 & Tk & F1). destruct (Go Wc') as [W1 Et1]. rewrite <-Et1 in L1, F1. split; [done|]. done.
  - done.
Qed.
Lemma node_remove_ok d k cond : rem_spec d k cond.
Proof. induction d as [|d IH]; [apply ln_remove_ok|by apply in_remove_ok]. Qed.

(** ** The root *)
Lemma cleanup_root_ok d h : forall n : tree K d, kwf (S d) n -> linked h (flat d None n) ->
  tree_ok cmp (Tree h (cleanup_root d n)) /\ tents (Tree h (cleanup_root d n)) = fents h (flat d None n).
Proof.
  induction d as [|d IH]; intros n W Lk.
  - cbn [cleanup_root]. destruct (nw_ub _ _ _ W) as (c & E & _). unfold node_retired. rewrite E. done.
  - cbn [cleanup_root]. destruct (nw_ub _ _ _ W) as (c & E & Wc). unfold node_retired. rewrite E.
    destruct (is_empty (ch n)) eqn:Em; [|done].
    apply (is_empty_spec cmp) in Em; [|apply (nw_good _ _ _ W)].
    assert (flat (S d) None n = flat d None c) as Ef.
    { unfold flat at 1. unfold ukids, ub_kid. rewrite E, Em. cbn [map app].
      rewrite gflat_cons. apply app_nil_r. }
    rewrite Ef in *. by apply IH.
Qed.
Definition removed t k cond (z : treeindex K V * bool) : Prop :=
  tree_ok cmp z.1 /\
  ((z.2 = true /\ taken cond (tents t) k /\ tents z.1 = odel cmp (tents t) k) \/
   (z.2 = false /\ (forall v, oget cmp (tents t) k = Some v -> cond v = false) /\ tents z.1 = tents t)).
Lemma remove_if_sync_ok t k cond : tree_ok cmp t -> removed t k cond (remove_if_sync cmp t k cond).
Proof.
  destruct t as [h [[d n]|]]; intros Ok.
  - destruct Ok as [W Lk]. cbn [root hp] in *. unfold remove_if_sync. cbn [root hp].
    assert (rem_ok d None [] [] h n k cond (node_remove cmp d k cond h n)) as R.
    { apply node_remove_ok; [done|by rewrite app_nil_mid|by intros a ?%elem_of_nil|done|by intros a ?%elem_of_nil]. }
    destruct (node_remove cmp d k cond h n) as [[h' n'] r]. destruct R as [_ R]. rewrite !app_nil_mid in R.
    unfold removed. unfold clean. cbn [root hp]. destruct r; cbn [fst snd].
    + destruct R as (W' & L' & Tk & F'). split; [done|]. left. done.
    + destruct R as (W' & L' & Tk & F'). destruct (cleanup_root_ok d h' n' W' L') as [Ok' Et]. split; [done|]. left.
      rewrite Et. done.
    + destruct R as (Eg & Es & L' & Tk & F').
      assert (cleanup_root d n' = None) as ->.
      { destruct d; cbn [cleanup_root]; unfold node_retired.
        - by rewrite Eg.
        - by rewrite Eg. }
      split; [done|]. left. split; [done|]. split; [done|]. exact F'.
    + destruct R as (W' & L' & Tk & F'). split; [done|]. right. done.
    + done.
  - split; [done|]. right. split; [done|]. split; [|done]. done.
Qed.
End facts.
