(** Leaf operations without interference, in terms of the ascending list of entries. *)
From stdpp Require Import prelude list sorting.
From Verif Require Import LeafModel LeafSpec LeafFacts OrdFacts LeafOps.

Section seq.
Context {K V : Type} (cmp : K -> K -> comparison) (T : total_order cmp).
Implicit Types (l : leaf K V) (ss : list (option (K * V))) (m : meta) (es : list (K * V)).
Notation good := (good cmp).

Lemma scan_asc l : good l -> ascending cmp (scan l).
Proof. intros G. apply (scan_spec cmp l (good_co _ _ G)). Qed.
Lemma scan_elem l e : good l -> e ∈ scan l <-> stored l e.
Proof. intros G. apply (scan_spec cmp l (good_co _ _ G)). Qed.
Lemma scan_key l k : good l -> k ∈ (scan l).*1 <-> exists v, stored l (k, v).
Proof.
  intros G. rewrite elem_of_list_fmap. split.
  - intros ([k' v] & -> & H). exists v. by apply scan_elem.
  - intros (v & H). exists (k, v). split; [done|]. by apply scan_elem.
Qed.

Lemma new_ranks_lookup i r : ranks new_meta !! i = Some r -> r = 0.
Proof. intros H. by apply lookup_replicate in H as [-> _]. Qed.
Lemma new_good : good (@new_leaf K V).
Proof.
  exists (replicate 14 false). split; cbn [md slots new_leaf].
  - split; try done.
    + intros i r H. apply new_ranks_lookup in H as ->. lia.
    + intros i r H L. by apply new_ranks_lookup in H as ->.
    + intros i j r H _ L. by apply new_ranks_lookup in H as ->.
    + intros i j r r' e e' H _ L. by apply new_ranks_lookup in H as ->.
  - done.
  - intros i H. by apply lookup_replicate in H as [? _].
  - intros i r H L. by apply new_ranks_lookup in H as ->.
  - done.
Qed.
Lemma scan_new : scan (@new_leaf K V) = [].
Proof.
  apply (scan_eq cmp T); [apply good_co, new_good|apply asc_nil|].
  intros e. rewrite elem_of_nil. split; [done|]. intros (i & r & H & L & _). by apply new_ranks_lookup in H as ->.
Qed.

Lemma search_entry_scan l k : good l -> search_entry cmp l k = (fun v => (k, v)) <$> oget cmp (scan l) k.
Proof.
  intros G. pose proof (search_entry_spec cmp T l k (good_co _ _ G)) as S.
  destruct (search_entry cmp l k) as [[k' v]|].
  - destruct S as [E S]. simpl in E. subst k'. apply scan_elem in S; [|done].
    apply (oget_some cmp T) in S; [|by apply scan_asc]. by rewrite S.
  - assert (oget cmp (scan l) k = None) as ->; [|done].
    apply (oget_none cmp T); [by apply scan_asc|]. intros H. apply scan_key in H as (v & H); [|done]. by eapply S.
Qed.

Definition full m := forall i r, ranks m !! i = Some r -> r <> 0.
Lemma insert_spec l k v : good l ->
  let l' := (insert cmp l k v).1 in
  good l' /\ frozen (md l') = frozen (md l) /\ retired (md l') = retired (md l) /\
  match (insert cmp l k v).2 with
  | ISuccess => frozen (md l) = false /\ retired (md l) = false /\ k ∉ (scan l).*1 /\ scan l' = oput cmp (scan l) k v
  | IDuplicate => frozen (md l) = false /\ retired (md l) = false /\ k ∈ (scan l).*1 /\ scan l' = scan l
  | IFull => frozen (md l) = false /\ retired (md l) = false /\ k ∉ (scan l).*1 /\ l' = l /\ full (md l)
  | IFrozen => frozen (md l) = true /\ retired (md l) = false /\ l' = l
  | IRetired => retired (md l) = true /\ l' = l
  end.
Proof.
  intros G. unfold insert. destruct (retired (md l)) eqn:Rt; [done|].
  destruct (frozen (md l)) eqn:Fz; [by cbn|].
  pose proof (first_uninit_0 (ranks (md l))) as F. destruct (first_uninit (ranks (md l)) 0) as [i|].
  - destruct G as [c W]. pose proof (ex_intro _ c W : good l) as G.
    destruct (reserve_spec cmp c _ _ i (Some (k, v)) W F) as (W1 & Ci & S1).
    set (l1 := Leaf (augment (md l) i removed_rank) (<[i:=Some (k, v)]> (slots l))).
    assert (i < length (ranks (md l))) as Hi by (by eapply lookup_lt_Some).
    assert (i < length (slots l)) as Hs by (rewrite (co_slen _ _ _ (wi_co _ _ _ _ W)), <-(co_len _ _ _ (wi_co _ _ _ _ W)); done).
    assert (ranks (md l1) !! i = Some 15) as R1 by (by apply list_lookup_insert).
    assert (slots l1 !! i = Some (Some (k, v))) as S1' by (by apply list_lookup_insert).
    pose proof (post_spec cmp T c (md l1) (slots l1) i k v W1 Rt R1 Ci S1') as P.
    destruct (post (compare_at cmp (slots l1) k) (md l1) i) as [m'|]; cbn [fst snd].
    + destruct P as (W2 & F2 & Rt2 & S2 & N & _).
      assert (good (Leaf m' (slots l1))) as G2 by (by eexists).
      split; [done|]. split; [by etrans; [apply F2|]|]. split; [done|]. split; [done|]. split; [done|].
      assert (k ∉ (scan l).*1) as Nk.
      { rewrite scan_key by done. intros [v' H]. apply (N v'), S1. done. }
      split; [done|]. apply (scan_eq cmp T); [by apply good_co|by apply oput_asc; [|apply scan_asc|]|].
      intros e. rewrite (oput_elem cmp T), scan_elem by (done || by apply scan_asc). rewrite (stored_eq (Leaf m' _)). cbn [md slots].
      rewrite S2. pose proof (S1 e) as X. revert X. unfold l1. cbn [md slots]. unfold removed_rank. rewrite (stored_eq l). tauto.
    + destruct (unreserve_spec cmp c _ _ i None W1 Ci R1) as (W2 & S2).
      set (l2 := Leaf (augment (md l1) i uninit_rank) (<[i:=None]> (slots l1))).
      assert (rollback l1 i = (l2, IDuplicate)) as ->.
      { unfold rollback. fold l2. f_equal. unfold rollback_result. cbn [retired frozen augment]. unfold l1. cbn. by rewrite Rt, Fz. }
      cbn [fst snd].
      assert (good l2) as G2 by (by eexists).
      split; [done|]. split; [done|]. split; [done|]. split; [done|]. split; [done|]. split.
      * destruct P as [v' P]. apply scan_key; [done|]. exists v'. by apply S1.
      * apply (scan_eq cmp T); [by apply good_co|by apply scan_asc|]. intros e. rewrite scan_elem by done.
        rewrite (stored_eq l2), (stored_eq l). etrans; [symmetry; apply S1|symmetry; apply S2].
  - pose proof (search_slot_spec cmp T _ _ k (good_co _ _ G)) as S.
    destruct (search_slot cmp (slots l) k (md l)) as [i|]; cbn [fst snd].
    + do 5 (split; [done|]). split; [|done]. destruct S as (r & v' & Hr & Lr & He). apply scan_key; [done|].
      exists v', i, r. done.
    + do 5 (split; [done|]). split; [|done]. rewrite scan_key by done. intros [v' H]. by apply (S v').
Qed.

Lemma remove_if_spec l k cond : good l ->
  let l' := (remove_if cmp l k cond).1 in
  good l' /\ frozen (md l') = frozen (md l) /\
  match (remove_if cmp l k cond).2 with
  | RSuccess => frozen (md l) = false /\ retired (md l) = false /\ (exists v, oget cmp (scan l) k = Some v /\ cond v = true) /\
                scan l' = odel cmp (scan l) k /\ scan l' <> [] /\ retired (md l') = false
  | RRetired => frozen (md l) = false /\ retired (md l) = false /\ (exists v, oget cmp (scan l) k = Some v /\ cond v = true) /\
                scan l' = odel cmp (scan l) k /\ scan l' = [] /\ retired (md l') = true
  | RFail => frozen (md l) = false /\ l' = l /\ (forall v, oget cmp (scan l) k = Some v -> cond v = false)
  | RFrozen => frozen (md l) = true /\ l' = l
  end.
Proof.
  intros G. unfold remove_if. destruct (frozen (md l)) eqn:Fz; [by cbn|].
  pose proof (search_slot_spec cmp T _ _ k (good_co _ _ G)) as S.
  destruct (search_slot cmp (slots l) k (md l)) as [i|]; cbn [fst snd].
  - destruct S as (r & v & Hr & Lr & He). apply entry_at_some in He as He'. rewrite He'. cbn [snd].
    assert (oget cmp (scan l) k = Some v) as O.
    { apply (oget_some cmp T); [by apply scan_asc|]. apply scan_elem; [done|]. exists i, r. done. }
    destruct (cond v) eqn:Cv; cbn [fst snd].
    + destruct G as [c W]. pose proof (ex_intro _ c W : good l) as G.
      destruct (removal_spec cmp T c _ _ i r k v W Hr Lr He) as (W' & F' & _ & Rt & OE & _ & S').
      set (l' := Leaf (removal (md l) i) (slots l)).
      assert (good l') as G' by (by eexists).
      assert (retired (md l) = false) as Rt0.
      { destruct (retired (md l)) eqn:E; [|done]. by rewrite (wi_ret _ _ _ _ W E _ _ Hr) in Lr. }
      assert (scan l' = odel cmp (scan l) k) as Sc.
      { apply (scan_eq cmp T); [by apply good_co|by apply odel_asc, scan_asc|]. intros e.
        rewrite (odel_elem cmp T), scan_elem by done. rewrite (stored_eq l'). cbn [md slots l']. by rewrite S'. }
      assert (scan l' = [] <-> forall e, ~ sstored (md l') (slots l') e) as E0.
      { split.
        - intros E e He0. apply (scan_elem l' e G') in He0. rewrite E in He0. by apply elem_of_nil in He0.
        - intros H. apply (scan_eq cmp T); [by apply good_co|apply asc_nil|]. intros e. rewrite elem_of_nil. split; [done|].
          intros X. by apply (H e). }
      split; [done|]. split; [by cbn; rewrite F'|].
      destruct (others_empty (ranks (md l)) 0 i) eqn:E.
      * do 2 (split; [done|]). split; [by exists v|]. split; [done|]. split; [by apply E0, OE|]. by apply Rt.
      * do 2 (split; [done|]). split; [by exists v|]. split; [done|]. split.
        -- intros H. pose proof (proj2 OE (proj1 E0 H)) as H1. congruence.
        -- cbn. destruct (retired (removal (md l) i)) eqn:E'; [|done]. by pose proof (proj1 Rt eq_refl).
    + do 3 (split; [done|]). split; [done|]. intros v' H. rewrite O in H. by injection H as <-.
  - do 3 (split; [done|]). split; [done|]. intros v H. exfalso.
    apply (oget_some cmp T) in H; [|by apply scan_asc]. apply scan_elem in H; [|done]. by apply (S v).
Qed.

(** [fill]: ranks one, two, ... *)
Lemma fill_shape es : forall n l, n + length es <= 14 ->
  ranks (md l) = seq 1 n ++ replicate (14 - n) 0 -> (exists os, slots l = (Some <$> os) ++ replicate (14 - n) None /\ length os = n) ->
  forall os, slots l = (Some <$> os) ++ replicate (14 - n) None -> length os = n ->
  ranks (md (fill l es n)) = seq 1 (n + length es) ++ replicate (14 - (n + length es)) 0 /\
  slots (fill l es n) = (Some <$> (os ++ es)) ++ replicate (14 - (n + length es)) None /\
  frozen (md (fill l es n)) = frozen (md l) /\ retired (md (fill l es n)) = retired (md l).
Proof.
  induction es as [|e es IH]; intros n l Hn Hr _ os Hs Ln; cbn [fill].
  - cbn [length]. rewrite Nat.add_0_r, app_nil_r. done.
  - cbn [length] in Hn. set (l' := insert_unchecked l e.1 e.2 n).
    assert (ranks (md l') = seq 1 (S n) ++ replicate (14 - S n) 0) as Hr'.
    { unfold l', insert_unchecked, augment. cbn [md ranks]. rewrite Hr.
      rewrite insert_app_r_alt by (rewrite seq_length; lia). rewrite seq_length, Nat.sub_diag.
      replace (14 - n) with (S (14 - S n)) by lia. cbn [replicate]. cbn [insert list_insert].
      rewrite seq_S. by rewrite <-app_assoc. }
    assert (slots l' = (Some <$> (os ++ [e])) ++ replicate (14 - S n) None) as Hs'.
    { unfold l', insert_unchecked. cbn [slots]. rewrite Hs.
      rewrite insert_app_r_alt by (rewrite fmap_length; lia). rewrite fmap_length, Ln, Nat.sub_diag.
      replace (14 - n) with (S (14 - S n)) by lia. cbn [replicate]. cbn [insert list_insert].
      rewrite fmap_app, <-app_assoc. by destruct e. }
    destruct (IH (S n) l') with (os := os ++ [e]) as (A & B & D & E); auto.
    + lia.
    + exists (os ++ [e]). split; [done|]. rewrite app_length. simpl. lia.
    + rewrite app_length. simpl. lia.
    + cbn [length]. rewrite <-Nat.add_succ_comm. rewrite A, B, D, E. rewrite <-app_assoc. done.
Qed.
Lemma seq_rank n i r : (seq 1 n ++ replicate (14 - n) 0) !! i = Some r -> live r = true -> i < n /\ r = S i.
Proof.
  intros H L. apply lookup_app_Some in H as [H|[_ H]].
  - apply lookup_seq in H. lia.
  - by apply lookup_replicate in H as [-> _].
Qed.
Lemma tally_prefix n : n <= 14 -> tally (replicate n true ++ replicate (14 - n) false) = n.
Proof.
  intros _. unfold tally. rewrite List.filter_app, app_length.
  assert (forall q, List.filter (fun b : bool => b) (replicate q true) = replicate q true) as -> by (intros q; induction q; simpl; by f_equal).
  assert (forall q, List.filter (fun b : bool => b) (replicate q false) = []) as -> by (intros q; by induction q).
  rewrite replicate_length. simpl. lia.
Qed.
Lemma fill_spec es : length es <= 14 -> ascending cmp es ->
  let l := fill new_leaf es 0 in
  good l /\ scan l = es /\ frozen (md l) = false /\ retired (md l) = false /\
  (length es < 14 -> ~ full (md l)).
Proof.
  intros Hn A l. destruct (fill_shape es 0 (@new_leaf K V)) with (os := @nil (K * V)) as (R & S & F & Rt); auto.
  { exists []. done. }
  fold l in R, S, F, Rt. cbn [plus] in R, S. rewrite app_nil_l in S.
  set (n := length es) in *.
  assert (forall i e, i < n -> slots l !! i = Some (Some e) <-> es !! i = Some e) as SI.
  { intros i e Hi. rewrite S, lookup_app_l by (rewrite fmap_length; done). rewrite list_lookup_fmap.
    destruct (es !! i); simpl; split; congruence. }
  assert (good l) as G.
  { exists (replicate n true ++ replicate (14 - n) false). split.
    - split.
      + rewrite R, app_length, seq_length, replicate_length. lia.
      + rewrite S, app_length, fmap_length, replicate_length. fold n. lia.
      + intros i r H. rewrite R in H. apply lookup_app_Some in H as [H|[_ H]].
        * apply lookup_seq in H. lia.
        * apply lookup_replicate in H as [-> _]. lia.
      + intros i r H L. rewrite R in H. apply seq_rank in H as [H _]; [|done].
        destruct (lookup_lt_is_Some_2 es i H) as [e He]. exists e. by apply SI.
      + intros i j r H1 H2 L. rewrite R in H1, H2. apply seq_rank in H1 as [_ H1]; [|done].
        apply seq_rank in H2 as [_ H2]; [|done]. lia.
      + intros i j r r' e e' H1 H2 L1 L2 He He' Hlt. rewrite R in H1, H2.
        apply seq_rank in H1 as [H1 ->]; [|done]. apply seq_rank in H2 as [H2 ->]; [|done].
        apply SI in He; [|done]. apply SI in He'; [|done].
        assert (i < j) as Hij by lia.
        rewrite <-(take_drop_middle _ _ _ He) in A. apply asc_app in A as (_ & A & _). apply asc_cons in A as [_ A].
        apply A. apply elem_of_list_lookup. exists (j - Datatypes.S i). rewrite lookup_drop.
        by replace (Datatypes.S i + (j - Datatypes.S i)) with j by lia.
    - rewrite app_length, !replicate_length. lia.
    - intros i H. rewrite R. apply lookup_app_Some in H as [H|[_ H]]; [|by apply lookup_replicate in H as [? _]].
      apply lookup_replicate in H as [_ H]. rewrite lookup_app_l by (by rewrite seq_length).
      rewrite lookup_seq_lt by done. done.
    - intros i r H L. rewrite R in H. apply seq_rank in H as [H ->]; [|done].
      rewrite tally_prefix by done. split; [|lia]. rewrite lookup_app_l by (by rewrite replicate_length).
      by apply lookup_replicate.
    - rewrite Rt. done. }
  split; [done|]. split; [|split; [done|split; [done|]]].
  - apply (scan_eq cmp T); [by apply good_co|done|]. intros e. split.
    + intros H. apply elem_of_list_lookup_1 in H as [i H]. assert (i < n) by (by eapply lookup_lt_Some).
      exists i, (Datatypes.S i). rewrite R. rewrite lookup_app_l by (by rewrite seq_length).
      split; [by apply lookup_seq_lt|]. split; [apply live_spec; lia|]. by apply SI.
    + intros (i & r & H & L & He). rewrite R in H. apply seq_rank in H as [H ->]; [|done].
      apply SI in He; [|done]. by eapply elem_of_list_lookup_2.
  - intros Hlt Fl. apply (Fl n 0); [|done]. rewrite R, lookup_app_r by (by rewrite seq_length).
    rewrite seq_length, Nat.sub_diag. replace (14 - n) with (Datatypes.S (13 - n)) by lia. done.
Qed.

Lemma scan_length l : good l -> length (scan l) <= 14.
Proof.
  intros G. pose proof (good_co _ _ G) as C.
  (* the entries occupy distinct slots *)
  assert (NoDup (scan l)) as N by (eapply NoDup_fmap_1, asc_nodup; [done|by apply scan_asc]).
  assert (scan l ⊆ omap (fun x => x) (slots l)) as S.
  { intros e He. apply scan_elem in He as (i & r & _ & _ & He); [|done].
    apply elem_of_list_omap. exists (Some e). split; [|done]. by eapply elem_of_list_lookup_2. }
  assert (length (omap (fun x => x) (slots l)) <= length (slots l)) as L.
  { generalize (slots l). intros ss. induction ss as [|[x|] ss IH]; cbn in *; [done|apply le_n_S, IH|apply le_S, IH]. }
  rewrite (co_slen _ _ _ C) in L. etrans; [|done].
  apply submseteq_length. by apply NoDup_submseteq.
Qed.

Lemma distribute_spec l : good l ->
  let '(fz, lo, hi) := distribute l in
  good fz /\ md fz = freeze (md l) /\ slots fz = slots l /\ scan fz = scan l /\
  good lo /\ frozen (md lo) = false /\ retired (md lo) = false /\ ~ full (md lo) /\
  match hi with
  | None => scan l = scan lo
  | Some h => good h /\ frozen (md h) = false /\ retired (md h) = false /\ ~ full (md h) /\ scan h <> [] /\
      scan lo <> [] /\ scan l = scan lo ++ scan h
  end.
Proof.
  intros G. unfold distribute. pose proof (optimal_boundary_range (md l)) as B.
  set (b := optimal_boundary (md l)) in *. pose proof (scan_length _ G) as Ln. pose proof (scan_asc _ G) as A.
  assert (length (take b (scan l)) < 14) as L1 by (rewrite take_length; lia).
  assert (length (drop b (scan l)) < 14) as L2 by (rewrite drop_length; lia).
  destruct (fill_spec (take b (scan l))) as (G1 & S1 & F1 & R1 & N1); [lia|by apply asc_take|].
  destruct (fill_spec (drop b (scan l))) as (G2 & S2 & F2 & R2 & N2); [lia|by apply asc_drop|].
  assert (good (Leaf (freeze (md l)) (slots l))) as Gf.
  { destruct G as [c [[] ]]. exists c. by repeat (split; try done). }
  split; [exact Gf|]. split; [done|]. split; [done|]. split.
  { apply (scan_eq cmp T); [exact (good_co _ _ Gf)|exact A|]. intros e. rewrite scan_elem by done. done. }
  split; [exact G1|]. split; [exact F1|]. split; [exact R1|].
  split; [exact (N1 L1)|].
  destruct (drop b (scan l)) as [|h hs] eqn:E.
  - rewrite S1. rewrite <-(take_drop b (scan l)) at 1. rewrite E. apply app_nil_r.
  - split; [exact G2|]. split; [exact F2|]. split; [exact R2|]. split; [exact (N2 L2)|]. rewrite S2. split; [discriminate|]. split.
    + rewrite S1. destruct (scan l) as [|x xs]; [by rewrite drop_nil in E|]. destruct b; [lia|done].
    + rewrite S1, <-E. by rewrite take_drop.
Qed.
End seq.
