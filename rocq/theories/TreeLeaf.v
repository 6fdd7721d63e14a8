(** What the tree needs to know about one leaf: the slots its searches find, in terms of [scan]. *)
From stdpp Require Import prelude list sorting.
From Verif Require Import LeafModel LeafSpec LeafFacts OrdFacts LeafOps LeafSeq.

Section facts.
Context {K V : Type} (cmp : K -> K -> comparison) (T : total_order cmp).
Implicit Types (l : leaf K V) (e x : K * V) (es : list (K * V)).
Notation good := (good cmp).

Definition at_slot l (i : nat) e : Prop :=
  exists r, ranks (md l) !! i = Some r /\ live r = true /\ slots l !! i = Some (Some e).

Lemma at_slot_lt l i e : good l -> at_slot l i e -> i < 14.
Proof. intros G (r & H & _). apply lookup_lt_Some in H. by rewrite (co_len _ _ _ (good_co _ _ G)) in H. Qed.
Lemma at_slot_entry l i e : at_slot l i e -> entry_at (slots l) i = Some e.
Proof. intros (r & _ & _ & H). by apply entry_at_some. Qed.
Lemma at_slot_scan l i e : good l -> at_slot l i e -> e ∈ scan l.
Proof. intros G (r & H). apply (scan_elem cmp); [done|]. by exists i, r. Qed.
Lemma at_slot_split l i e : good l -> at_slot l i e -> exists es1 es2, scan l = es1 ++ e :: es2.
Proof. intros G H. by apply elem_of_list_split, (at_slot_scan l i). Qed.

(** Rank order is key order. *)
Lemma rank_key l i j r r' e x : good l -> ranks (md l) !! i = Some r -> ranks (md l) !! j = Some r' ->
  live r = true -> live r' = true -> slots l !! i = Some (Some e) -> slots l !! j = Some (Some x) ->
  cmp e.1 x.1 = Lt <-> r < r'.
Proof.
  intros G Hi Hj Li Lj He Hx. pose proof (good_co _ _ G) as C. split.
  - intros L. destruct (lt_eq_lt_dec r r') as [[H|E]|H]; [done| |].
    + subst r'. assert (i = j) as -> by (by eapply (co_inj _ _ _ C)). rewrite He in Hx. injection Hx as <-.
      by rewrite (cmp_refl cmp T) in L.
    + exfalso. eapply (cmp_asym cmp T); [exact L|]. by eapply (co_ord _ _ _ C j i).
  - intros H. by eapply (co_ord _ _ _ C i j).
Qed.
Lemma split_elem l es1 e es2 x : good l -> scan l = es1 ++ e :: es2 ->
  (x ∈ es1 <-> x ∈ scan l /\ cmp x.1 e.1 = Lt) /\ (x ∈ es2 <-> x ∈ scan l /\ cmp e.1 x.1 = Lt).
Proof.
  intros G S. pose proof (scan_asc cmp l G) as A. rewrite S in A. apply asc_app in A as (A1 & A2 & A3).
  apply asc_cons in A2 as [A2 A4]. rewrite S, elem_of_app, elem_of_cons. split; split.
  - intros H. split; [by left|]. apply A3; [done|]. apply elem_of_cons. by left.
  - intros [[H|[->|H]] L]; [done| |].
    + by rewrite (cmp_refl cmp T) in L.
    + exfalso. eapply (cmp_asym cmp T); [exact L|]. by apply A4.
  - intros H. split; [by right; right|]. by apply A4.
  - intros [[H|[->|H]] L]; [| |done].
    + exfalso. eapply (cmp_asym cmp T); [exact L|]. apply A3; [done|]. apply elem_of_cons. by left.
    + by rewrite (cmp_refl cmp T) in L.
Qed.

Lemma min_ge_spec l k : good l ->
  (min_greater_equal_slot cmp l k = 14 /\ forall e, e ∈ scan l -> cmp e.1 k = Lt) \/
  (exists e es1 es2, at_slot l (min_greater_equal_slot cmp l k) e /\ scan l = es1 ++ e :: es2 /\
     (forall x, x ∈ es1 -> cmp x.1 k = Lt) /\ cmp e.1 k <> Lt).
Proof.
  intros G. pose proof (good_co _ _ G) as C. unfold min_greater_equal_slot.
  pose proof (min_ge_loop_spec (ranks (md l)) (compare_at cmp (slots l) k) (co_le _ _ _ C) (co_inj _ _ _ C)
    (co_mono_lt cmp T _ _ k C) (co_mono_gt cmp T _ _ k C) (ranks (md l)) 0 0 removed_rank num_entries eq_refl
    (lo_0 _ _) (hi_15 _ _ _) (told_0 _ _ _ _) ltac:(by left)) as S.
  set (i := min_ge_loop _ _ _ _ _ _) in *. destruct S as [[-> S]|(rb & Hb & Lb & Cb & S)].
  - left. split; [done|]. intros e He. apply (scan_elem cmp) in He as (j & r & Hj & Lj & Hs); [|done].
    rewrite <-(compare_at_some cmp T _ k _ _ Hs). by eapply S.
  - right. destruct (co_init _ _ _ C _ _ Hb Lb) as [e He].
    assert (at_slot l i e) as At by (by exists rb).
    destruct (at_slot_split l i e G At) as (es1 & es2 & Sc). exists e, es1, es2. split; [done|]. split; [done|]. split.
    + intros x Hx. apply (split_elem l es1 e es2 x G Sc) in Hx as [Hx L].
      apply (scan_elem cmp) in Hx as (j & r & Hj & Lj & Hs); [|done].
      destruct (cmp x.1 k) eqn:E; [|done|]; exfalso; assert (rb <= r) as B;
        try (apply (S j r Hj Lj); by rewrite (compare_at_some cmp T _ k _ _ Hs), E);
        apply (rank_key l j i r rb x e) in L; auto; lia.
    + by rewrite <-(compare_at_some cmp T _ k _ _ He).
Qed.

Lemma max_less_spec l k : good l ->
  (max_less cmp l k = 14 /\ forall e, e ∈ scan l -> cmp e.1 k <> Lt) \/
  (exists e es1 es2, at_slot l (max_less cmp l k) e /\ scan l = es1 ++ e :: es2 /\
     cmp e.1 k = Lt /\ forall x, x ∈ es2 -> cmp x.1 k <> Lt).
Proof.
  intros G. pose proof (good_co _ _ G) as C. unfold max_less. rewrite max_less_loop_noeq.
  set (cf := fun j => match compare_at cmp (slots l) k j with Eq => Gt | c => c end).
  assert (forall j, cf j = Lt <-> compare_at cmp (slots l) k j = Lt) as E1.
  { intros j. unfold cf. by destruct (compare_at cmp (slots l) k j). }
  assert (forall j, cf j <> Eq) as NE by (intros j; unfold cf; by destruct (compare_at cmp (slots l) k j)).
  assert (forall i j r r', ranks (md l) !! i = Some r -> ranks (md l) !! j = Some r' -> live r = true -> live r' = true ->
    r < r' -> cf j <> Gt -> cf i = Lt) as M1.
  { intros i j r r' Hi Hj Li Lj L N. apply E1. eapply (co_mono_lt cmp T _ _ k C i j r r'); eauto.
    destruct (cf j) eqn:F; [by destruct (NE j)| |done]. apply E1 in F. by rewrite F. }
  assert (forall i j r r', ranks (md l) !! i = Some r -> ranks (md l) !! j = Some r' -> live r = true -> live r' = true ->
    r < r' -> cf i <> Lt -> cf j = Gt) as M2.
  { intros i j r r' Hi Hj Li Lj L N. unfold cf. rewrite (co_mono_gt cmp T _ _ k C i j r r' Hi Hj Li Lj L); [done|].
    intros F. by apply N, E1. }
  pose proof (max_less_loop_spec (ranks (md l)) cf (co_le _ _ _ C) (co_inj _ _ _ C) M1 M2
    (ranks (md l)) NE 0 0 removed_rank num_entries eq_refl
    (lo_0 _ _) (hi_15 _ _ _) (told_0 _ _ _ _) ltac:(by left)) as S.
  set (i := max_less_loop _ _ _ _ _ _) in *. destruct S as [[-> S]|(rb & Hb & Lb & Cb & S)].
  - left. split; [done|]. intros e He F. apply (scan_elem cmp) in He as (j & r & Hj & Lj & Hs); [|done].
    apply (S j r Hj Lj), E1. by rewrite (compare_at_some cmp T _ k _ _ Hs).
  - right. destruct (co_init _ _ _ C _ _ Hb Lb) as [e He].
    assert (at_slot l i e) as At by (by exists rb).
    destruct (at_slot_split l i e G At) as (es1 & es2 & Sc). exists e, es1, es2. split; [done|]. split; [done|]. split.
    + apply E1 in Cb. by rewrite (compare_at_some cmp T _ k _ _ He) in Cb.
    + intros x Hx F. apply (split_elem l es1 e es2 x G Sc) in Hx as [Hx L].
      apply (scan_elem cmp) in Hx as (j & r & Hj & Lj & Hs); [|done].
      assert (r <= rb) as B by (apply (S j r Hj Lj), E1; by rewrite (compare_at_some cmp T _ k _ _ Hs)).
      apply (rank_key l i j rb r e x) in L; auto. lia.
Qed.

Lemma max_entry_spec l : good l -> max_entry l = last (scan l).
Proof.
  intros G. pose proof (good_co _ _ G) as C. unfold max_entry.
  pose proof (max_loop_spec (ranks (md l)) (co_le _ _ _ C) (ranks (md l)) 0 0 num_entries eq_refl ltac:(by left) ltac:(lia)) as S.
  set (i := max_loop _ _ _ _) in *. destruct S as [[-> S]|(rb & Hb & Lb & S)].
  - cbn [Nat.eqb num_entries]. destruct (scan l) as [|x es] eqn:E; [done|]. exfalso.
    assert (x ∈ scan l) as Hx by (rewrite E; apply elem_of_cons; by left).
    apply (scan_elem cmp) in Hx as (j & r & Hj & Lj & _); [|done]. by rewrite (S _ _ Hj) in Lj.
  - destruct (co_init _ _ _ C _ _ Hb Lb) as [e He].
    assert (at_slot l i e) as At by (by exists rb).
    pose proof (at_slot_lt l i e G At) as Hi.
    assert (i =? num_entries = false) as -> by (apply Nat.eqb_neq; unfold num_entries; lia).
    rewrite (at_slot_entry l i e At). destruct (at_slot_split l i e G At) as (es1 & es2 & Sc).
    destruct es2 as [|x es2]; [by rewrite Sc, last_snoc|]. exfalso.
    assert (x ∈ x :: es2) as Hx by (apply elem_of_cons; by left).
    apply (split_elem l es1 e _ x G Sc) in Hx as [Hx L].
    apply (scan_elem cmp) in Hx as (j & r & Hj & Lj & Hs); [|done].
    apply (rank_key l i j rb r e x) in L; auto. pose proof (S _ _ Hj Lj). lia.
Qed.

Lemma is_empty_spec l : good l -> is_empty l = true <-> scan l = [].
Proof.
  intros G. unfold is_empty. rewrite no_live_spec. split.
  - intros H. destruct (scan l) as [|x es] eqn:E; [done|]. exfalso.
    assert (x ∈ scan l) as Hx by (rewrite E; apply elem_of_cons; by left).
    apply (scan_elem cmp) in Hx as (j & r & Hj & Lj & _); [|done]. by rewrite (H _ _ Hj) in Lj.
  - intros E j r Hj. apply not_true_is_false. intros L.
    destruct (co_init _ _ _ (good_co _ _ G) _ _ Hj L) as [e He].
    assert (e ∈ scan l) as X by (apply (scan_elem cmp); [done|]; by exists j, r). rewrite E in X. by apply elem_of_nil in X.
Qed.
Lemma retired_scan l : good l -> retired (md l) = true -> scan l = [].
Proof.
  intros G R. apply is_empty_spec; [done|]. unfold is_empty. apply no_live_spec. destruct G as [c W]. by apply (wi_ret _ _ _ _ W).
Qed.

Lemma scan_set_nodup es1 k (v v' : V) es2 : ascending cmp (es1 ++ (k, v) :: es2) -> ascending cmp (es1 ++ (k, v') :: es2).
Proof.
  rewrite !asc_app, !asc_cons. intros (A1 & [A2 A4] & A3). split; [done|]. split; [done|].
  intros x y Hx Hy. apply elem_of_cons in Hy as [->|Hy].
  - apply (A3 x (k, v)); [done|]. apply elem_of_cons. by left.
  - apply A3; [done|]. apply elem_of_cons. by right.
Qed.

(** Storing through the pointer in a slot. *)
Lemma set_slot_spec l i k v v' es1 es2 : good l -> at_slot l i (k, v) -> scan l = es1 ++ (k, v) :: es2 ->
  let l' := Leaf (md l) (<[i := Some (k, v')]> (slots l)) in
  good l' /\ scan l' = es1 ++ (k, v') :: es2 /\ at_slot l' i (k, v').
Proof.
  intros G (r & Hr & Lr & Hs) Sc l'. pose proof (good_co _ _ G) as C.
  assert (i < length (slots l)) as Hi by (by eapply lookup_lt_Some).
  assert (forall j e, slots l' !! j = Some (Some e) -> exists e', slots l !! j = Some (Some e') /\ e'.1 = e.1 /\ (j <> i -> e' = e)) as Inv.
  { intros j e H. cbn in H. destruct (decide (j = i)) as [->|N].
    - rewrite list_lookup_insert in H by done. injection H as <-. by exists (k, v).
    - rewrite list_lookup_insert_ne in H by done. by exists e. }
  assert (good l') as G'.
  { destruct G as [c W]. exists c. destruct W. split; auto. split; cbn; try apply C.
    - rewrite insert_length. apply C.
    - intros j r' Hj Lj. destruct (decide (j = i)) as [->|N].
      + exists (k, v'). by apply list_lookup_insert.
      + rewrite list_lookup_insert_ne by done. by eapply (co_init _ _ _ C).
    - intros j1 j2 r1 r2 e1 e2 H1 H2 L1 L2 He1 He2 L.
      destruct (Inv _ _ He1) as (x1 & X1 & <- & _). destruct (Inv _ _ He2) as (x2 & X2 & <- & _).
      by eapply (co_ord _ _ _ C j1 j2). }
  split; [done|]. split; [|exists r; repeat split; [done..|by apply list_lookup_insert]].
  apply (scan_eq cmp T); [by apply good_co|eapply scan_set_nodup; rewrite <-Sc; by apply scan_asc|].
  intros e. pose proof (scan_elem cmp l e G) as El. pose proof (scan_asc cmp l G) as A. rewrite Sc in A.
  apply asc_nodup in A; [|done]. rewrite fmap_app, fmap_cons in A. cbn in A.
  apply NoDup_app in A as (_ & A1 & A2). apply NoDup_cons in A2 as [A2 _].
  split.
  - intros He. apply elem_of_app in He as [He|He].
    + assert (e ∈ scan l) as (j & r' & Hj & Lj & Hx)%El by (rewrite Sc; apply elem_of_app; by left).
      exists j, r'. split; [done|]. split; [done|]. cbn. rewrite list_lookup_insert_ne; [done|].
      intros <-. rewrite Hs in Hx. injection Hx as <-. eapply A1; [by apply elem_of_list_fmap; exists (k, v)|]. by left.
    + apply elem_of_cons in He as [->|He].
      * exists i, r. repeat split; [done..|]. by apply list_lookup_insert.
      * assert (e ∈ scan l) as (j & r' & Hj & Lj & Hx)%El by (rewrite Sc; apply elem_of_app; right; by right).
        exists j, r'. split; [done|]. split; [done|]. cbn. rewrite list_lookup_insert_ne; [done|].
        intros <-. rewrite Hs in Hx. injection Hx as <-. apply A2. by apply elem_of_list_fmap; exists (k, v).
  - intros (j & r' & Hj & Lj & Hx). cbn in Hx. destruct (decide (j = i)) as [->|N].
    + rewrite list_lookup_insert in Hx by done. injection Hx as <-. apply elem_of_app. right. by left.
    + rewrite list_lookup_insert_ne in Hx by done.
      assert (e ∈ scan l) as He by (apply El; by exists j, r'). rewrite Sc in He.
      apply elem_of_app in He as [He|He]; [apply elem_of_app; by left|].
      apply elem_of_cons in He as [->|He]; [|apply elem_of_app; right; by right].
      exfalso. apply N. symmetry. by eapply (sstored_slot cmp T (md l) (slots l) i j r r').
Qed.

(** Insertion leaves the other slots in place. *)
Lemma insert_keeps l k v i e : good l -> (insert cmp l k v).2 = ISuccess -> at_slot l i e -> at_slot (insert cmp l k v).1 i e.
Proof.
  intros G. unfold insert. destruct (retired (md l)) eqn:Rt; [done|]. destruct (frozen (md l)) eqn:Fz; [done|].
  pose proof (first_uninit_0 (ranks (md l))) as F. destruct (first_uninit (ranks (md l)) 0) as [f|];
    [|by destruct (search_slot _ _ _ _)].
  destruct (post _ _ f) as [m'|] eqn:P; [|unfold rollback, rollback_result; cbn; by rewrite Rt, Fz].
  cbn [fst snd]. intros _ (r & Hr & Lr & Hs). destruct G as [c W]. pose proof (ex_intro _ c W : good l) as G.
  destruct (reserve_spec cmp c _ _ f (Some (k, v)) W F) as (W1 & Cf & S1).
  set (l1 := Leaf (augment (md l) f removed_rank) (<[f:=Some (k, v)]> (slots l))) in *.
  assert (f < length (ranks (md l))) as Hf by (by eapply lookup_lt_Some).
  assert (f < length (slots l)) as Hfs by (rewrite (co_slen _ _ _ (good_co _ _ G)), <-(co_len _ _ _ (good_co _ _ G)); done).
  assert (f <> i) as N by (intros ->; rewrite F in Hr; injection Hr as <-; done).
  pose proof (post_spec cmp T c (md l1) (slots l1) f k v W1 Rt ltac:(by apply list_lookup_insert) Cf ltac:(by apply list_lookup_insert)) as X.
  rewrite P in X. destruct X as (W2 & _ & _ & X & Nk & _).
  assert (sstored (md l1) (slots l1) e) as Se.
  { exists i, r. cbn. rewrite !list_lookup_insert_ne by done. done. }
  assert (sstored m' (slots l1) e) as (j & r' & Hj & Lj & Hx) by (apply X; by right).
  destruct (decide (j = i)) as [->|Nj]; [by exists r'|]. exfalso.
  (* then [i] and [j] hold the same entry in [l], or [j] is the new slot *)
  cbn in Hx. destruct (decide (j = f)) as [->|Njf].
  { rewrite list_lookup_insert in Hx by done. injection Hx as <-. by eapply Nk. }
  rewrite list_lookup_insert_ne in Hx by done.
  destruct X with (e := e) as [_ _].
  assert (c !! j = Some true) as Cj.
  { destruct (wi_live _ _ _ _ W2 _ _ Hj Lj) as [Cj _]. by rewrite list_lookup_insert_ne in Cj by done. }
  (* the ranks of other slots are live in both or unchanged *)
  destruct (post_spec cmp T c (md l1) (slots l1) f k v W1 Rt ltac:(by apply list_lookup_insert) Cf ltac:(by apply list_lookup_insert)) as (_ & _ & _ & _ & _ & U)
    || pose proof (post_spec cmp T c (md l1) (slots l1) f k v W1 Rt ltac:(by apply list_lookup_insert) Cf ltac:(by apply list_lookup_insert)) as U0.
  rewrite P in U0. destruct U0 as (_ & _ & _ & _ & _ & U).
  destruct (U j Njf) as [(rj & Hrj & Lrj)|E].
  - cbn in Hrj. rewrite list_lookup_insert_ne in Hrj by done. apply Nj.
    by eapply (sstored_slot cmp T (md l) (slots l) j i rj r e e (good_co _ _ G)).
  - rewrite E in Hj. cbn in Hj. rewrite list_lookup_insert_ne in Hj by done. apply Nj.
    by eapply (sstored_slot cmp T (md l) (slots l) j i r' r e e (good_co _ _ G)).
Qed.

(** Removing a range: exactly its entries go. *)
Lemma scan_slot_fun l i e x : at_slot l i e -> at_slot l i x -> e = x.
Proof. intros (r & _ & _ & H) (r' & _ & _ & H'). congruence. Qed.
Lemma same_key_entry l e x : good l -> e ∈ scan l -> x ∈ scan l -> e.1 = x.1 -> e = x.
Proof.
  intros G He Hx E. destruct e as [k v], x as [k' v']. cbn in E. subst k'. f_equal.
  apply (scan_elem cmp) in He; [|done]. apply (scan_elem cmp) in Hx; [|done].
  by eapply (sstored_fun cmp T (md l) (slots l) k v v' (good_co _ _ G)).
Qed.
Lemma remove_any_scan l k : good l -> frozen (md l) = false ->
  forall e, e ∈ scan (remove_if cmp l k (fun _ => true)).1 <-> e ∈ scan l /\ e.1 <> k.
Proof.
  intros G Fz e. destruct (remove_if_spec cmp T l k (fun _ => true) G) as (G' & F' & Sp).
  set (l' := (remove_if cmp l k (fun _ => true)).1) in *.
  pose proof (scan_asc cmp l G) as A.
  destruct (remove_if cmp l k (fun _ => true)).2.
  - destruct Sp as (_ & _ & _ & Sp & _). rewrite Sp. by apply odel_elem.
  - destruct Sp as (_ & _ & _ & Sp & _). rewrite Sp. by apply odel_elem.
  - destruct Sp as (_ & El & Sp). rewrite El. split; [|by intros [? _]]. intros He. split; [done|]. intros E.
    destruct e as [k' v]. cbn in E. subst k'. apply (oget_some cmp T) in He; [|done]. by apply Sp in He.
  - destruct Sp as [Sp _]. congruence.
Qed.

Lemma remove_range_loop_spec r l0 rs : forall i l, rs = drop i (ranks (md l0)) -> good l0 -> good l ->
  frozen (md l) = false -> slots l = slots l0 ->
  (forall e, e ∈ scan l <-> e ∈ scan l0 /\ ~ (range_contains cmp r e.1 = true /\ exists j, j < i /\ at_slot l0 j e)) ->
  let l' := remove_range_loop cmp r rs i l in
  good l' /\ frozen (md l') = false /\ forall e, e ∈ scan l' <-> e ∈ scan l0 /\ range_contains cmp r e.1 = false.
Proof.
  induction rs as [|rk rs IH]; intros i l E0 G0 G Fz Sl Sc; cbn [remove_range_loop].
  - split; [done|]. split; [done|]. intros e. rewrite Sc. split.
    + intros [He N]. split; [done|]. apply not_true_is_false. intros R. apply N. split; [done|].
      apply (scan_elem cmp) in He as (j & r' & Hj & Lj & Hs); [|done]. exists j. split; [|by exists r'].
      destruct (decide (j < i)) as [|Ge]; [done|]. exfalso.
      assert (drop i (ranks (md l0)) !! (j - i) = Some r') as X by (rewrite lookup_drop; by replace (i + (j - i)) with j by lia).
      by rewrite <-E0 in X.
    + intros [He R]. split; [done|]. intros [R' _]. congruence.
  - symmetry in E0. apply drop_cons_inv in E0 as [Hrk Ers]. destruct (live rk) eqn:Lk.
    + destruct (co_init _ _ _ (good_co _ _ G0) _ _ Hrk Lk) as [e He].
      assert (at_slot l0 i e) as At by (by exists rk). rewrite Sl, (at_slot_entry l0 i e At).
      destruct (range_contains cmp r e.1) eqn:Re.
      * destruct (remove_if_spec cmp T l e.1 (fun _ => true) G) as (G' & F' & _). apply IH; [done..|by rewrite F'| |].
        { rewrite <-Sl. unfold remove_if. destruct (frozen (md l)); [done|]. destruct (search_slot _ _ _ _); [|done].
          by destruct (entry_at _ _). }
        intros x. rewrite remove_any_scan by done. rewrite Sc. split.
        -- intros [[Hx N] Ne]. split; [done|]. intros (Rx & j & Hj & Aj). destruct (decide (j = i)) as [->|Nj].
           ++ apply Ne. by rewrite (scan_slot_fun _ _ _ _ At Aj).
           ++ apply N. split; [done|]. exists j. split; [lia|done].
        -- intros [Hx N]. split; [split; [done|]|].
           ++ intros (Rx & j & Hj & Aj). apply N. split; [done|]. exists j. split; [lia|done].
           ++ intros Ek. apply N. rewrite Ek. split; [done|]. exists i. split; [lia|].
              assert (x = e) as ->; [|done]. eapply (same_key_entry l0); [done|done|by eapply at_slot_scan|done].
      * apply IH; [done..|]. intros x. rewrite Sc. split; intros [Hx N]; (split; [done|]); intros (Rx & j & Hj & Aj); apply N;
          (split; [done|]); exists j; (split; [|done]); [|lia].
        destruct (decide (j = i)) as [->|Nj]; [|lia]. rewrite <-(scan_slot_fun _ _ _ _ At Aj) in Rx. congruence.
    + apply IH; [done..|]. intros x. rewrite Sc. split; intros [Hx N]; (split; [done|]); intros (Rx & j & Hj & Aj); apply N;
        (split; [done|]); exists j; (split; [|done]); [|lia].
      destruct (decide (j = i)) as [->|Nj]; [|lia]. destruct Aj as (r' & Hr' & Lr' & _). rewrite Hrk in Hr'. injection Hr' as <-. congruence.
Qed.
Lemma remove_range_spec r l : good l -> frozen (md l) = false ->
  good (remove_range cmp l r) /\ frozen (md (remove_range cmp l r)) = false /\
  scan (remove_range cmp l r) = List.filter (fun e => negb (range_contains cmp r e.1)) (scan l).
Proof.
  intros G Fz. unfold remove_range. destruct (remove_range_loop_spec r l (ranks (md l)) 0 l) as (G' & F' & S'); [done..| |].
  { intros e. split; [|by intros [? _]]. intros He. split; [done|]. intros (_ & j & Hj & _). lia. }
  split; [done|]. split; [done|].
  eapply (asc_ext cmp T); [by apply scan_asc|by apply asc_filter, scan_asc|].
  intros e. rewrite S', !elem_of_list_In, filter_In, negb_true_iff. done.
Qed.

(** The scanner. *)
Lemma scan_rest l i e es1 es2 : good l -> at_slot l i e -> scan l = es1 ++ e :: es2 ->
  scan_from 15 (md l) (slots l) i = es2.
Proof.
  intros G At Sc. pose proof (good_co _ _ G) as C. pose proof (at_slot_lt l i e G At) as Hi.
  destruct At as (r & Hr & Lr & Hs).
  destruct (scan_from_spec cmp (md l) (slots l) C 15 i r) as [A El].
  { assert (i =? 14 = false) as -> by (apply Nat.eqb_neq; lia). by rewrite (nth_lookup_Some _ _ 0 _ Hr). }
  { right. by exists r. } { lia. }
  eapply (asc_ext cmp T); [done| |].
  { pose proof (scan_asc cmp l G) as A2. rewrite Sc in A2. apply asc_app in A2 as (_ & A2 & _). by apply asc_cons in A2 as [? _]. }
  intros x. rewrite El. destruct (split_elem l es1 e es2 x G Sc) as [_ ->]. rewrite (scan_elem cmp) by done. split.
  - intros (j & r' & Hj & Lj & Lt_ & Hx). split; [by exists j, r'|]. by apply (rank_key l i j r r' e x).
  - intros [(j & r' & Hj & Lj & Hx) L]. exists j, r'. split; [done|]. split; [done|]. split; [|done].
    by apply (rank_key l i j r r' e x).
Qed.
Lemma next_none l i : good l -> (i = 14 /\ scan l = [] \/ exists e es1, at_slot l i e /\ scan l = es1 ++ [e]) -> next i (md l) = 14.
Proof.
  intros G H. assert (scan_from 15 (md l) (slots l) i = []) as E.
  { destruct H as [[-> H]|(e & es1 & At & Sc)]; [done|]. by eapply scan_rest. }
  assert (i = 14 \/ (exists r, ranks (md l) !! i = Some r /\ live r = true)) as Hi.
  { destruct H as [[-> _]|(e & es1 & (r & ? & ? & _) & _)]; [by left|right; by exists r]. }
  pose proof (next_spec (md l) i (co_len _ _ _ (good_co _ _ G)) (co_le _ _ _ (good_co _ _ G)) Hi) as N.
  cbn [scan_from] in E. destruct (next i (md l) =? num_entries) eqn:En; [by apply Nat.eqb_eq in En|].
  destruct N as [[N _]|(r & Hr & Lr & _)]; [done|]. exfalso.
  destruct (co_init _ _ _ (good_co _ _ G) _ _ Hr) as [x Hx]; [done|]. apply entry_at_some in Hx. by rewrite Hx in E.
Qed.
Lemma next_some l i x es : good l -> scan_from 15 (md l) (slots l) i = x :: es ->
  (i = 14 \/ exists e, at_slot l i e) -> at_slot l (next i (md l)) x /\ next i (md l) <> 14.
Proof.
  intros G E H.
  assert (i = 14 \/ (exists r, ranks (md l) !! i = Some r /\ live r = true)) as Hi.
  { destruct H as [->|(e & r & ? & ? & _)]; [by left|right; by exists r]. }
  pose proof (next_spec (md l) i (co_len _ _ _ (good_co _ _ G)) (co_le _ _ _ (good_co _ _ G)) Hi) as N.
  cbn [scan_from] in E. destruct (next i (md l) =? num_entries) eqn:En; [done|].
  apply Nat.eqb_neq in En. destruct N as [[N _]|(r & Hr & Lr & _)]; [done|].
  destruct (entry_at (slots l) (next i (md l))) as [y|] eqn:Ey; [|done].
  assert (y = x) as -> by congruence. split; [|done]. exists r. apply entry_at_some in Ey. done.
Qed.
End facts.
