(** Insertion in a tree. *)
From stdpp Require Import prelude list sorting.
From Verif Require Import LeafModel LeafSpec LeafFacts OrdFacts LeafOps LeafSeq TreeLeaf TreeModel TreeHeap TreeLink TreeSplit TreeShape.
Opaque scan fill.

Section facts.
Context {K V : Type} (cmp : K -> K -> comparison) (T : total_order cmp).
Implicit Types (h : heap K V) (l : leaf K V) (L A B : list (option K * nat)) (i : nat) (s u : option K).
Notation good := (good cmp). Notation core := (core cmp). Notation leaf_ok := (leaf_ok cmp). Notation prior := (prior cmp).
Notation below := (below cmp). Notation kle := (kle cmp). Notation klt := (klt cmp). Notation kwf := (kwf cmp).

(** ** The heap operations of a split *)
Lemma alloc_l h l i : i < length h -> alloc h l !! i = h !! i.
Proof. intros H. by apply lookup_app_l. Qed.
Lemma alloc_r h l : alloc h l !! length h = Some (Cell l None TNone).
Proof. unfold alloc. by apply list_lookup_middle. Qed.
Lemma alloc_len h l : length (alloc h l) = S (length h).
Proof. unfold alloc. rewrite app_length. cbn. lia. Qed.
Lemma push_back_cells h i j ci cj : h !! i = Some ci -> c_tag ci <> TSecond -> h !! j = Some cj -> i <> j ->
  push_back h i j !! i = Some (Cell (c_leaf ci) (Some j) TFirst) /\
  push_back h i j !! j = Some (Cell (c_leaf cj) (c_next ci) TNone) /\
  (forall a, a <> i -> a <> j -> push_back h i j !! a = h !! a).
Proof.
  intros Hi Ti Hj N. unfold push_back. rewrite Hi.
  assert (match c_tag ci with TSecond => h | _ => set_link (set_link h j (c_next ci) TNone) i (Some j) TFirst end =
    set_link (set_link h j (c_next ci) TNone) i (Some j) TFirst) as -> by (by destruct (c_tag ci)).
  assert (set_link h j (c_next ci) TNone !! i = Some ci) as Hi' by (by rewrite set_link_ne).
  split; [by rewrite (set_link_lookup _ _ _ _ _ Hi')|]. split.
  - rewrite set_link_ne by done. by apply set_link_lookup.
  - intros a Ni Nj. by rewrite !set_link_ne.
Qed.
Definition with_flag l (b : bool) : leaf K V := Leaf (Meta (ranks (md l)) b (retired (md l))) (slots l).
Lemma freeze_cells h i c : h !! i = Some c ->
  freeze_leaf h i !! i = Some (Cell (with_flag (c_leaf c) true) (c_next c) (c_tag c)) /\
  (forall a, a <> i -> freeze_leaf h i !! a = h !! a).
Proof.
  intros H. unfold freeze_leaf. rewrite (leaf_at_lookup _ _ _ H). split; [by rewrite (set_leaf_lookup _ _ _ _ H)|].
  intros a N. by apply set_leaf_ne.
Qed.
Lemma thaw_cells h i c : h !! i = Some c ->
  thaw_leaf h i !! i = Some (Cell (with_flag (c_leaf c) false) (c_next c) (c_tag c)) /\
  (forall a, a <> i -> thaw_leaf h i !! a = h !! a).
Proof.
  intros H. unfold thaw_leaf. rewrite (leaf_at_lookup _ _ _ H). split; [by rewrite (set_leaf_lookup _ _ _ _ H)|].
  intros a N. by apply set_leaf_ne.
Qed.
Lemma with_flag_id l : frozen (md l) = false -> with_flag l false = l.
Proof. intros F. unfold with_flag. destruct l as [[r f t] ss]. cbn in *. by subst. Qed.
Lemma with_flag_twice l b b' : with_flag (with_flag l b) b' = with_flag l b'.
Proof. done. Qed.

Section split.
Variables (h : heap K V) (id : nat) (c : cell K V) (fz lo hl : leaf K V).
Hypotheses (Hid : h !! id = Some c) (Tg : c_tag c <> TSecond) (Flo : frozen (md lo) = false) (Fhl : frozen (md hl) = false).
Let n := length h.
Let h1 := set_leaf h id fz.
Lemma h1_len : length h1 = n.
Proof. unfold h1, set_leaf. rewrite Hid. apply insert_length. Qed.
Lemma id_lt : id < n.
Proof. by eapply lookup_lt_Some. Qed.

Lemma split_one : split1 h (delete_self (push_back (alloc h1 lo) id n) id) id c fz lo.
Proof.
  pose proof id_lt as Li. pose proof h1_len as Ln.
  assert (alloc h1 lo !! id = Some (Cell fz (c_next c) (c_tag c))) as E1.
  { rewrite alloc_l by lia. by apply set_leaf_lookup. }
  assert (alloc h1 lo !! n = Some (Cell lo None TNone)) as E2.
  { rewrite <-Ln. apply alloc_r. }
  destruct (push_back_cells _ id n _ _ E1 Tg E2 ltac:(lia)) as (P1 & P2 & P3). cbn in P1, P2.
  split.
  - by rewrite (delete_self_lookup _ _ _ P1).
  - rewrite delete_self_ne by lia. done.
  - intros j Nj Lj. rewrite delete_self_ne by done. rewrite P3 by (unfold n in *; lia).
    rewrite alloc_l by (unfold n in *; lia). by apply set_leaf_ne.
Qed.

Let h3 := freeze_leaf (push_back (push_back (alloc (alloc h1 lo) hl) id (S n)) id n) n.
Lemma h3_cells : h3 !! id = Some (Cell fz (Some n) TFirst) /\ h3 !! n = Some (Cell (with_flag lo true) (Some (S n)) TNone) /\
  h3 !! S n = Some (Cell hl (c_next c) TNone) /\ forall j, j <> id -> j < n -> h3 !! j = h !! j.
Proof.
  pose proof id_lt as Li. pose proof h1_len as Ln. unfold h3. set (h2 := alloc (alloc h1 lo) hl).
  assert (length (alloc h1 lo) = S n) as Ln2 by (rewrite alloc_len; lia).
  assert (h2 !! id = Some (Cell fz (c_next c) (c_tag c))) as E1.
  { unfold h2. rewrite !alloc_l by lia. by apply set_leaf_lookup. }
  assert (h2 !! n = Some (Cell lo None TNone)) as E2.
  { unfold h2. rewrite alloc_l by lia. rewrite <-Ln. apply alloc_r. }
  assert (h2 !! S n = Some (Cell hl None TNone)) as E3.
  { unfold h2. rewrite <-Ln2. apply alloc_r. }
  destruct (push_back_cells h2 id (S n) _ _ E1 Tg E3 ltac:(lia)) as (P1 & P2 & P3). cbn in P1, P2.
  assert (push_back h2 id (S n) !! n = Some (Cell lo None TNone)) as E4 by (rewrite P3 by lia; done).
  destruct (push_back_cells _ id n _ _ P1 ltac:(done) E4 ltac:(lia)) as (Q1 & Q2 & Q3). cbn in Q1, Q2.
  destruct (freeze_cells _ n _ Q2) as [F1 F2]. cbn in F1. split; [rewrite F2 by lia; done|]. split; [done|].
  split; [rewrite F2, Q3 by lia; done|]. intros j Nj Lj. rewrite F2, Q3, P3 by lia. unfold h2.
  rewrite !alloc_l by lia. by apply set_leaf_ne.
Qed.
Lemma split_two_now : split2 h (thaw_leaf (delete_self h3 id) n) id c fz lo hl.
Proof.
  pose proof id_lt as Li. destruct h3_cells as (C1 & C2 & C3 & C4).
  assert (delete_self h3 id !! n = Some (Cell (with_flag lo true) (Some (S n)) TNone)) as D2 by (rewrite delete_self_ne by lia; done).
  destruct (thaw_cells _ n _ D2) as [T1 T2]. cbn [c_leaf c_next c_tag] in T1. rewrite with_flag_twice, with_flag_id in T1 by done.
  split.
  - rewrite T2 by lia. by rewrite (delete_self_lookup _ _ _ C1).
  - exact T1.
  - rewrite T2 by (unfold n; lia). rewrite delete_self_ne by (unfold n in *; lia). exact C3.
  - intros j Nj Lj. rewrite T2 by (unfold n; lia). rewrite delete_self_ne by done. by apply C4.
Qed.
Lemma split_two_later : split2 h (commit (freeze_leaf h3 (S n)) (id, n, S n)) id c fz lo hl.
Proof.
  pose proof id_lt as Li. destruct h3_cells as (C1 & C2 & C3 & C4). unfold commit. cbn [fst snd].
  destruct (freeze_cells _ _ _ C3) as [F1 F2]. cbn in F1. set (h4 := freeze_leaf h3 (S n)) in *.
  assert (h4 !! id = Some (Cell fz (Some n) TFirst)) as E1 by (rewrite F2 by lia; done).
  assert (delete_self h4 id !! n = Some (Cell (with_flag lo true) (Some (S n)) TNone)) as E2.
  { rewrite delete_self_ne, F2 by lia. done. }
  destruct (thaw_cells _ n _ E2) as [T1 T2]. cbn [c_leaf c_next c_tag] in T1. rewrite with_flag_twice, with_flag_id in T1 by done.
  set (h5 := thaw_leaf (delete_self h4 id) n) in *.
  assert (h5 !! S n = Some (Cell (with_flag hl true) (c_next c) TNone)) as E3.
  { rewrite T2 by lia. rewrite delete_self_ne by lia. done. }
  destruct (thaw_cells _ (S n) _ E3) as [U1 U2]. cbn [c_leaf c_next c_tag] in U1. rewrite with_flag_twice, with_flag_id in U1 by done.
  split.
  - rewrite U2, T2 by lia. by rewrite (delete_self_lookup _ _ _ E1).
  - rewrite U2 by (unfold n; lia). exact T1.
  - exact U1.
  - intros j Nj Lj. rewrite U2, T2 by (unfold n; lia). rewrite delete_self_ne by done. rewrite F2 by (unfold n; lia). by apply C4.
Qed.
End split.

(** ** Insertion *)
(** The whole list of leaves: well-formed and linked. *)
Definition linked h L : Prop := core h L /\ seg h L.*2 None.
(** The leaf for [k] takes an insertion. *)
Definition roomy l : Prop := frozen (md l) = false /\ retired (md l) = false /\ ~ full (md l).
Definition ready h L (k : K) : Prop :=
  exists A s i B, L = A ++ (s, i) :: B /\ below A k /\ kle k s /\ roomy (leaf_at h i).
Lemma routed_unique L A s i B A' s' i' B' k : L = A ++ (s, i) :: B -> L = A' ++ (s', i') :: B' ->
  below A k -> kle k s -> below A' k -> kle k s' -> A = A' /\ s = s' /\ i = i' /\ B = B'.
Proof.
  intros E E' Bl Lk Bl' Lk'. rewrite E in E'. clear E.
  assert (forall X, below X k -> (s, i) ∉ X) as N1.
  { intros X H Hx. destruct (H _ Hx) as (ka & Ea & L1). cbn in Ea. subst s. cbn in Lk. by apply (cmp_gt cmp T) in L1. }
  assert (forall X, below X k -> (s', i') ∉ X) as N2.
  { intros X H Hx. destruct (H _ Hx) as (ka & Ea & L1). cbn in Ea. subst s'. cbn in Lk'. by apply (cmp_gt cmp T) in L1. }
  apply app_eq_app in E' as (M & [[-> E]|[-> E]]); destruct M as [|m M]; cbn in E.
  - injection E as -> -> ->. by rewrite app_nil_r.
  - injection E as <- ->. exfalso. apply (N2 _ Bl). apply elem_of_app. right. by left.
  - injection E as -> -> ->. by rewrite app_nil_r.
  - injection E as <- ->. exfalso. apply (N1 _ Bl'). apply elem_of_app. right. by left.
Qed.

Lemma insert_roomy l k v : good l -> roomy l -> (insert cmp l k v).2 = ISuccess \/ (insert cmp l k v).2 = IDuplicate.
Proof.
  intros G (F & R & N). destruct (insert_spec cmp T l k v G) as (_ & _ & _ & I).
  destruct ((insert cmp l k v).2); [by left|by right|..]; exfalso.
  - by destruct I as (_ & _ & _ & _ & I).
  - destruct I as [I _]. congruence.
  - destruct I as [I _]. congruence.
Qed.

(** What a successful or duplicate insertion at the leaf does. *)
Lemma leaf_insert_ok h A s i B k v r : linked h (A ++ (s, i) :: B) -> below A k -> kle k s ->
  (insert cmp (leaf_at h i) k v).2 = r -> (r = ISuccess \/ r = IDuplicate) ->
  let h' := set_leaf h i (insert cmp (leaf_at h i) k v).1 in
  linked h' (A ++ (s, i) :: B) /\
  (r = ISuccess -> k ∉ (fents h (A ++ (s, i) :: B)).*1 /\ fents h' (A ++ (s, i) :: B) = oput cmp (fents h (A ++ (s, i) :: B)) k v) /\
  (r = IDuplicate -> k ∈ (fents h (A ++ (s, i) :: B)).*1 /\ fents h' (A ++ (s, i) :: B) = fents h (A ++ (s, i) :: B)).
Proof.
  intros [C Sg] Bl Lk Er Hr h'. pose proof (core_at _ _ _ _ _ C) as O. pose proof (ok_good _ _ _ O) as G. cbn in G.
  pose proof (ok_unfrozen _ _ _ O) as F. cbn in F.
  destruct (insert_spec cmp T (leaf_at h i) k v G) as (G' & F' & _ & I). rewrite Er in I.
  set (l' := (insert cmp (leaf_at h i) k v).1) in *.
  destruct (core_around cmp T h A s i B k C Bl Lk) as [H1 H2].
  assert (forall e, e ∈ scan l' -> kle e.1 s /\ below A e.1) as Ks.
  { destruct O as (c & Hc & _ & _ & _ & Ks). cbn in Ks.
    assert (forall e, e ∈ scan (leaf_at h i) -> kle e.1 s /\ below A e.1) as Old.
    { intros e He. split; [by apply Ks|]. intros a Ha. apply core_app in C as (_ & _ & P).
      destruct (P a (s, i) Ha) as [_ (ka & Ea & _ & Hk)]; [by left|]. exists ka. split; [done|]. by apply Hk. }
    intros e He. destruct Hr as [->| ->].
    - destruct I as (_ & _ & Nk & Sc). rewrite Sc in He. apply (oput_elem cmp T) in He as [->|He]; [done|auto|by apply scan_asc|done].
    - destruct I as (_ & _ & _ & Sc). rewrite Sc in He. auto. }
  assert (core h' (A ++ (s, i) :: B)) as C'.
  { apply (core_set cmp); [done|done| |done]. by rewrite F'. }
  split; [split; [done|by apply seg_set_leaf]|].
  assert (fents h (A ++ (s, i) :: B) = fents h A ++ scan (leaf_at h i) ++ fents h B) as E0 by (by rewrite fents_app, fents_cons).
  assert (fents h' (A ++ (s, i) :: B) = fents h A ++ scan l' ++ fents h B) as E1 by (by apply (fents_set cmp)).
  rewrite E0, E1. split; intros ->.
  - destruct I as (_ & _ & Nk & Sc). rewrite (key_mid cmp T) by done. rewrite Sc, (oput_mid cmp T) by done. done.
  - destruct I as (_ & _ & Nk & Sc). rewrite (key_mid cmp T) by done. rewrite Sc. done.
Qed.

(** The leaf is replaced by its halves. *)
Definition halves h h' A s i B L' (k : K) : Prop :=
  linked h' L' /\ fents h' L' = fents h (A ++ (s, i) :: B) /\ ready h' L' k.

Lemma distribute_split h A s i B k : linked h (A ++ (s, i) :: B) -> below A k -> kle k s ->
  match distribute (leaf_at h i) with
  | (fz, lo, None) =>
    halves h (delete_self (push_back (alloc (set_leaf h i fz) lo) i (length h)) i) A s i B (A ++ (s, length h) :: B) k
  | (fz, lo, Some hl) => exists e, max_entry lo = Some e /\ klt e.1 s /\ below A e.1 /\
    let h3 := freeze_leaf (push_back (push_back (alloc (alloc (set_leaf h i fz) lo) hl) i (S (length h))) i (length h)) (length h) in
    let L' := A ++ (Some e.1, length h) :: (s, S (length h)) :: B in
    halves h (thaw_leaf (delete_self h3 i) (length h)) A s i B L' k /\
    halves h (commit (freeze_leaf h3 (S (length h))) (i, length h, S (length h))) A s i B L' k
  end.
Proof.
  intros [C Sg] Bl Lk. pose proof (core_at _ _ _ _ _ C) as (c & Hc & G & F & Tg & Ks). cbn in Hc.
  rewrite (leaf_at_lookup _ _ _ Hc). pose proof (distribute_spec cmp T (c_leaf c) G) as D.
  destruct (distribute (c_leaf c)) as [[fz lo] [hl|]].
  - destruct D as (_ & _ & _ & _ & Glo & Flo & Rlo & Nlo & Ghi & Fhi & Rhi & Nhi & NEhi & NElo & Sc).
    rewrite (max_entry_spec cmp T lo Glo). destruct (last (scan lo)) as [e|] eqn:El; [|by apply last_None in El].
    exists e. split; [done|].
    assert (forall h', split2 h h' i c fz lo hl -> halves h h' A s i B (A ++ (Some e.1, length h) :: (s, S (length h)) :: B) k) as Hv.
    { intros h' S2. destruct (split2_spec cmp T h h' A s i B c fz lo hl e.1 e C Sg Hc S2 Glo Ghi Flo Fhi Sc NEhi El eq_refl) as (C' & Sg' & Ef).
      split; [done|]. split; [done|]. destruct S2 as [Si Slo Shi So].
      destruct (cmp k e.1) eqn:Ck.
      1,2: exists A, (Some e.1), (length h), ((s, S (length h)) :: B); split; [done|]; split; [done|];
        split; [cbn; by rewrite Ck|]; rewrite (leaf_at_lookup _ _ _ Slo); done.
      exists (A ++ [(Some e.1, length h)]), s, (S (length h)), B. rewrite <-app_assoc. split; [done|]. split.
      - apply below_app. split; [done|]. intros a Ha. apply elem_of_list_singleton in Ha as ->. exists e.1. split; [done|]. by apply (cmp_gt cmp T).
      - split; [done|]. rewrite (leaf_at_lookup _ _ _ Shi). done. }
    pose proof (split_two_now h i c fz lo hl Hc Tg Flo) as S2.
    destruct (Hv _ S2) as ((C' & _) & _ & _).
    apply core_app in C' as (_ & C' & PA). apply core_cons in C' as (_ & _ & PB).
    split; [|split; [|split; [by apply Hv|]]].
    + destruct (PB (s, S (length h))) as [_ (k' & E' & Lt_ & _)]; [by left|]. cbn in E'. by injection E' as <-.
    + intros a Ha. destruct (PA a (Some e.1, length h) Ha) as [_ (k' & E' & Lt_ & _)]; [by left|]. by exists k'.
    + apply Hv. by apply split_two_later.
  - destruct D as (_ & _ & _ & _ & Glo & Flo & Rlo & Nlo & Sc).
    pose proof (split_one h i c fz lo Hc Tg) as S1.
    destruct (split1_spec cmp h _ A s i B c fz lo C Sg Hc S1 Glo Flo Sc) as (C' & Sg' & Ef).
    split; [done|]. split; [done|]. exists A, s, (length h), B. split; [done|]. split; [done|]. split; [done|].
    destruct S1 as [_ Slo _]. rewrite (leaf_at_lookup _ _ _ Slo). done.
Qed.

(** The result of an insertion in a node. *)
Definition ins_ok (d : nat) u (A B : list (option K * nat)) h (n : tree K d) (k : K) (v : V)
  (z : heap K V * tree K d * nres K (kid K d)) : Prop :=
  let L := A ++ flat d u n ++ B in
  let '(h', n', r) := z in
  let L' := A ++ flat d u n' ++ B in
  kwf (S d) n' /\
  match r with
  | NSuccess => linked h' L' /\ k ∉ (fents h L).*1 /\ fents h' L' = oput cmp (fents h L) k v
  | NDuplicate => linked h' L' /\ k ∈ (fents h L).*1 /\ fents h' L' = fents h L
  | NFull op => op_ok cmp (kwf d) n' op /\ ~ ready h L k /\
      let h'' := commit h' (so_leaves op) in
      let L'' := A ++ opflat cmp d u n' op ++ B in
      linked h'' L'' /\ fents h'' L'' = fents h L /\ ready h'' L'' k
  | _ => False
  end.

Lemma kbelow_below d X k : kbelow cmp X k -> (forall p, p ∈ X -> kwf d p.2) ->
  forall h, core h (gflat (kflat d) X) -> below (gflat (kflat d) X) k.
Proof.
  intros Bl W. induction X as [|[s c] X IH]; intros h C.
  - intros a Ha. by apply elem_of_nil in Ha.
  - rewrite gflat_cons in *. apply below_app. destruct (kflat_last cmp d s c) as (F & i & E); [by apply (W (s, c)); left|].
    destruct (Bl (s, c)) as (ks & Es & Ls); [by left|]. cbn in Es. subst s. apply core_app in C as (C & C2 & _). split.
    + rewrite E in *. apply below_app. split.
      * intros a Ha. apply core_app in C as (_ & _ & P). destruct (P a (Some ks, i) Ha) as [_ (ka & Ea & La & _)]; [by left|].
        exists ka. split; [done|]. cbn in La. by eapply (cmp_trans cmp T).
      * intros a Ha. apply elem_of_list_singleton in Ha as ->. by exists ks.
    + apply (IH ltac:(intros a Ha; apply Bl; by right) ltac:(intros p Hp; apply W; by right) h C2).
Qed.

(** Lists of leaves as the recursion sees them. *)
Lemma linked_eq h L L' : L = L' -> linked h L -> linked h L'.
Proof. by intros ->. Qed.
Lemma ins_ok_trans d u A B h h' (n n' : tree K d) k v z :
  fents h' (A ++ flat d u n' ++ B) = fents h (A ++ flat d u n ++ B) -> ready h' (A ++ flat d u n' ++ B) k ->
  ins_ok d u A B h' n' k v z -> ins_ok d u A B h n k v z.
Proof.
  intros E R. destruct z as [[h2 n2] r]. unfold ins_ok. rewrite E. intros [W H]. split; [done|].
  destruct r; try done. by destruct H as (_ & H & _).
Qed.
Lemma flat0 u (n : tree K 0) : flat 0 u n = ukids u n.
Proof.
  unfold flat, gflat. set (X := ukids u n). clearbody X. induction X as [|[s i] X IH]; cbn; [done|]. f_equal. exact IH.
Qed.
Lemma gflat0 (X : list (option K * nat)) : gflat (kflat (K:=K) 0) X = X.
Proof. unfold gflat. induction X as [|[s i] X IH]; cbn; [done|]. f_equal. exact IH. Qed.

(** Routing. *)
Lemma route d u A B h (n : tree K d) k : kwf (S d) n -> linked h (A ++ flat d u n ++ B) -> below A k -> kle k u ->
  exists p c X s Y, pick cmp n k = (p, To c) /\ place n u p s c X Y /\ kbelow cmp X k /\ kle k s /\ kwf d c /\
    flat d u n = gflat (kflat d) X ++ kflat d s c ++ gflat (kflat d) Y /\
    A ++ flat d u n ++ B = (A ++ gflat (kflat d) X) ++ kflat d s c ++ (gflat (kflat d) Y ++ B) /\
    below (A ++ gflat (kflat d) X) k.
Proof.
  intros W [C _] Bl Lk. destruct (pick_spec cmp T (kwf d) n u k W Lk) as (p & c & X & s & Y & E & Pl & Bx & Ls).
  exists p, c, X, s, Y. split; [done|]. split; [done|]. split; [done|]. split; [done|].
  pose proof (flat_place d u n p s c X Y Pl) as Ef. pose proof (place_ukids n u p s c X Y Pl) as Eu.
  assert (forall q, q ∈ X ++ (s, c) :: Y -> kwf d q.2) as Wk.
  { intros q Hq. rewrite <-Eu in Hq. by eapply nwf_ukids. }
  split; [apply (Wk (s, c)); apply elem_of_app; right; by left|]. split; [done|]. split.
  - rewrite Ef, <-!app_assoc. done.
  - apply below_app. split; [done|]. rewrite Ef in C. apply (kbelow_below d X k Bx) with (h := h).
    + intros q Hq. apply Wk, elem_of_app. by left.
    + apply core_app in C as (_ & C & _). apply core_app in C as (C & _ & _). by apply core_app in C as (C & _ & _).
Qed.

Lemma set_leaf_same h i : set_leaf h i (leaf_at h i) = h.
Proof.
  unfold set_leaf, leaf_at. destruct (h !! i) as [c|] eqn:E; [|done]. destruct c as [l n t]. by apply list_insert_id.
Qed.

(** The bottom. *)
Lemma ln_ready u A B h (n : tree K 0) k v f : kwf 1 n -> linked h (A ++ flat 0 u n ++ B) -> below A k -> kle k u ->
  ready h (A ++ flat 0 u n ++ B) k -> ins_ok 0 u A B h n k v (ln_insert cmp (S f) h n k v).
Proof.
  intros W Lk Bl Lu (A' & s' & i' & B' & EL & Bl' & Ls' & Rm).
  destruct (route 0 u A B h n k W Lk Bl Lu) as (p & id & X & s & Y & E & Pl & Bx & Ls & _ & Ef & Et & Bt).
  change (@pick K cmp nat n k = (p, To id)) in E.
  cbn [ln_insert]. rewrite E. cbn [fst snd]. rewrite Et in EL. cbn [kflat] in Et, EL. cbn [app] in Et, EL.
  destruct (routed_unique _ _ _ _ _ _ _ _ _ k eq_refl EL Bt Ls Bl' Ls') as (_ & _ & <- & _).
  rewrite Et in Lk. pose proof (core_at _ _ _ _ _ (proj1 Lk)) as O. pose proof (ok_good _ _ _ O) as G. cbn in G.
  pose proof (insert_roomy (leaf_at h id) k v G Rm) as Ir.
  destruct (leaf_insert_ok h _ s id _ k v _ Lk Bt Ls eq_refl Ir) as (Lk' & H1 & H2).
  destruct (insert cmp (leaf_at h id) k v) as [l' r]. cbn [fst snd] in *.
  destruct Ir as [-> | ->]; unfold ins_ok; (split; [done|]); rewrite Et; split; [done|auto|done|auto].
Qed.
Lemma ln_insert_ok u A B h (n : tree K 0) k v f : kwf 1 n -> linked h (A ++ flat 0 u n ++ B) -> below A k -> kle k u ->
  ins_ok 0 u A B h n k v (ln_insert cmp (S (S f)) h n k v).
Proof.
  intros W Lk Bl Lu.
  destruct (route 0 u A B h n k W Lk Bl Lu) as (p & id & X & s & Y & E & Pl & Bx & Ls & _ & Ef & Et & Bt).
  rewrite !gflat0 in *. cbn [kflat app] in Et.
  change (@pick K cmp nat n k = (p, To id)) in E.
  remember (S f) as f1 eqn:Ef1. cbn [ln_insert]. rewrite E. cbn [fst snd].
  pose proof Lk as Lk0. rewrite Et in Lk0. pose proof (core_at _ _ _ _ _ (proj1 Lk0)) as O. pose proof (ok_good _ _ _ O) as G. cbn in G.
  pose proof (leaf_insert_ok h _ s id _ k v _ Lk0 Bt Ls eq_refl) as LI.
  destruct (insert_spec cmp T (leaf_at h id) k v G) as (_ & _ & _ & I).
  pose proof (insert_roomy (leaf_at h id) k v G) as Rm.
  destruct (insert cmp (leaf_at h id) k v) as [l' r] eqn:Ei. cbn [fst snd] in *.
  assert (r = IFull \/ r = IRetired -> ~ ready h (A ++ flat 0 u n ++ B) k) as Nr.
  { intros Hr (A' & s' & i' & B' & EL & Bl' & Ls' & R). rewrite Et in EL.
    destruct (routed_unique _ _ _ _ _ _ _ _ _ k eq_refl EL Bt Ls Bl' Ls') as (_ & _ & <- & _).
    destruct (Rm R); destruct Hr; congruence. }
  assert (r = IFull \/ r = IRetired -> ins_ok 0 u A B h n k v
    (match split_leaf cmp h n p id with (h2, n2, NRetry) => ln_insert cmp f1 h2 n2 k v | z => z end)) as Sp.
  { intros Hr. specialize (Nr Hr). unfold split_leaf.
    pose proof (distribute_split h _ s id _ k Lk0 Bt Ls) as D.
    destruct (distribute (leaf_at h id)) as [[fz lo] [hl|]].
    - destruct D as (e & Em & Lt_ & Be & D1 & D2). rewrite Em.
      apply below_app in Be as [_ Be].
      pose proof (push_split_spec cmp T (kwf 0) n u p s id X Y e.1 (length h) (S (length h)) (id, length h, S (length h)) W Pl Logic.I Logic.I Be Lt_) as Ps. change (kid K 0) with nat in *. change (tree K 0) with (inode K nat) in *.
      set (ls := (id, length h, S (length h))) in *.
      destruct (push_split cmp n p e.1 (length h) (S (length h)) ls) as [n' [| | | |op| | |]]; try done.
      + destruct Ps as (-> & El & Op & Eo). unfold ins_ok. change (kid K 0) with nat in *. split; [done|]. split; [done|]. split; [done|]. rewrite El. cbn zeta.
        assert (opflat cmp 0 u n op = X ++ (Some e.1, length h) :: (s, S (length h)) :: Y) as -> by (unfold opflat; by rewrite gflat0).
        destruct D2 as (L2 & F2 & R2). rewrite Et.
        assert (A ++ (X ++ (Some e.1, length h) :: (s, S (length h)) :: Y) ++ B =
          (A ++ X) ++ (Some e.1, length h) :: (s, S (length h)) :: Y ++ B) as -> by (by rewrite <-!app_assoc).
        done.
      + destruct Ps as (W' & Eu). destruct D1 as (L2 & F2 & R2).
        assert (A ++ flat 0 u n' ++ B = (A ++ X) ++ (Some e.1, length h) :: (s, S (length h)) :: Y ++ B) as Et'.
        { rewrite flat0. change (kid K 0) with nat in *. rewrite Eu, <-!app_assoc. done. }
        subst f1. eapply (ins_ok_trans 0 u A B h _ n n'); [|rewrite Et'; exact R2|apply ln_ready; [done|rewrite Et'; exact L2|done|done|rewrite Et'; exact R2]].
        rewrite Et', Et. exact F2.
    - destruct (put_spec cmp T (kwf 0) n u p s id (length h) X Y W Pl ltac:(done)) as [W' Pl'].
      change (kid K 0) with nat in *. set (n' := put n p (length h)) in *. destruct D as (L2 & F2 & R2).
      assert (A ++ flat 0 u n' ++ B = (A ++ X) ++ (s, length h) :: Y ++ B) as Et'.
      { assert (flat 0 u n' = X ++ (s, length h) :: Y) as -> by (rewrite flat0; exact (place_ukids _ _ _ _ _ _ _ Pl')).
        by rewrite <-!app_assoc. }
      rewrite <-Et' in L2, F2, R2. rewrite <-Et in F2.
      subst f1. eapply (ins_ok_trans 0 u A B h _ n n'); [exact F2|exact R2|apply ln_ready; [done|exact L2|done|done|exact R2]]. }
  destruct r.
  - destruct (LI (or_introl eq_refl)) as (Lk' & H1 & _). unfold ins_ok. split; [done|]. rewrite Et. split; [done|]. auto.
  - destruct (LI (or_intror eq_refl)) as (Lk' & _ & H2). unfold ins_ok. split; [done|]. rewrite Et. split; [done|]. auto.
  - destruct I as (_ & _ & _ & -> & _). rewrite set_leaf_same. apply Sp. by left.
  - destruct I as [I _]. pose proof (ok_unfrozen _ _ _ O) as F. cbn in F. congruence.
  - destruct I as [_ ->]. rewrite set_leaf_same. apply Sp. by right.
Qed.

(** One level up. *)
Definition ins_spec d k v (ins : heap K V -> tree K d -> heap K V * tree K d * nres K (kid K d)) : Prop :=
  forall u A B h (n : tree K d), kwf (S d) n -> linked h (A ++ flat d u n ++ B) -> below A k -> kle k u ->
    ins_ok d u A B h n k v (ins h n).
Lemma in_ready d k v ins : ins_spec d k v ins -> forall u A B h (n : tree K (S d)) f,
  kwf (S (S d)) n -> linked h (A ++ flat (S d) u n ++ B) -> below A k -> kle k u ->
  ready h (A ++ flat (S d) u n ++ B) k -> ins_ok (S d) u A B h n k v (in_insert cmp ins (S f) h n k).
Proof.
  intros IH u A B h n f W Lk Bl Lu Rd.
  destruct (route (S d) u A B h n k W Lk Bl Lu) as (p & c & X & s & Y & E & Pl & Bx & Ls & Wc & Ef & Et & Bt).
  change (@pick K cmp (inode K (kid K d)) n k = (p, To c)) in E.
  cbn [in_insert]. rewrite E. cbn [fst snd]. rewrite Et in Lk, Rd.
  specialize (IH s _ _ h c Wc Lk Bt Ls). destruct (ins h c) as [[h1 c'] r]. destruct IH as [Wc' IH].
  destruct (put_spec cmp T (kwf (S d)) n u p s c c' X Y W Pl Wc') as [W' Pl'].
  set (n1 := @put K (inode K (kid K d)) n p c').
  change (kwf (S (S d)) n1) in W'. change (@place K (kid K (S d)) n1 u p s c' X Y) in Pl'.
  assert (A ++ flat (S d) u n1 ++ B = (A ++ gflat (kflat (S d)) X) ++ flat d s c' ++ gflat (kflat (S d)) Y ++ B) as Et'.
  { rewrite (flat_place _ _ _ _ _ _ _ _ Pl'), <-!app_assoc. done. }
  destruct r as [| | | |op| | |]; try done; unfold ins_ok; rewrite ?Et', ?Et; try done. by destruct IH as (_ & IH & _).
Qed.
Lemma in_insert_ok d k v ins : ins_spec d k v ins -> forall f, ins_spec (S d) k v (fun h n => in_insert cmp ins (S (S f)) h n k).
Proof.
  intros IH f u A B h n W Lk Bl Lu.
  destruct (route (S d) u A B h n k W Lk Bl Lu) as (p & c & X & s & Y & E & Pl & Bx & Ls & Wc & Ef & Et & Bt).
  change (@pick K cmp (inode K (kid K d)) n k = (p, To c)) in E.
  remember (S f) as f1 eqn:Ef1. cbn [in_insert]. rewrite E. cbn [fst snd]. pose proof Lk as Lk0. rewrite Et in Lk0.
  pose proof (IH s _ _ h c Wc Lk0 Bt Ls) as I. destruct (ins h c) as [[h1 c'] r]. destruct I as [Wc' I].
  destruct (put_spec cmp T (kwf (S d)) n u p s c c' X Y W Pl Wc') as [W' Pl'].
  set (n1 := @put K (inode K (kid K d)) n p c').
  change (kwf (S (S d)) n1) in W'. change (@place K (kid K (S d)) n1 u p s c' X Y) in Pl'. set (FX := gflat (kflat (S d)) X) in *. set (FY := gflat (kflat (S d)) Y) in *.
  assert (A ++ flat (S d) u n1 ++ B = (A ++ FX) ++ flat d s c' ++ FY ++ B) as Et'.
  { rewrite (flat_place _ _ _ _ _ _ _ _ Pl'), <-!app_assoc. done. }
  destruct r as [| | | |op| | |]; try done.
  - unfold ins_ok. rewrite Et', Et. done.
  - unfold ins_ok. rewrite Et', Et. done.
  - destruct I as (Op & Nr & L2 & F2 & R2). cbn zeta in *.
    pose proof (divide_spec cmp T (kwf d) c' s op Op) as Dv. unfold split_node.
    destruct (divide cmp c' op) as [[[mid low] high]|]; [|done]. destruct Dv as (Wl & Wh & Ek).
    assert (opflat cmp d s c' op = flat d (Some mid) low ++ flat d s high) as Eo.
    { unfold opflat, flat. by rewrite Ek, gflat_app. }
    assert ((A ++ FX) ++ opflat cmp d s c' op ++ FY ++ B =
      (A ++ FX) ++ flat d (Some mid) low ++ flat d s high ++ FY ++ B) as El by (rewrite Eo, <-!app_assoc; done).
    rewrite El in L2, F2, R2.
    assert (kbelow cmp X mid /\ klt mid s) as [Bm Lm].
    { destruct (kflat_last cmp (S d) (Some mid) low Wl) as (F1 & j1 & E1). destruct (kflat_last cmp (S d) s high Wh) as (F3 & j2 & E2).
      rewrite kflat_S in E1, E2. destruct L2 as [C _]. rewrite E1, E2 in C. split.
      - intros a Ha. destruct (gflat_sep cmp (S d) X a.1 a.2) as [j Hj].
        + by rewrite <-surjective_pairing.
        + eapply (nwf_ukids cmp (kwf (S d))); [exact W'|]. rewrite (place_ukids _ _ _ _ _ _ _ Pl'). apply elem_of_app. by left.
        + apply core_app in C as (_ & _ & P). destruct (P (a.1, j) (Some mid, j1)) as [_ (ka & Ea & La & _)].
          * apply elem_of_app. by right.
          * apply elem_of_app. left. apply elem_of_app. right. by left.
          * by exists ka.
      - apply core_app in C as (_ & C & _). apply core_app in C as (_ & _ & P).
        destruct (P (Some mid, j1) (s, j2)) as [_ (ka & Ea & La & _)].
        + apply elem_of_app. right. by left.
        + apply elem_of_app. left. apply elem_of_app. right. by left.
        + cbn in Ea. by injection Ea as <-. }
    pose proof (push_split_spec cmp T (kwf (S d)) n1 u p s c' X Y mid low high (so_leaves op) W' Pl' Wl Wh Bm Lm) as Ps.
    change (kid K (S d)) with (inode K (kid K d)) in Ps. subst n1.
    set (z := push_split cmp _ p mid low high (so_leaves op)) in *.
    destruct z as [n2 [| | | |op'| | |]]; try done.
    + destruct Ps as (-> & Els & Op' & Eo'). change (inode K (kid K d)) with (kid K (S d)) in Els, Op', Eo'.
      set (n1 := put n p c') in *. split; [done|]. split; [done|]. split; [by rewrite Et|]. rewrite Els. cbn zeta.
      assert (A ++ opflat cmp (S d) u n1 op' ++ B = (A ++ FX) ++ flat d (Some mid) low ++ flat d s high ++ FY ++ B) as E9.
      { unfold opflat. rewrite Eo', gflat_app, !gflat_cons, <-!app_assoc. done. }
      rewrite <-E9 in L2, F2, R2. change (kflat (S d) s c) with (flat d s c) in Et. rewrite <-Et in F2. exact (conj L2 (conj F2 R2)).
    + destruct Ps as (W2 & Eu2). change (inode K (kid K d)) with (kid K (S d)) in Eu2.
      assert (A ++ flat (S d) u n2 ++ B = (A ++ FX) ++ flat d (Some mid) low ++ flat d s high ++ FY ++ B) as Et2.
      { unfold flat at 1. rewrite Eu2, gflat_app, !gflat_cons, <-!app_assoc. done. }
      rewrite <-Et2 in L2, F2, R2. change (kflat (S d) s c) with (flat d s c) in Et. rewrite <-Et in F2.
      subst f1. eapply (ins_ok_trans (S d) u A B h _ n n2); [exact F2|exact R2|].
      apply (in_ready d k v ins IH); [exact W2|exact L2|done|done|exact R2].
Qed.
Lemma node_insert_ok d k v : ins_spec d k v (node_insert cmp d k v).
Proof.
  induction d as [|d IH].
  - intros u A B h n W Lk Bl Lu. by apply ln_insert_ok.
  - exact (in_insert_ok d k v _ IH 1).
Qed.

(** The whole tree. *)
Definition tree_ok (t : treeindex K V) : Prop :=
  match root t with
  | None => True
  | Some (existT d n) => kwf (S d) n /\ linked (hp t) (flat d None n)
  end.
Definition tents (t : treeindex K V) : list (K * V) :=
  match root t with None => [] | Some (existT d n) => fents (hp t) (flat d None n) end.

Lemma ln_fresh h k v f :
  ln_insert cmp (S f) h new_node k v = ln_insert cmp (S f) (alloc h new_leaf) (INode new_leaf (To (length h))) k v.
Proof. reflexivity. Qed.
Lemma new_roomy : roomy new_leaf.
Proof. split; [done|]. split; [done|]. intros F. by destruct (F 0 0 eq_refl). Qed.
Lemma single_nwf {C} (P : C -> Prop) c : P c -> nwf cmp P (INode new_leaf (To c)).
Proof.
  intros H. split; cbn [ch ub].
  - apply new_good.
  - done.
  - by exists c.
  - intros e He. rewrite (scan_new cmp T) in He. by apply elem_of_nil in He.
Qed.
Lemma single_ukids {C} u (c : C) : ukids u (INode new_leaf (To c)) = [(u, c)].
Proof. unfold ukids. cbn [ch ub]. by rewrite (scan_new cmp T). Qed.
Lemma fresh_ok h k : let n := INode new_leaf (To (length h)) : tree K 0 in let h' := alloc h (new_leaf : leaf K V) in
  kwf 1 n /\ linked h' (flat 0 None n) /\ fents h' (flat 0 None n) = [] /\ ready h' (flat 0 None n) k.
Proof.
  intros n h'. assert (flat 0 None n = [(None, length h)]) as E by (rewrite flat0; apply (single_ukids None (length h))).
  pose proof (alloc_r h new_leaf) as Hc. fold h' in Hc. assert (ents h' (length h) = []) as En.
  { unfold ents. rewrite (leaf_at_lookup _ _ _ Hc). cbn [c_leaf]. by rewrite (scan_new cmp T). }
  rewrite E. split; [by apply single_nwf|]. split; [split|split].
  - apply core_one. eexists. split; [exact Hc|]. cbn [c_leaf c_tag]. split; [apply new_good|]. split; [done|]. split; [done|].
    intros e. cbn [snd]. rewrite En. by intros ?%elem_of_nil.
  - cbn. split; [|done]. eexists. split; [exact Hc|]. constructor.
  - unfold fents. cbn. rewrite En. done.
  - exists [], None, (length h), []. split; [done|]. split; [by intros a ?%elem_of_nil|]. split; [done|].
    rewrite (leaf_at_lookup _ _ _ Hc). apply new_roomy.
Qed.

Lemma app_nil_mid {X : Type} (l : list X) : [] ++ l ++ [] = l.
Proof. by rewrite app_nil_r. Qed.
Lemma below_nil k : below [] k.
Proof. by intros a ?%elem_of_nil. Qed.

(** The root: after a split of the root the key can be inserted at once. *)
Lemma split_root_ok t d (n : tree K d) op k : op_ok cmp (kwf d) n op ->
  let h'' := commit (hp t) (so_leaves op) in let L'' := opflat cmp d None n op in
  kwf (S d) n -> linked h'' L'' -> ready h'' L'' k ->
  exists n2 : tree K (S d), split_root cmp t d n op = (Tree h'' (Some (existT (S d) n2)), true) /\
    kwf (S (S d)) n2 /\ flat (S d) None n2 = L''.
Proof.
  intros Op h'' L'' Wn Lk Rd. unfold split_root, split_node.
  pose proof (divide_spec cmp T (kwf d) n None op Op) as Dv.
  destruct (divide cmp n op) as [[[mid low] high]|]; [|done]. destruct Dv as (Wl & Wh & Ek).
  set (nr := INode new_leaf (To n) : inode K (inode K (kid K d))).
  assert (kwf (S (S d)) nr) as Wr by (by apply (single_nwf (kwf (S d)))).
  assert (@place K (inode K (kid K d)) nr None AtUb None n [] []) as Pl.
  { cbn. rewrite (scan_new cmp T). done. }
  pose proof (push_split_spec (C:=inode K (kid K d)) cmp T (kwf (S d)) nr None AtUb None n [] [] mid low high (so_leaves op) Wr Pl Wl Wh) as Ps.
  assert (kbelow cmp (@nil (option K * inode K (kid K d))) mid) as Bn by (by intros a ?%elem_of_nil).
  specialize (Ps Bn I).
  assert ((insert cmp (ch nr) mid low).2 <> IFull /\ (insert cmp (ch nr) mid low).2 <> IRetired) as [N1 N2].
  { destruct (insert_spec cmp T (ch nr) mid low (nw_good _ _ _ Wr)) as (_ & _ & _ & Q).
    split; intros Er; rewrite Er in Q.
    - destruct Q as (_ & _ & _ & _ & Q). by destruct (Q 0 0 eq_refl).
    - by destruct Q. }
  assert (exists n2, push_split cmp nr AtUb mid low high (so_leaves op) = (n2, NRetry)) as [n2 E2].
  { clear -Ps N1 N2. unfold push_split in *. destruct (insert cmp (ch nr) mid low) as [ch' r]. cbn [snd] in *.
    destruct r; [by eexists|done|by destruct N1|done|by destruct N2]. }
  rewrite E2 in Ps. destruct Ps as [W2 Eu2]. exists n2. split; [|split; [done|]].
  - set (z := push_split cmp _ AtUb mid low high (so_leaves op)). replace z with (n2, @NRetry K (inode K (kid K d))) by (symmetry; exact E2).
    done.
  - unfold flat at 1. change (kid K (S d)) with (inode K (kid K d)). rewrite Eu2. unfold L'', opflat. rewrite Ek.
    cbn [app]. rewrite !gflat_cons, gflat_app. unfold flat. cbn. by rewrite app_nil_r.
Qed.

(** One insertion at the root. *)
Lemma root_insert d k v h (n : tree K d) : kwf (S d) n -> linked h (flat d None n) ->
  ins_ok d None [] [] h n k v (node_insert cmp d k v h n).
Proof.
  intros W Lk. apply node_insert_ok; [done|by rewrite app_nil_mid|apply below_nil|done].
Qed.
Definition inserted t k v (z : treeindex K V * ires) : Prop :=
  tree_ok z.1 /\
  ((z.2 = IOk /\ k ∉ (tents t).*1 /\ tents z.1 = oput cmp (tents t) k v) \/
   (z.2 = IErr /\ k ∈ (tents t).*1 /\ tents z.1 = tents t)).
Lemma insert_ready f d (n : tree K d) h k v : kwf (S d) n -> linked h (flat d None n) -> ready h (flat d None n) k ->
  let t := Tree h (Some (existT d n)) in inserted t k v (insert_loop cmp (S f) t k v).
Proof.
  intros W Lk Rd t. cbn [insert_loop root t hp]. pose proof (root_insert d k v h n W Lk) as I.
  destruct (node_insert cmp d k v h n) as [[h' n'] r]. destruct I as [W' I].
  rewrite !app_nil_mid in I. unfold inserted, tree_ok, tents, t. cbn [root hp fst snd].
  destruct r; try done; cbn [root hp fst snd].
  - destruct I as (? & ? & ?). split; [done|]. left. done.
  - destruct I as (? & ? & ?). split; [done|]. right. done.
  - by destruct I as (_ & ? & _).
Qed.
Lemma insert_loop_ok f t k v : tree_ok t -> inserted t k v (insert_loop cmp (S (S f)) t k v).
Proof.
  intros Ok. remember (S f) as f1 eqn:Ef1. destruct t as [h [[d n]|]].
  - destruct Ok as [W Lk]. cbn [root hp] in W, Lk. cbn [insert_loop root hp].
    pose proof (root_insert d k v h n W Lk) as I.
    destruct (node_insert cmp d k v h n) as [[h' n'] r]. destruct I as [W' I]. rewrite !app_nil_mid in I.
    destruct r as [| | | |op| | |]; try done.
    + destruct I as (? & ? & ?). split; [done|]. left. done.
    + destruct I as (? & ? & ?). split; [done|]. right. done.
    + destruct I as (Op & Nr & Lk' & F & R). cbn zeta in *. rewrite app_nil_mid in Lk', F, R.
      destruct (split_root_ok (Tree h' (Some (existT d n'))) d n' op k Op W' Lk' R) as (n2 & E2 & W2 & Ef2). cbn [hp] in E2.
      rewrite E2. subst f1. rewrite <-Ef2 in *.
      pose proof (insert_ready f (S d) n2 (commit h' (so_leaves op)) k v W2 Lk' R) as H.
      unfold inserted in *. unfold tents in *. cbn [root hp] in *. rewrite F in H. exact H.
  - cbn [insert_loop root]. unfold ensure_root. cbn [root hp]. subst f1.
    destruct (fresh_ok h k) as (W & Lk & F & R). cbn zeta in *.
    pose proof (insert_ready f 0 _ (alloc h new_leaf) k v W Lk R) as H. cbn zeta in H.
    assert (insert_loop cmp (S f) (Tree h (Some (existT 0 new_node))) k v =
      insert_loop cmp (S f) (Tree (alloc h new_leaf) (Some (existT 0 (INode new_leaf (To (length h)) : tree K 0)))) k v) as ->.
    { cbn [insert_loop root hp node_insert]. by rewrite ln_fresh. }
    unfold inserted in *. unfold tents in *. cbn [root hp] in *. rewrite F in H. exact H.
Qed.
Lemma insert_sync_ok t k v : tree_ok t -> inserted t k v (insert_sync cmp t k v).
Proof. apply insert_loop_ok. Qed.
End facts.
