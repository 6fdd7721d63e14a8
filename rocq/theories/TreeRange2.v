(** Removal of a range, continued: leaf nodes, internal nodes and the whole tree. *)
From stdpp Require Import prelude list sorting.
From Verif Require Import LeafModel LeafSpec LeafFacts OrdFacts LeafOps LeafSeq TreeLeaf TreeModel TreeHeap TreeLink TreeSplit TreeShape TreeIns TreeRem TreeIter TreeRange.
Opaque scan fill.
(** Membership in a concatenation. *)
Ltac mem_goal := first [assumption | reflexivity | apply elem_of_app; first [left; mem_goal|right; mem_goal] |
  apply elem_of_cons; first [left; reflexivity|right; mem_goal]].
Ltac mem_split H := first [apply elem_of_app in H; destruct H as [H|H]; mem_split H |
  apply elem_of_cons in H; destruct H as [H|H]; [|mem_split H] | idtac].
Ltac mem := match goal with
  | H : ?p ∈ _ |- ?p ∈ _ => mem_split H; try (exfalso; by apply elem_of_nil in H); first [mem_goal | rewrite H; mem_goal]
  | |- _ => mem_goal
  end.

Section facts.
Context {K V : Type} (cmp : K -> K -> comparison) (T : total_order cmp).
Implicit Types (h : heap K V) (l : leaf K V) (L A B D F : list (option K * nat)) (i : nat) (s u : option K) (r : bound K * bound K).
Notation good := (good cmp). Notation core := (core cmp). Notation leaf_ok := (leaf_ok cmp). Notation prior := (prior cmp).
Notation kle := (kle cmp). Notation klt := (klt cmp). Notation kwf := (kwf cmp). Notation linked := (linked cmp). Notation nwf := (nwf cmp).
Notation inr r k := (range_contains cmp r k). Notation under r k := (TreeModel.below cmp r k). Notation within r k := (within_upper cmp r k).
Notation keepf := (keepf cmp). Notation clean := (clean cmp). Notation allin := (allin cmp). Notation starts := (starts cmp).
Definition same h h' L : Prop := forall p, p ∈ L -> agree h h' p.2.
Definition subl h h' L L' : Prop := forall p, p ∈ L' -> p ∈ L /\ forall e, e ∈ ents h' p.2 -> e ∈ ents h p.2.

(** ** What each mode of [remove_range] achieves on a subtree *)
Section spec.
Context {N : Type} (r : bound K * bound K) (f : option K -> N -> list (option K * nat)) (wf : N -> Prop)
  (rr : heap K V -> N -> bool -> rr_mode -> option (heap K V * N * nat * rr_out)).
Record rr_spec : Prop := {
  rs_plain : forall u A B h n, wf n -> linked h (A ++ f u n ++ B) ->
    exists h' n' c, rr h n false Plain = Some (h', n', c, NotReached) /\ wf n' /\ linked h' (A ++ f u n' ++ B) /\
      same h h' (A ++ B) /\ keepf r (fents h' (f u n')) = keepf r (fents h (f u n)) /\ clean r h' (f u n');
  rs_first : forall u B h n, wf n -> linked h (f u n ++ B) -> starts r h (f u n) ->
    exists h' n' c, rr h n true Plain = Some (h', n', c, NotReached) /\ wf n' /\ linked h' (f u n' ++ B) /\
      same h h' B /\ keepf r (fents h' (f u n')) = keepf r (fents h (f u n)) /\ clean r h' (f u n');
  rs_upper : forall k A B h n, wf n -> linked h (A ++ f (Some k) n ++ B) -> inr r k = true ->
    exists h' n' c i F s D D0 j, rr h n false WithUpper = Some (h', n', c, Reached (Some i)) /\ wf n' /\
      (forall v, f v n' = F ++ [(v, i)]) /\ linked h' (A ++ F ++ (s, i) :: D ++ B) /\ (s, i) :: D = D0 ++ [(Some k, j)] /\
      clean r h' (F ++ [(s, i)]) /\ allin r h' D /\
      keepf r (fents h' (F ++ (s, i) :: D)) = keepf r (fents h (f (Some k) n)) /\ same h h' (A ++ B);
  rs_lower : forall u A s i D B h n, wf n -> linked h (A ++ (s, i) :: D ++ f u n ++ B) -> starts r h (f u n) ->
    exists h' n' c, rr h n true (WithLower i) = Some (h', n', c, NotReached) /\ wf n' /\
      linked h' (A ++ (s, i) :: f u n' ++ B) /\ same h h' (A ++ (s, i) :: B) /\
      keepf r (fents h' (f u n')) = keepf r (fents h (f u n)) /\ clean r h' (f u n') /\ subl h h' (f u n) (f u n') }.
End spec.

(** ** Leaf nodes *)
Let leafs : option K -> nat -> list (option K * nat) := fun u i => [(u, i)].
Lemma leafs_end (n : nat) : True -> exists F i, forall u, leafs u n = F ++ [(u, i)].
Proof. intros _. exists [], n. done. Qed.
Lemma gleafs X : gflat leafs X = X.
Proof. unfold gflat. induction X as [|[s i] X IH]; cbn; [done|]. f_equal. exact IH. Qed.
Lemma ln_rr_ok r u A B h (n : inode K nat) su : nwf (fun _ => True) n -> linked h (A ++ ukids u n ++ B) ->
  (su = true -> starts r h (ukids u n)) ->
  exists h' n' ul s i M c, ub n' = To ul /\ nwf (fun _ => True) n' /\ ukids u n' = (s, i) :: M /\
    ln_remove_range cmp r h n su Plain = Some (h', n', c, NotReached) /\
    ln_remove_range cmp r h n su WithUpper = Some (h', n', c, Reached (Some ul)) /\
    (forall leaf, ln_remove_range cmp r h n su (WithLower leaf) = Some (set_link h' leaf (Some i) TNone, n', c, NotReached)) /\
    linked h' (A ++ ukids u n' ++ B) /\ same h h' (A ++ B) /\
    keepf r (fents h' (ukids u n')) = keepf r (fents h (ukids u n)) /\ clean r h' (ukids u n') /\ subl h h' (ukids u n) (ukids u n').
Proof.
  intros W Lk St.
  destruct (view cmp T (fun _ => True) u n r su W) as (P & lo & Q & hi & Y & cu & hs & hc & Yt & Sc & Cl & Eu & _ & _ & _ & _ & _ & _ & _ & _).
  { intros Es e He. destruct (St Es (Some e.1, e.2)) as [H _]; [|by apply H]. unfold ukids. apply elem_of_app. left.
    apply elem_of_list_In, in_map_iff. exists e. split; [done|]. by apply elem_of_list_In. }
  pose proof W as [Gd Fz _ _]. destruct (ln_loop_eq cmp r su P lo Q hi Y h (ch n) Cl) as [c El]. rewrite <-Sc in El.
  destruct (dropk_spec cmp T Q (P ++ olist lo) (olist hi ++ Y) (ch n) Gd Fz) as (Gd' & Fz' & Sc'); [by rewrite Sc, <-!app_assoc|].
  set (PL := P ++ olist lo) in *. set (H := olist hi) in *. set (n' := INode (dropk cmp Q (ch n)) (To cu) : inode K nat).
  assert (ukids u n = map lab PL ++ map lab Q ++ map lab H ++ map lab Y ++ [(u, cu)]) as Ek.
  { unfold ukids, ub_kid. rewrite Eu, Sc. unfold PL. rewrite !map_app, <-!app_assoc. done. }
  assert (ukids u n' = map lab PL ++ map lab H ++ map lab Y ++ [(u, cu)]) as Ek'.
  { unfold ukids, ub_kid, n'. cbn [ch ub]. rewrite Sc', !map_app, <-!app_assoc. done. }
  rewrite Ek in *.
  (* clean, fully contained parts *)
  assert (clean r h (map lab Y)) as CY.
  { destruct hi as [e|] eqn:Ehi; [|rewrite (cl_end _ _ _ _ _ _ _ _ Cl eq_refl); intros x Hx; by apply elem_of_nil in Hx].
    eapply (clean_above cmp T r h (A ++ map lab PL ++ map lab Q ++ map lab H) _ e.1 e.2).
    - pose proof (proj1 Lk) as Co. rewrite <-!app_assoc. rewrite <-!app_assoc in Co.
      apply (core_fst cmp h _ ([(u, cu)] ++ B)). rewrite <-!app_assoc. exact Co.
    - do 3 (apply elem_of_app; right). by left.
    - apply (cl_above _ _ _ _ _ _ _ _ Cl). by left. }
  assert (allin r h (map lab Q)) as AQ.
  { rewrite <-(gleafs (map lab Q)). eapply (allin_kids cmp T leafs (fun _ => True) leafs_end r h (A ++ map lab PL)); [done| | |].
    - rewrite gleafs. pose proof (proj1 Lk) as Co. rewrite <-!app_assoc in Co. rewrite <-!app_assoc. exact Co.
    - intros e He. apply (cl_in _ _ _ _ _ _ _ _ Cl). apply elem_of_app. by right.
    - rewrite gleafs. destruct su eqn:Es.
      + specialize (St eq_refl). intros p Hp. apply St. mem.
      + destruct lo as [e|] eqn:Elo; [|rewrite (cl_lo _ _ _ _ _ _ _ _ Cl eq_refl eq_refl); intros p Hp; by apply elem_of_nil in Hp].
        eapply (starts_after cmp T r h (A ++ map lab PL) _ e.1 e.2).
        * pose proof (proj1 Lk) as Co. rewrite <-!app_assoc in Co. rewrite <-!app_assoc.
          apply (core_fst cmp h _ (map lab H ++ map lab Y ++ [(u, cu)] ++ B)). rewrite <-!app_assoc. exact Co.
        * apply elem_of_app. right. unfold PL. rewrite map_app. apply elem_of_app. right. by left.
        * apply in_not_under. apply (cl_in _ _ _ _ _ _ _ _ Cl). by left. }
  (* the four steps *)
  set (h1 := rmr cmp r PL h). set (h2 := dels Q h1). set (h3 := rmr cmp r H h2). set (h4 := leaf_remove_range cmp h3 cu r).
  set (lP := map lab PL) in *. set (lQ := map lab Q) in *. set (lH := map lab H) in *. set (lY := map lab Y) in *.
  destruct (rmr_ok cmp T r PL h A (lQ ++ lH ++ lY ++ [(u, cu)] ++ B)) as (L1 & E1 & Ag1 & N1); [rewrite <-!app_assoc in Lk; exact Lk|].
  fold h1 lP in L1, E1, Ag1, N1.
  destruct (dels_ok cmp Q h1 (A ++ lP) (lH ++ lY ++ [(u, cu)] ++ B)) as [L2 Ag2]; [rewrite <-!app_assoc; exact L1|]. fold h2 in L2, Ag2.
  destruct (rmr_ok cmp T r H h2 (A ++ lP) (lY ++ [(u, cu)] ++ B) L2) as (L3 & E3 & Ag3 & N3). fold h3 lH in L3, E3, Ag3, N3.
  destruct (rm_one cmp T r h3 (A ++ lP ++ lH ++ lY) u cu B) as (L4 & E4 & Ag4); [rewrite <-!app_assoc in L3; rewrite <-!app_assoc; exact L3|].
  fold h4 in L4, E4, Ag4.
  assert (fents h4 lP = keepf r (fents h lP)) as FP.
  { rewrite <-E1. rewrite (agree_fents h3 h4), (agree_fents h2 h3), (agree_fents h1 h2); [done| | |]; intros p Hp;
      [apply Ag2|apply Ag3|apply Ag4]; mem. }
  assert (fents h4 lH = keepf r (fents h lH)) as FH.
  { rewrite (agree_fents h3 h4), E3 by (intros p Hp; apply Ag4; mem). f_equal. rewrite (agree_fents h1 h2), (agree_fents h h1); [done| |]; intros p Hp;
      [apply Ag1|apply Ag2]; mem. }
  assert (forall p, p ∈ A ++ lY ++ B -> agree h h4 p.2) as Ag.
  { intros p Hp. apply agree_trans with (h2 := h1); [apply Ag1; mem|]. apply agree_trans with (h2 := h2); [apply Ag2; mem|].
    apply agree_trans with (h2 := h3); [apply Ag3; mem|apply Ag4; mem]. }
  assert (fents h4 lY = fents h lY) as FY by (apply agree_fents; intros p Hp; apply Ag; mem).
  assert (ents h4 cu = keepf r (ents h cu)) as FU.
  { rewrite E4. f_equal. rewrite (agree_ents h2 h3), (agree_ents h1 h2), (agree_ents h h1); [done| | |].
    - apply (Ag1 (u, cu)). mem.
    - apply (Ag2 (u, cu)). mem.
    - apply (Ag3 (u, cu)). mem. }
  assert (exists s i M, ukids u n' = (s, i) :: M /\ match (snd <$> head (P ++ olist lo ++ H)) with Some i => Some i | None => Some cu end = Some i) as (s & i & M & Ekh & Eh).
  { rewrite Ek', (app_assoc P). fold PL. unfold lP, lH, lY, H. pose proof (cl_end _ _ _ _ _ _ _ _ Cl) as Ce. generalize PL. intros [|e0 PL0].
    - destruct hi as [e|]; cbn [olist map app head fmap option_fmap option_map].
      + exists (Some e.1), e.2. eexists. split; reflexivity.
      + rewrite (Ce eq_refl). cbn [map app]. exists u, cu. eexists. split; reflexivity.
    - cbn [map app head fmap option_fmap option_map]. exists (Some e0.1), e0.2. eexists. split; reflexivity. }
  exists h4, n', cu, s, i, M, c. split; [done|]. split.
  { split; cbn [n' ch ub]; [done|done|by exists cu|done]. }
  split; [done|].
  unfold ln_remove_range. rewrite El, Eu. cbn [mbind option_bind]. fold n'. fold h1 h2 h3 h4.
  split; [done|]. split; [done|]. split; [intros leaf; cbv beta iota zeta; by rewrite Eh|].
  rewrite Ek'. split; [rewrite <-!app_assoc in L4; rewrite <-!app_assoc; exact L4|]. split; [intros p Hp; apply Ag; mem|].
  assert (fents h4 [(u, cu)] = keepf r (fents h [(u, cu)])) as FU'.
  { rewrite !fents_cons, !fents_nil, !app_nil_r. exact FU. }
  assert (forall es : list (K * V), keepf r (keepf r es) = keepf r es) as Kk.
  { intros es. apply (keepf_out cmp). intros e He. by apply (keepf_elem cmp) in He as [_ He]. }
  split; [|split].
  - rewrite !fents_app, FP, FH, FY, FU', !(keepf_app cmp), !Kk. rewrite (keepf_in cmp r (fents h lQ) AQ). done.
  - rewrite !(clean_app cmp). unfold clean at 1 2 4. rewrite FP, FH, FU'. split; [intros e He; by apply (keepf_elem cmp) in He as [_ He]|].
    split; [intros e He; by apply (keepf_elem cmp) in He as [_ He]|]. split; [intros e; rewrite FY; apply CY|].
    intros e He; by apply (keepf_elem cmp) in He as [_ He].
  - intros p Hp. split; [mem|]. intros e He.
    assert (p ∈ lY \/ ents h4 p.2 = keepf r (ents h p.2)) as [Hy|Ex].
    { apply elem_of_app in Hp as [Hp|Hp]; [|apply elem_of_app in Hp as [Hp|Hp]; [|apply elem_of_app in Hp as [Hp|Hp]]].
      - right. rewrite <-(N1 p Hp). rewrite (agree_ents h3 h4), (agree_ents h2 h3), (agree_ents h1 h2); [done|apply Ag2|apply Ag3|apply Ag4]; mem.
      - right. rewrite (agree_ents h3 h4), (N3 p Hp) by (apply Ag4; mem). f_equal. rewrite (agree_ents h1 h2), (agree_ents h h1); [done|apply Ag1|apply Ag2]; mem.
      - by left.
      - right. apply elem_of_list_singleton in Hp as ->. exact FU. }
    + rewrite (agree_ents h h4) in He by (apply Ag; mem). exact He.
    + rewrite Ex in He. by apply (keepf_elem cmp) in He as [He _].
Qed.

Lemma ukids_end {C} (n : inode K C) c : ub n = To c -> forall v, ukids v n = map lab (scan (ch n)) ++ [(v, c)].
Proof. intros E v. unfold ukids, ub_kid. by rewrite E. Qed.
Lemma linked_suffix h X Y : linked h (X ++ Y) -> linked h Y.
Proof. intros [C S]. split; [by apply core_app in C as (_ & C & _)|]. rewrite fmap_app in S. by apply seg_app in S as [_ S]. Qed.
Lemma ln_rr_spec r : rr_spec r ukids (nwf (fun _ : nat => True)) (ln_remove_range cmp r).
Proof.
  split.
  - intros u A B h n W Lk. destruct (ln_rr_ok r u A B h n false W Lk) as (h' & n' & ul & s & i & M & c & Eu & W' & Ek & E1 & E2 & E3 & Lk' & Ag & Kf & Cn & Sb); [done|].
    by exists h', n', c.
  - intros u B h n W Lk St. destruct (ln_rr_ok r u [] B h n true W Lk) as (h' & n' & ul & s & i & M & c & Eu & W' & Ek & E1 & E2 & E3 & Lk' & Ag & Kf & Cn & Sb); [done|].
    by exists h', n', c.
  - intros k A B h n W Lk Ik. destruct (ln_rr_ok r (Some k) A B h n false W Lk) as (h' & n' & ul & s & i & M & c & Eu & W' & Ek & E1 & E2 & E3 & Lk' & Ag & Kf & Cn & Sb); [done|].
    pose proof (ukids_end n' ul Eu) as En. exists h', n', c, ul, (map lab (scan (ch n'))), (Some k), [], [], ul.
    split; [done|]. split; [done|]. split; [done|]. rewrite En in *. split; [rewrite <-app_assoc in Lk'; exact Lk'|]. split; [done|]. split; [done|].
    split; [intros e He; by apply elem_of_nil in He|]. split; [done|done].
  - intros u A s0 i0 D B h n W Lk St.
    destruct (ln_rr_ok r u (A ++ (s0, i0) :: D) B h n true W) as (h' & n' & ul & s & i & M & c & Eu & W' & Ek & E1 & E2 & E3 & Lk' & Ag & Kf & Cn & Sb).
    { by rewrite <-app_assoc. } { done. }
    rewrite <-app_assoc in Lk'. cbn [app] in Lk'. rewrite Ek in Lk'. cbn [app] in Lk'.
    destruct (linked_bypass cmp h' A s0 i0 D s i (M ++ B) Lk') as [Lk2 Ag2].
    exists (set_link h' i0 (Some i) TNone), n', c. split; [apply E3|]. split; [done|]. split; [by rewrite Ek|].
    split. { intros p Hp. eapply agree_trans; [|apply Ag2]. apply Ag. mem. }
    assert (fents (set_link h' i0 (Some i) TNone) (ukids u n') = fents h' (ukids u n')) as Ef by (apply agree_fents; intros; apply Ag2).
    split; [by rewrite Ef|]. split; [intros e; rewrite Ef; apply Cn|]. intros p Hp. destruct (Sb p Hp) as [H1 H2]. split; [done|].
    intros e. rewrite (agree_ents h' _ _ (Ag2 p.2)). apply H2.
Qed.

(** ** Internal nodes *)
Section internal.
Context {C : Type} (f : option K -> inode K C -> list (option K * nat)) (wf : inode K C -> Prop).
Hypothesis Hf : forall n, wf n -> exists F i, forall u, f u n = F ++ [(u, i)].
Context (r : bound K * bound K) (rr : heap K V -> inode K C -> bool -> rr_mode -> option (heap K V * inode K C * nat * rr_out)).
Hypothesis IH : rr_spec r f wf rr.
Implicit Types (n : inode K (inode K C)).
Notation G := (gflat f).
Definition gf u n := G (ukids u n).

Lemma gsnoc P e : G (map lab (P ++ olist (Some e))) = G (map lab P) ++ f (Some e.1) e.2.
Proof. rewrite map_app, gflat_app. f_equal. cbn [olist map]. unfold lab. rewrite gflat_cons. apply app_nil_r. Qed.
Lemma in_plain u A B h n : nwf wf n -> linked h (A ++ gf u n ++ B) ->
  exists h' n' c, in_remove_range cmp rr r h n false Plain = Some (h', n', c, NotReached) /\ nwf wf n' /\ linked h' (A ++ gf u n' ++ B) /\
    same h h' (A ++ B) /\ keepf r (fents h' (gf u n')) = keepf r (fents h (gf u n)) /\ clean r h' (gf u n').
Proof.
  intros W Lk. destruct (view cmp T wf u n r false W) as (P & lo & Q & hi & Y & cu & hs & hc & Yt & Sc & Cl & Eu & Wu & Ekt & Eh & Wh & Wk & Hn & Hs & Ek); [done|].
  pose proof W as [Gd Fz _ _].
  destruct (in_loop_eq cmp r false false P lo Q hi Y (ch n) Cl) as (st & cnt & El); [done|]. rewrite <-Sc in El.
  destruct (dropk_spec cmp T Q (P ++ olist lo) (olist hi ++ Y) (ch n) Gd Fz) as (Gd' & Fz' & Sc'); [by rewrite Sc, <-!app_assoc|].
  set (n1 := INode (dropk cmp Q (ch n)) (ub n)).
  assert (nwf wf n1) as W1.
  { split; cbn [n1 ch ub]; [done|done|by exists cu|]. rewrite Sc'. intros e He. apply Wk. mem. }
  unfold in_remove_range. rewrite El. cbn [mbind option_bind]. cbv beta iota zeta. rewrite Eh. fold n1.
  unfold gf in *. rewrite Ek in *.
  assert (clean r h (G Yt)) as CY.
  { destruct hi as [e|]; [|destruct (Hn eq_refl) as (_ & _ & ->); intros x Hx; by apply elem_of_nil in Hx].
    destruct (Hs e eq_refl) as [-> ->]. destruct (Hf e.2 Wh) as (F & i & EF).
    eapply (clean_above cmp T r h (A ++ G (map lab (P ++ olist lo)) ++ G (map lab Q) ++ f (Some e.1) e.2) _ e.1 i).
    - apply (core_fst cmp h _ B). pose proof (proj1 Lk) as Co. rewrite !gflat_app, gflat_cons in Co. rewrite <-!app_assoc in *. exact Co.
    - rewrite EF. mem.
    - apply (cl_above _ _ _ _ _ _ _ _ Cl). by left. }
  assert (clean r h (G (map lab P))) as CP.
  { eapply (clean_under cmp T f wf Hf r h A P).
    - intros e He. apply Wk. mem.
    - pose proof (proj1 Lk) as Co. rewrite map_app, !gflat_app, <-!app_assoc in Co. exact Co.
    - apply (cl_under _ _ _ _ _ _ _ _ Cl). }
  destruct lo as [e|].
  - (* both borders *)
    set (Pl := G (map lab P)) in *. set (GQ := G (map lab Q)) in *. set (GY := G Yt) in *.
    assert (A ++ G (map lab (P ++ olist (Some e)) ++ map lab Q ++ (hs, hc) :: Yt) ++ B = (A ++ Pl) ++ f (Some e.1) e.2 ++ (GQ ++ f hs hc ++ GY ++ B)) as EL.
    { rewrite map_app, !gflat_app, gflat_cons. cbn [olist map]. unfold lab at 2. rewrite gflat_cons. change (G []) with (@nil (option K * nat)).
      rewrite app_nil_r, <-!app_assoc. done. }
    rewrite EL in Lk. assert (inr r e.1 = true) as Ie by (apply (cl_in _ _ _ _ _ _ _ _ Cl); by left).
    assert (wf e.2) as We by (apply Wk; mem).
    destruct (rs_upper _ _ _ _ IH e.1 _ _ h e.2 We Lk Ie) as (h1 & l' & c1 & i & F & s & D & D0 & j & E1 & W1' & EF & L1 & ED & Cl1 & AD & Kf1 & Sm1).
    rewrite E1. cbn [mbind option_bind]. cbv beta iota zeta.
    destruct (put_key_spec cmp T wf n1 e P (olist hi ++ Y) l' W1) as (W2 & Sc2 & Eu2); [unfold n1; cbn [ch]; rewrite Sc', <-app_assoc; done|done|].
    set (n2 := put_key cmp n1 e.1 l') in *.
    (* the upper side *)
    assert (starts r h1 (GQ ++ f hs hc ++ GY ++ B)) as St1.
    { eapply (starts_after cmp T r h1 ((A ++ Pl) ++ F ++ (s, i) :: D) _ e.1 j).
      - pose proof (proj1 L1) as Co. rewrite <-!app_assoc in *. exact Co.
      - rewrite ED. mem.
      - by apply in_not_under. }
    apply (starts_app cmp) in St1 as [StQ St1]. apply (starts_app cmp) in St1 as [Sth _].
    assert (linked h1 (((A ++ Pl) ++ F) ++ (s, i) :: (D ++ GQ) ++ f hs hc ++ (GY ++ B))) as L1'.
    { rewrite <-!app_assoc in *. exact L1. }
    destruct (rs_lower _ _ _ _ IH hs _ s i _ _ h1 hc Wh L1' Sth) as (h2 & u' & c2 & E2 & Wu' & L2 & Sm2 & Kf2 & Cl2 & Sb2).
    rewrite E2. cbn [mbind option_bind]. cbv beta iota zeta.
    destruct (put_border_spec cmp T wf u n2 hi Y (P ++ [(e.1, l')]) cu hs hc Yt u' W2) as (W3 & Ek3);
      [by rewrite Eu2|rewrite Sc2, <-app_assoc; done|apply (cl_end _ _ _ _ _ _ _ _ Cl)|exact Ekt|done|].
    set (n3 := put_border cmp n2 hi u') in *. exists h2, n3, cnt. split; [done|]. split; [done|]. rewrite Ek3.
    assert (G (map lab (P ++ [(e.1, l')]) ++ (hs, u') :: Yt) = Pl ++ (F ++ [(Some e.1, i)]) ++ f hs u' ++ GY) as E3.
    { rewrite map_app, !gflat_app, gflat_cons. cbn [map]. unfold lab at 2. cbn [fst snd]. rewrite gflat_cons, EF. change (G []) with (@nil (option K * nat)).
      rewrite app_nil_r, <-!app_assoc. done. }
    rewrite E3.
    (* relabelling the last leaf of the lower side *)
    assert (same h1 h2 ((A ++ Pl) ++ F ++ [(s, i)] ++ GY ++ B)) as Sm2'. { intros p Hp. apply Sm2. mem. }
    assert (linked h2 (((A ++ Pl) ++ F) ++ (Some e.1, i) :: f hs u' ++ GY ++ B)) as L3.
    { pose proof L2 as [Co2 Sg2]. split; [|rewrite fmap_app, fmap_cons in *; exact Sg2].
      pose proof (proj1 L1') as Co1.
      assert (s = Some e.1 \/ exists ks, s = Some ks /\ cmp ks e.1 = Lt) as Hse.
      { destruct D as [|d0 D']; [destruct D0 as [|? D0]; [injection ED as ->; by left|by destruct D0]|].
        right. destruct D0 as [|? D0]; [done|]. injection ED as <- ED. apply core_app in Co1 as (_ & Co1 & _). apply core_cons in Co1 as (_ & _ & Pr).
        destruct (Pr (Some e.1, j)) as [_ (ks & Es & Lt & _)]; [rewrite ED; mem|]. exists ks. done. }
      assert (forall b, b ∈ f hs hc ++ GY ++ B -> prior h1 (Some e.1, 0) b) as Ab1.
      { intros b Hb. apply (prior_fst cmp h1 (Some e.1) j 0 b).
        assert (core h1 ((((A ++ Pl) ++ F) ++ (s, i) :: D) ++ GQ ++ (f hs hc ++ GY ++ B))) as Co3 by (rewrite <-!app_assoc in *; exact Co1).
        apply core_app in Co3 as (_ & _ & Pr). apply Pr; [rewrite ED; mem|mem]. }
      eapply (core_relabel cmp); [exact Co2| | |].
      - intros x Hx. rewrite (agree_ents h1 h2) in Hx by (apply (Sm2 (s, i)); mem).
        destruct (core_at cmp h1 _ _ _ Co1) as (c0 & _ & _ & _ & _ & Ks). specialize (Ks x Hx). cbn [fst] in Ks.
        destruct Hse as [-> | (ks & -> & Lt)]; [exact Ks|]. cbn in *. apply (cmp_le_trans cmp T) with (b := ks); [exact Ks|congruence].
      - intros a Ha. apply core_app in Co1 as (_ & _ & Pr). destruct (Pr a (s, i) Ha) as [_ (ka & Ea & Lt & _)]; [by left|]. exists ka. split; [done|].
        cbn [fst] in Lt. destruct Hse as [-> | (ks & -> & Lt2)]; [exact Lt|]. cbn in *. by eapply (cmp_trans cmp T).
      - intros b Hb. apply elem_of_app in Hb as [Hb|Hb].
        + destruct (Sb2 b Hb) as [Hb1 Hb2]. destruct (Ab1 b) as (k & Ek0 & Lt & Hk); [mem|]. exists k. split; [done|]. split; [done|].
          intros x Hx. by apply Hk, Hb2.
        + apply (agree_prior cmp h1); [apply Sm2; mem|]. apply Ab1. mem. }
    assert (same h h2 (A ++ Pl ++ GY ++ B)) as Sm.
    { intros p Hp. apply agree_trans with (h2 := h1); [apply Sm1; mem|apply Sm2; mem]. }
    assert (allin r h1 GQ) as AQ.
    { eapply (allin_kids cmp T f wf Hf r h1 (((A ++ Pl) ++ F) ++ (s, i) :: D)).
      - intros x Hx. apply Wk. mem.
      - pose proof (proj1 L1') as Co. rewrite <-!app_assoc in *. cbn [app] in *. rewrite <-?app_assoc in *. exact Co.
      - intros x Hx. apply (cl_in _ _ _ _ _ _ _ _ Cl). mem.
      - done. }
    assert (fents h1 GQ = fents h GQ) as FQ by (apply agree_fents; intros p Hp; apply Sm1; mem).
    assert (fents h2 GY = fents h GY) as FY by (apply agree_fents; intros p Hp; apply Sm; mem).
    assert (fents h2 Pl = fents h Pl) as FP by (apply agree_fents; intros p Hp; apply Sm; mem).
    assert (fents h1 (f hs hc) = fents h (f hs hc)) as FH by (apply agree_fents; intros p Hp; apply Sm1; mem).
    assert (fents h2 (F ++ [(Some e.1, i)]) = fents h1 (F ++ [(s, i)])) as FF.
    { transitivity (fents h2 (F ++ [(s, i)])); [by rewrite !fents_app|]. apply agree_fents. intros p Hp. apply Sm2. mem. }
    split; [rewrite <-!app_assoc in *; exact L3|]. split; [intros p Hp; apply Sm; mem|]. split.
    + rewrite !gflat_app, gflat_cons. rewrite !fents_app, !(keepf_app cmp), FP, FY, Kf2, FH, <-(keepf_app cmp), <-fents_app, FF.
      assert (keepf r (fents h1 (F ++ [(s, i)])) = keepf r (fents h (f (Some e.1) e.2))) as ->.
      { rewrite <-Kf1. change (F ++ (s, i) :: D) with (F ++ [(s, i)] ++ D). rewrite app_assoc, (fents_app _ _ D), (keepf_app cmp).
        rewrite (keepf_in cmp r (fents h1 D) AD), app_nil_r. done. }
      rewrite gsnoc.
      fold Pl GQ GY. rewrite fents_app, (keepf_app cmp), <-FQ, (keepf_in cmp r (fents h1 GQ) AQ). rewrite <-!app_assoc. done.
    + rewrite !(clean_app cmp). split; [intros x; rewrite FP; apply CP|]. split.
      { apply (clean_app cmp). intros x. rewrite FF. apply Cl1. }
      split; [exact Cl2|intros x; rewrite FY; apply CY].
  - (* one border *)
    pose proof (cl_lo _ _ _ _ _ _ _ _ Cl eq_refl eq_refl) as EQ. subst Q. cbn [olist map app] in *. rewrite app_nil_r in *.
    set (Pl := G (map lab P)) in *. set (GY := G Yt) in *.
    assert (G (map lab P ++ (hs, hc) :: Yt) = Pl ++ f hs hc ++ GY) as EL by (by rewrite gflat_app, gflat_cons).
    rewrite EL in *. assert (linked h ((A ++ Pl) ++ f hs hc ++ (GY ++ B))) as Lk' by (rewrite <-!app_assoc in *; exact Lk).
    destruct (rs_plain _ _ _ _ IH hs _ _ h hc Wh Lk') as (h1 & u' & c1 & E1 & Wu' & L1 & Sm & Kf & Cn).
    rewrite E1. cbn [mbind option_bind]. cbv beta iota zeta.
    destruct (put_border_spec cmp T wf u n1 hi Y P cu hs hc Yt u' W1) as (W3 & Ek3); [done|exact Sc'|apply (cl_end _ _ _ _ _ _ _ _ Cl)|exact Ekt|done|].
    exists h1, (put_border cmp n1 hi u'), cnt. split; [done|]. split; [done|]. rewrite Ek3, gflat_app, gflat_cons. fold Pl GY.
    assert (fents h1 GY = fents h GY) as FY by (apply agree_fents; intros p Hp; apply Sm; mem).
    assert (fents h1 Pl = fents h Pl) as FP by (apply agree_fents; intros p Hp; apply Sm; mem).
    split; [rewrite <-!app_assoc in *; exact L1|]. split; [intros p Hp; apply Sm; mem|]. split.
    + rewrite !fents_app, !(keepf_app cmp), FP, FY, Kf. done.
    + rewrite !(clean_app cmp). split; [intros x; rewrite FP; apply CP|]. split; [exact Cn|intros x; rewrite FY; apply CY].
Qed.

(** Nothing of the subtree starts before the range. *)
Lemma starts_seps h u n : nwf wf n -> starts r h (gf u n) -> forall e, e ∈ scan (ch n) -> under r e.1 = false.
Proof.
  intros W St e He. destruct (kids_sep f wf Hf (scan (ch n)) e He) as (i & Hi).
  { by apply (nw_kids _ _ _ W). }
  destruct (St (Some e.1, i)) as [H _]; [|by apply H]. unfold gf, ukids. rewrite gflat_app. apply elem_of_app. by left.
Qed.
(** Removal with a lower neighbour, or from the very start: the children up to the border are dropped. *)
Lemma in_from u h n : nwf wf n -> starts r h (gf u n) ->
  exists Q hs hc Yt n1 hi cnt st, ukids u n = map lab Q ++ (hs, hc) :: Yt /\ wf hc /\ (forall e, e ∈ Q -> wf e.2 /\ inr r e.1 = true) /\
    in_rr_loop cmp (scan (ch n)) r true false Below (ch n) 1 None None = Some (st, ch n1, cnt, None, hi) /\ ub n1 = ub n /\
    match hi with Some e => To e.2 | None => ub n end = To hc /\
    (forall c', wf c' -> nwf wf (put_border cmp n1 hi c') /\ ukids u (put_border cmp n1 hi c') = (hs, c') :: Yt) /\
    (forall X Z, core h (X ++ gf u n ++ Z) -> clean r h (G Yt)).
Proof.
  intros W St. destruct (view cmp T wf u n r true W) as (P & lo & Q & hi & Y & cu & hs & hc & Yt & Sc & Cl & Eu & Wu & Ekt & Eh & Wh & Wk & Hn & Hs & Ek).
  { intros _. by eapply starts_seps. }
  destruct (cl_su _ _ _ _ _ _ _ _ Cl eq_refl) as [-> ->]. cbn [olist app map] in *. pose proof W as [Gd Fz _ _].
  destruct (in_loop_eq cmp r true false [] None Q hi Y (ch n) Cl) as (st & cnt & El); [done|]. cbn [olist app] in El. rewrite <-Sc in El.
  destruct (dropk_spec cmp T Q [] (olist hi ++ Y) (ch n) Gd Fz) as (Gd' & Fz' & Sc'); [done|]. cbn [app] in Sc'.
  set (n1 := INode (dropk cmp Q (ch n)) (ub n)).
  assert (nwf wf n1) as W1.
  { split; cbn [n1 ch ub]; [done|done|by exists cu|]. rewrite Sc'. intros e He. apply Wk. mem. }
  exists Q, hs, hc, Yt, n1, hi, cnt, st. split; [done|]. split; [done|]. split.
  { intros e He. split; [apply Wk; mem|by apply (cl_in _ _ _ _ _ _ _ _ Cl)]. }
  split; [done|]. split; [done|]. split; [done|]. split.
  - intros c' Wc. apply (put_border_spec cmp T wf u n1 hi Y [] cu hs hc Yt c' W1); [done|exact Sc'|apply (cl_end _ _ _ _ _ _ _ _ Cl)|exact Ekt|done].
  - intros X Z Co. unfold gf in Co. rewrite Ek in Co.
    destruct hi as [e|]; [|destruct (Hn eq_refl) as (_ & _ & ->); intros x Hx; by apply elem_of_nil in Hx].
    destruct (Hs e eq_refl) as [-> ->]. destruct (Hf e.2 Wh) as (F & i & EF).
    eapply (clean_above cmp T r h (X ++ G (map lab Q) ++ f (Some e.1) e.2) _ e.1 i).
    + apply (core_fst cmp h _ Z). rewrite !gflat_app, gflat_cons in Co. rewrite <-!app_assoc in *. exact Co.
    + rewrite EF. mem.
    + apply (cl_above _ _ _ _ _ _ _ _ Cl). by left.
Qed.
Lemma in_first u B h n : nwf wf n -> linked h (gf u n ++ B) -> starts r h (gf u n) ->
  exists h' n' c, in_remove_range cmp rr r h n true Plain = Some (h', n', c, NotReached) /\ nwf wf n' /\ linked h' (gf u n' ++ B) /\
    same h h' B /\ keepf r (fents h' (gf u n')) = keepf r (fents h (gf u n)) /\ clean r h' (gf u n').
Proof.
  intros W Lk St. destruct (in_from u h n W St) as (Q & hs & hc & Yt & n1 & hi & cnt & s0 & Ek & Wh & HQ & El & Eu & Eh & Hput & CY).
  specialize (CY [] B (proj1 Lk)).
  unfold in_remove_range. rewrite El. cbn [mbind option_bind]. cbv beta iota zeta. rewrite Eh. rewrite <-Eu. replace (INode (ch n1) (ub n1)) with n1 by (by destruct n1).
  unfold gf in *. rewrite Ek in *. rewrite gflat_app, gflat_cons in *. set (GQ := G (map lab Q)) in *. set (GY := G Yt) in *.
  assert (linked h (GQ ++ f hs hc ++ GY ++ B)) as Lk0 by (rewrite <-!app_assoc in Lk; exact Lk).
  apply (starts_app cmp) in St as [StQ St]. apply (starts_app cmp) in St as [Sth _].
  destruct (rs_first _ _ _ _ IH hs (GY ++ B) h hc Wh (linked_suffix _ _ _ Lk0) Sth) as (h1 & u' & c1 & E1 & Wu' & L1 & Sm & Kf & Cn).
  rewrite E1. cbn [mbind option_bind]. cbv beta iota zeta. destruct (Hput u' Wu') as [W3 Ek3].
  exists h1, (put_border cmp n1 hi u'), cnt. split; [done|]. split; [done|]. rewrite Ek3, gflat_cons. fold GY.
  assert (fents h1 GY = fents h GY) as FY by (apply agree_fents; intros p Hp; apply Sm; mem).
  assert (allin r h GQ) as AQ.
  { eapply (allin_kids cmp T f wf Hf r h []); [intros x Hx; by apply HQ|exact (proj1 Lk0)|intros x Hx; by apply HQ|done]. }
  split; [rewrite <-!app_assoc in *; exact L1|]. split; [intros p Hp; apply Sm; mem|]. split.
  - rewrite !fents_app, !(keepf_app cmp), FY, Kf, (keepf_in cmp r (fents h GQ) AQ). done.
  - rewrite !(clean_app cmp). split; [exact Cn|intros x; rewrite FY; apply CY].
Qed.
Lemma in_lower u A s i D B h n : nwf wf n -> linked h (A ++ (s, i) :: D ++ gf u n ++ B) -> starts r h (gf u n) ->
  exists h' n' c, in_remove_range cmp rr r h n true (WithLower i) = Some (h', n', c, NotReached) /\ nwf wf n' /\
    linked h' (A ++ (s, i) :: gf u n' ++ B) /\ same h h' (A ++ (s, i) :: B) /\
    keepf r (fents h' (gf u n')) = keepf r (fents h (gf u n)) /\ clean r h' (gf u n') /\ subl h h' (gf u n) (gf u n').
Proof.
  intros W Lk St. destruct (in_from u h n W St) as (Q & hs & hc & Yt & n1 & hi & cnt & s0 & Ek & Wh & HQ & El & Eu & Eh & Hput & CY).
  specialize (CY (A ++ (s, i) :: D) B). rewrite <-app_assoc in CY. specialize (CY (proj1 Lk)).
  unfold in_remove_range. rewrite El. cbn [mbind option_bind]. cbv beta iota zeta. rewrite Eh. rewrite <-Eu. replace (INode (ch n1) (ub n1)) with n1 by (by destruct n1).
  unfold gf in *. rewrite Ek in *. rewrite gflat_app, gflat_cons in *. set (GQ := G (map lab Q)) in *. set (GY := G Yt) in *.
  assert (linked h (A ++ (s, i) :: (D ++ GQ) ++ f hs hc ++ GY ++ B)) as Lk0 by (rewrite <-!app_assoc in *; exact Lk).
  apply (starts_app cmp) in St as [StQ St]. apply (starts_app cmp) in St as [Sth _].
  destruct (rs_lower _ _ _ _ IH hs A s i (D ++ GQ) (GY ++ B) h hc Wh Lk0 Sth) as (h1 & u' & c1 & E1 & Wu' & L1 & Sm & Kf & Cn & Sb).
  rewrite E1. cbn [mbind option_bind]. cbv beta iota zeta. destruct (Hput u' Wu') as [W3 Ek3].
  exists h1, (put_border cmp n1 hi u'), cnt. split; [done|]. split; [done|]. rewrite Ek3, gflat_cons. fold GY.
  assert (fents h1 GY = fents h GY) as FY by (apply agree_fents; intros p Hp; apply Sm; mem).
  assert (allin r h GQ) as AQ.
  { eapply (allin_kids cmp T f wf Hf r h (A ++ (s, i) :: D)); [intros x Hx; by apply HQ| |intros x Hx; by apply HQ|done].
    pose proof (proj1 Lk0) as Co. cbn [app] in *. rewrite <-!app_assoc in *. exact Co. }
  split; [rewrite <-!app_assoc in *; exact L1|]. split; [intros p Hp; apply Sm; mem|]. split.
  { rewrite !fents_app, !(keepf_app cmp), FY, Kf, (keepf_in cmp r (fents h GQ) AQ). done. }
  split.
  { rewrite !(clean_app cmp). split; [exact Cn|intros x; rewrite FY; apply CY]. }
  intros p Hp. apply elem_of_app in Hp as [Hp|Hp].
  - destruct (Sb p Hp) as [H1 H2]. split; [mem|done].
  - split; [mem|]. intros e. rewrite (agree_ents h h1 p.2); [done|]. apply Sm. mem.
Qed.
Lemma in_upper k A B h n : nwf wf n -> linked h (A ++ gf (Some k) n ++ B) -> inr r k = true ->
  exists h' n' c i F s D D0 j, in_remove_range cmp rr r h n false WithUpper = Some (h', n', c, Reached (Some i)) /\ nwf wf n' /\
    (forall v, gf v n' = F ++ [(v, i)]) /\ linked h' (A ++ F ++ (s, i) :: D ++ B) /\ (s, i) :: D = D0 ++ [(Some k, j)] /\
    clean r h' (F ++ [(s, i)]) /\ allin r h' D /\
    keepf r (fents h' (F ++ (s, i) :: D)) = keepf r (fents h (gf (Some k) n)) /\ same h h' (A ++ B).
Proof.
  intros W Lk Ik. destruct (view cmp T wf (Some k) n r false W) as (P & lo & Q & hi & Y & cu & hs & hc & Yt & Sc & Cl & Eu & Wu & Ekt & Eh & Wh & Wk & Hn & Hs & Ek); [done|].
  pose proof W as [Gd Fz _ _].
  (* nothing of the node lies beyond the range *)
  assert (hi = None) as ->.
  { destruct hi as [e|]; [exfalso|done]. assert (within r e.1 = false) as Hw by (apply (cl_above _ _ _ _ _ _ _ _ Cl); by left).
    assert (e ∈ scan (ch n)) as He by (rewrite Sc; cbn [olist]; mem).
    destruct (kids_sep f wf Hf (scan (ch n)) e He) as (i & Hi). { apply (nw_kids _ _ _ W e He). }
    destruct (Hf cu Wu) as (F & j & EF).
    pose proof (proj1 Lk) as Co. unfold gf, ukids, ub_kid in Co. rewrite Eu, gflat_app in Co.
    rewrite gflat_cons, EF in Co. change (G []) with (@nil (option K * nat)) in Co. rewrite app_nil_r, <-!app_assoc, (app_assoc A) in Co.
    destruct (after_lt cmp h (A ++ G (map lab (scan (ch n)))) _ e.1 i Co) as [_ H2]; [mem|].
    specialize (H2 (Some k, j) ltac:(mem)). cbn in H2.
    apply in_within in Ik. rewrite (within_mono cmp T r e.1 k Hw H2) in Ik. discriminate Ik. }
  destruct (Hn eq_refl) as (-> & -> & ->). pose proof (cl_end _ _ _ _ _ _ _ _ Cl eq_refl) as EY. subst Y. cbn [olist app] in *. rewrite ?app_nil_r in *.
  destruct (in_loop_eq cmp r false true P lo Q None [] (ch n)) as (st & cnt & El); [exact Cl|done|]. cbn [olist app] in El. rewrite ?app_nil_r, <-Sc in El.
  destruct (dropk_spec cmp T Q (P ++ olist lo) [] (ch n) Gd Fz) as (Gd' & Fz' & Sc'); [by rewrite Sc, app_nil_r, <-!app_assoc|]. rewrite app_nil_r in Sc'.
  set (n1 := INode (dropk cmp Q (ch n)) (ub n)).
  unfold in_remove_range. rewrite El. cbn [mbind option_bind]. cbv beta iota zeta. fold n1.
  unfold gf in *. rewrite Ek in *.
  assert (clean r h (G (map lab P))) as CP.
  { eapply (clean_under cmp T f wf Hf r h A P).
    - intros e He. apply Wk. mem.
    - pose proof (proj1 Lk) as Co. rewrite map_app, !gflat_app, <-!app_assoc in Co. exact Co.
    - apply (cl_under _ _ _ _ _ _ _ _ Cl). }
  set (GP := G (map lab P)) in *.
  destruct lo as [e|].
  - (* the subtree of [e] becomes the last one *)
    rewrite gflat_app, gsnoc, gflat_app, gflat_cons in *. change (G []) with (@nil (option K * nat)) in *. rewrite app_nil_r in *. fold GP in Lk |- *.
    set (GQ := G (map lab Q)) in *. set (GU := f (Some k) cu) in *.
    assert (linked h ((A ++ GP) ++ f (Some e.1) e.2 ++ (GQ ++ GU ++ B))) as Lk0 by (rewrite <-!app_assoc in *; exact Lk).
    assert (inr r e.1 = true) as Ie by (apply (cl_in _ _ _ _ _ _ _ _ Cl); by left).
    assert (wf e.2) as We by (apply Wk; cbn [olist]; mem).
    destruct (rs_upper _ _ _ _ IH e.1 _ _ h e.2 We Lk0 Ie) as (h1 & l' & c1 & i & F & s & D & D0 & j & E1 & W1' & EF & L1 & ED & Cl1 & AD & Kf1 & Sm1).
    cbn [olist] in Sc'. destruct (kid_drop cmp T (dropk cmp Q (ch n)) P e [] Gd' Fz' Sc') as (Gd2 & Fz2 & Sc2). rewrite app_nil_r in Sc2.
    cbn [n1 ch ub]. rewrite E1. cbn [mbind option_bind]. cbv beta iota zeta.
    set (n2 := INode (remove_if cmp (dropk cmp Q (ch n)) e.1 (fun _ => true)).1 (To e.2)).
    assert (nwf wf (put n2 AtUb l')) as W2.
    { split; cbn [put n2 ch ub]; [done|done|by exists l'|]. rewrite Sc2. intros x Hx. apply Wk. mem. }
    exists h1, (put n2 AtUb l'), cnt, i, (GP ++ F), s, (D ++ GQ ++ GU).
    destruct (Hf cu Wu) as (FU & ju & EU). exists (D0 ++ [(Some e.1, j)] ++ GQ ++ FU), ju.
    assert (starts r h1 (GQ ++ GU ++ B)) as St1.
    { eapply (starts_after cmp T r h1 ((A ++ GP) ++ F ++ (s, i) :: D) _ e.1 j).
      - pose proof (proj1 L1) as Co. rewrite <-!app_assoc in *. exact Co.
      - rewrite ED. mem.
      - by apply in_not_under. }
    apply (starts_app cmp) in St1 as [StQ St1]. apply (starts_app cmp) in St1 as [StU _].
    assert (core h1 ((((A ++ GP) ++ F) ++ (s, i) :: D) ++ GQ ++ GU ++ B)) as Co1 by (pose proof (proj1 L1) as Co; rewrite <-!app_assoc in *; exact Co).
    assert (allin r h1 GQ) as AQ.
    { eapply (allin_kids cmp T f wf Hf r h1); [intros x Hx; apply Wk; mem|exact Co1|intros x Hx; apply (cl_in _ _ _ _ _ _ _ _ Cl); cbn [olist]; mem|done]. }
    assert (allin r h1 GU) as AU.
    { intros x Hx. apply in_intro; [by eapply starts_fents|]. rewrite app_assoc in Co1. apply sub_core in Co1.
      pose proof (kids_top cmp T f wf Hf h1 (Some k) cu Wu Co1 x Hx) as Le. cbn in Le. apply (within_mono_le cmp T r x.1 k); [by apply in_within|exact Le]. }
    assert (fents h1 GP = fents h GP) as FP by (apply agree_fents; intros p Hp; apply Sm1; mem).
    split; [done|]. split; [done|]. split.
    { intros v. unfold ukids, ub_kid. cbn [put n2 ch ub]. rewrite Sc2, gflat_app, gflat_cons, EF. change (G []) with (@nil (option K * nat)).
      rewrite app_nil_r. by rewrite <-app_assoc. }
    split; [rewrite <-!app_assoc in *; exact L1|]. split.
    { change ((s, i) :: D ++ GQ ++ GU) with (((s, i) :: D) ++ GQ ++ GU). rewrite ED. unfold GU. rewrite EU, <-!app_assoc. done. }
    split. { rewrite <-app_assoc. apply (clean_app cmp). split; [intros x; rewrite FP; apply CP|exact Cl1]. }
    split. { rewrite !(allin_app cmp). done. }
    split; [|intros p Hp; apply Sm1; mem].
    rewrite <-app_assoc. change (F ++ (s, i) :: D ++ GQ ++ GU) with (F ++ ((s, i) :: D) ++ GQ ++ GU). rewrite (app_assoc F).
    rewrite !(fents_app _ _ _), !(keepf_app cmp), FP. rewrite <-(keepf_app cmp), <-(fents_app _ F), Kf1.
    rewrite (keepf_in cmp r (fents h1 GQ) AQ), (keepf_in cmp r (fents h1 GU) AU).
    assert (fents h1 GQ = fents h GQ) as FQ by (apply agree_fents; intros p Hp; apply Sm1; mem).
    assert (fents h1 GU = fents h GU) as FU' by (apply agree_fents; intros p Hp; apply Sm1; mem).
    rewrite <-FQ, <-FU', (keepf_in cmp r (fents h1 GQ) AQ), (keepf_in cmp r (fents h1 GU) AU). rewrite !app_nil_r. done.
  - pose proof (cl_lo _ _ _ _ _ _ _ _ Cl eq_refl eq_refl) as EQ. subst Q. cbn [olist map app] in *. rewrite app_nil_r in *.
    rewrite gflat_app, gflat_cons in *. fold GP in Lk |- *. change (G []) with (@nil (option K * nat)) in *. rewrite app_nil_r in *.
    assert (linked h ((A ++ GP) ++ f (Some k) cu ++ B)) as Lk0 by (rewrite <-!app_assoc in *; exact Lk).
    destruct (rs_upper _ _ _ _ IH k _ _ h cu Wu Lk0 Ik) as (h1 & l' & c1 & i & F & s & D & D0 & j & E1 & W1' & EF & L1 & ED & Cl1 & AD & Kf1 & Sm1).
    cbn [n1 ub]. rewrite Eu, E1. cbn [mbind option_bind]. cbv beta iota zeta.
    exists h1, (put n1 AtUb l'), cnt, i, (GP ++ F), s, D, D0, j.
    assert (fents h1 GP = fents h GP) as FP by (apply agree_fents; intros p Hp; apply Sm1; mem).
    split; [done|]. split.
    { split; cbn [put n1 ch ub]; [done|done|by exists l'|]. rewrite Sc'. intros x Hx. apply Wk. mem. }
    split.
    { intros v. unfold ukids, ub_kid. cbn [put n1 ch ub]. rewrite Sc', gflat_app, gflat_cons, EF. change (G []) with (@nil (option K * nat)).
      rewrite app_nil_r. by rewrite <-app_assoc. }
    split; [rewrite <-!app_assoc in *; exact L1|]. split; [done|].
    split. { rewrite <-app_assoc. apply (clean_app cmp). split; [intros x; rewrite FP; apply CP|exact Cl1]. }
    split; [done|]. split; [|intros p Hp; apply Sm1; mem].
    rewrite <-app_assoc, !(fents_app _ GP), !(keepf_app cmp), FP, Kf1. done.
Qed.
Lemma in_rr_spec : rr_spec r gf (nwf wf) (in_remove_range cmp rr r).
Proof. split; [apply in_plain|apply in_first|apply in_upper|apply in_lower]. Qed.
End internal.

(** ** Any depth, and the whole tree *)
Lemma rr_ext {N} r (f g : option K -> N -> list (option K * nat)) wf rr : (forall u n, f u n = g u n) -> rr_spec r f wf rr -> rr_spec r g wf rr.
Proof.
  intros E [H1 H2 H3 H4]. split.
  - intros u A B h n W. rewrite <-E. intros Lk. destruct (H1 u A B h n W Lk) as (h' & n' & c & H). exists h', n', c. rewrite <-E. exact H.
  - intros u B h n W. rewrite <-E. intros Lk St. destruct (H2 u B h n W Lk St) as (h' & n' & c & H). exists h', n', c. rewrite <-E. exact H.
  - intros k A B h n W. rewrite <-E. intros Lk Ik. destruct (H3 k A B h n W Lk Ik) as (h' & n' & c & i & F & s & D & D0 & j & E1 & W' & EF & H).
    exists h', n', c, i, F, s, D, D0, j. split; [exact E1|]. split; [exact W'|]. split; [intros v; rewrite <-E; apply EF|exact H].
  - intros u A s i D B h n W. rewrite <-E. intros Lk St. destruct (H4 u A s i D B h n W Lk St) as (h' & n' & c & H). exists h', n', c. rewrite <-E. exact H.
Qed.
Lemma node_rr_spec r d : rr_spec r (flat (K:=K) d) (kwf (S d)) (node_remove_range cmp d r).
Proof.
  induction d as [|d IH].
  - apply (rr_ext r ukids (flat 0)); [intros u n; symmetry; apply flat0|]. exact (ln_rr_spec r).
  - exact (in_rr_spec (flat d) (kwf (S d)) (kflat_end cmp (S d)) r (node_remove_range cmp d r) IH).
Qed.

Theorem remove_range_sync_ok (t : treeindex K V) r : tree_ok cmp t ->
  (remove_range_sync cmp t r).2 = true /\ tree_ok cmp (remove_range_sync cmp t r).1 /\
  tents (remove_range_sync cmp t r).1 = List.filter (fun e : K * V => negb (range_contains cmp r e.1)) (tents t).
Proof.
  intros Ok. destruct t as [h [[d n]|]]; [|done]. destruct Ok as [W Lk]. unfold remove_range_sync. cbn [root hp].
  pose proof (node_rr_spec r d) as Sp.
  assert (exists h' n' c, node_remove_range cmp d r h n (match r.1 with Unbounded => true | _ => false end) Plain = Some (h', n', c, NotReached) /\
    kwf (S d) n' /\ linked h' (flat d None n') /\
    keepf r (fents h' (flat d None n')) = keepf r (fents h (flat d None n)) /\ clean r h' (flat d None n')) as (h' & n' & c & -> & W' & Lk' & Kf & Cn).
  { destruct (match r.1 with Unbounded => true | _ => false end) eqn:Eu.
    - destruct (rs_first _ _ _ _ Sp None [] h n W) as (h' & n' & c & E & W' & Lk' & _ & Kf & Cn).
      + rewrite app_nil_r. exact Lk.
      + assert (forall k, under r k = false) as Hu by (intros k; unfold TreeModel.below; by destruct r.1). intros p _. split; intros; apply Hu.
      + rewrite app_nil_r in Lk'. by exists h', n', c.
    - destruct (rs_plain _ _ _ _ Sp None [] [] h n W) as (h' & n' & c & E & W' & Lk' & _ & Kf & Cn).
      + rewrite app_nil_r. exact Lk.
      + rewrite app_nil_r in Lk'. by exists h', n', c. }
  cbv beta iota zeta. cbn [fst snd]. split; [done|].
  assert (fents h' (flat d None n') = keepf r (fents h (flat d None n))) as Ef.
  { rewrite <-Kf. symmetry. apply keepf_out. exact Cn. }
  destruct (c <? 2)%nat.
  - unfold TreeModel.clean. cbn [root hp]. destruct (cleanup_root_ok cmp d h' n' W' Lk') as [O E]. split; [exact O|]. rewrite E. exact Ef.
  - split; [split; [exact W'|exact Lk']|exact Ef].
Qed.
End facts.
