(** The leaves of a tree in key order: what holds of them, and what heap operations do to it. *)
From stdpp Require Import prelude list sorting.
From Verif Require Import LeafModel LeafSpec LeafFacts OrdFacts LeafOps LeafSeq TreeLeaf TreeModel.
Opaque scan.

Lemma ss_app {A} (R : A -> A -> Prop) (X Y : list A) :
  StronglySorted R (X ++ Y) <-> StronglySorted R X /\ StronglySorted R Y /\ forall x y, x ∈ X -> y ∈ Y -> R x y.
Proof.
  induction X as [|a X IH]; cbn.
  - split; [|by intros (_ & ? & _)]. intros H. split; [constructor|]. split; [done|]. intros x y Hx. by apply elem_of_nil in Hx.
  - split.
    + intros H. inversion H as [|? ? H1 H2]; subst. apply IH in H1 as (S1 & S2 & S3). rewrite Forall_app in H2. destruct H2 as [F1 F2].
      split; [by constructor|]. split; [done|]. intros x y Hx Hy. apply elem_of_cons in Hx as [->|Hx]; [|auto].
      by eapply (proj1 (Forall_forall _ _)).
    + intros (H & S2 & S3). inversion H as [|? ? S1 F1]; subst. constructor.
      * apply IH. split; [done|]. split; [done|]. intros x y Hx Hy. apply S3; [by right|done].
      * apply Forall_app. split; [done|]. apply Forall_forall. intros y Hy. apply S3; [by left|done].
Qed.
Lemma ss_cons {A} (R : A -> A -> Prop) a (X : list A) :
  StronglySorted R (a :: X) <-> StronglySorted R X /\ forall x, x ∈ X -> R a x.
Proof.
  split.
  - intros H. inversion H; subst. split; [done|]. by apply Forall_forall.
  - intros [H1 H2]. constructor; [done|]. by apply Forall_forall.
Qed.

Section facts.
Context {K V : Type} (cmp : K -> K -> comparison) (T : total_order cmp).
Implicit Types (h : heap K V) (l : leaf K V) (L A B : list (option K * nat)) (i : nat) (s u : option K).
Notation good := (good cmp).

(** Keys and separators; [None] is above every key. *)
Definition kle (k : K) s : Prop := match s with None => True | Some b => cmp k b <> Gt end.
Definition klt (k : K) s : Prop := match s with None => True | Some b => cmp k b = Lt end.
Lemma klt_le k s : klt k s -> kle k s.
Proof. destruct s; cbn; [|done]. congruence. Qed.
Lemma kle_klt a b s : cmp a b <> Gt -> klt b s -> klt a s.
Proof. destruct s; cbn; [|done]. intros. by eapply cmp_le_lt. Qed.
Lemma klt_kle a b s : cmp a b = Lt -> kle b s -> klt a s.
Proof. destruct s; cbn; [|done]. intros. by eapply cmp_lt_le. Qed.
Lemma kle_trans a b s : cmp a b <> Gt -> kle b s -> kle a s.
Proof. destruct s; cbn; [|done]. intros. by eapply cmp_le_trans. Qed.

Definition ents h i : list (K * V) := scan (leaf_at h i).
Definition fents h L : list (K * V) := concat (map (fun p => ents h p.2) L).
Lemma fents_app h A B : fents h (A ++ B) = fents h A ++ fents h B.
Proof. unfold fents. by rewrite map_app, concat_app. Qed.
Lemma fents_cons h s i B : fents h ((s, i) :: B) = ents h i ++ fents h B.
Proof. reflexivity. Qed.
Lemma fents_nil h : fents h [] = [].
Proof. reflexivity. Qed.
Lemma fents_elem h L e : e ∈ fents h L <-> exists s i, (s, i) ∈ L /\ e ∈ ents h i.
Proof.
  induction L as [|[s i] L IH].
  - rewrite fents_nil, elem_of_nil. split; [done|]. intros (s & i & H & _). by apply elem_of_nil in H.
  - rewrite fents_cons, elem_of_app, IH. split.
    + intros [H|(s' & i' & H & He)]; [exists s, i; split; [by left|done]|exists s', i'; split; [by right|done]].
    + intros (s' & i' & H & He). apply elem_of_cons in H as [[= -> ->]|H]; [by left|right; by exists s', i'].
Qed.

(** The leaf at a separator comes before the other. *)
Definition prior h (a b : option K * nat) : Prop :=
  exists k, a.1 = Some k /\ klt k b.1 /\ forall e, e ∈ ents h b.2 -> cmp k e.1 = Lt.
Definition leaf_ok h (p : option K * nat) : Prop :=
  exists c, h !! p.2 = Some c /\ good (c_leaf c) /\ frozen (md (c_leaf c)) = false /\ c_tag c <> TSecond /\
    forall e, e ∈ ents h p.2 -> kle e.1 p.1.
Record core h L : Prop := {
  cr_nodup : NoDup L.*2;
  cr_leaf : forall p, p ∈ L -> leaf_ok h p;
  cr_sorted : StronglySorted (prior h) L }.

Lemma leaf_at_lookup h i c : h !! i = Some c -> leaf_at h i = c_leaf c.
Proof. unfold leaf_at. by intros ->. Qed.
Lemma ok_good h p : leaf_ok h p -> good (leaf_at h p.2).
Proof. intros (c & H & G & _). by rewrite (leaf_at_lookup _ _ _ H). Qed.
Lemma ok_unfrozen h p : leaf_ok h p -> frozen (md (leaf_at h p.2)) = false.
Proof. intros (c & H & _ & F & _). by rewrite (leaf_at_lookup _ _ _ H). Qed.
Lemma ok_lt h p : leaf_ok h p -> p.2 < length h.
Proof. intros (c & H & _). by eapply lookup_lt_Some. Qed.
Lemma ok_asc h p : leaf_ok h p -> ascending cmp (ents h p.2).
Proof. intros H. by apply scan_asc, ok_good. Qed.

Lemma core_nil h : core h [].
Proof. split; [constructor|intros p H; by apply elem_of_nil in H|constructor]. Qed.
Lemma core_app h A B : core h (A ++ B) <-> core h A /\ core h B /\ (forall a b, a ∈ A -> b ∈ B -> a.2 <> b.2 /\ prior h a b).
Proof.
  split.
  - intros [N Lf S]. rewrite fmap_app in N. apply NoDup_app in N as (N1 & N2 & N3). apply ss_app in S as (S1 & S2 & S3).
    split; [split; [done| |done]; intros p Hp; apply Lf, elem_of_app; by left|].
    split; [split; [done| |done]; intros p Hp; apply Lf, elem_of_app; by right|].
    intros a b Ha Hb. split; [|auto]. intros E. apply (N2 a.2); [by apply elem_of_list_fmap_1|]. rewrite E. by apply elem_of_list_fmap_1.
  - intros ([N1 L1 S1] & [N2 L2 S2] & C). split.
    + rewrite fmap_app. apply NoDup_app. split; [done|]. split; [|done]. intros x Hx Hy.
      apply elem_of_list_fmap in Hx as (a & -> & Ha). apply elem_of_list_fmap in Hy as (b & E & Hb). by apply (C a b Ha Hb).
    + intros p Hp. apply elem_of_app in Hp as [Hp|Hp]; auto.
    + apply ss_app. split; [done|]. split; [done|]. intros x y Hx Hy. by apply C.
Qed.
Lemma core_one h s i : core h [(s, i)] <-> leaf_ok h (s, i).
Proof.
  split; [intros [_ H _]; apply H; by left|]. intros H. split.
  - apply NoDup_singleton.
  - intros p Hp. by apply elem_of_list_singleton in Hp as ->.
  - repeat constructor.
Qed.
Lemma core_cons h p B : core h (p :: B) <-> leaf_ok h p /\ core h B /\ forall b, b ∈ B -> p.2 <> b.2 /\ prior h p b.
Proof.
  change (p :: B) with ([p] ++ B). rewrite core_app. destruct p as [s i]. rewrite core_one. split.
  - intros (H1 & H2 & H3). split; [done|]. split; [done|]. intros b Hb. apply H3; [by left|done].
  - intros (H1 & H2 & H3). split; [done|]. split; [done|]. intros a b Ha Hb. apply elem_of_list_singleton in Ha as ->. auto.
Qed.
Lemma core_drop h A M B : core h (A ++ M ++ B) -> core h (A ++ B).
Proof.
  rewrite !core_app. intros (HA & (HM & HB & _) & C). split; [done|]. split; [done|]. intros a b Ha Hb. apply C; [done|].
  apply elem_of_app. by right.
Qed.

(** Heaps that agree on some leaves. *)
Definition agree h h' i : Prop :=
  leaf_at h' i = leaf_at h i /\ forall c, h !! i = Some c -> exists c', h' !! i = Some c' /\ (c_tag c <> TSecond -> c_tag c' <> TSecond).
Lemma agree_refl h i : agree h h i.
Proof. split; [done|]. intros c H. by exists c. Qed.
Lemma agree_trans h1 h2 h3 i : agree h1 h2 i -> agree h2 h3 i -> agree h1 h3 i.
Proof.
  intros [E1 C1] [E2 C2]. split; [by rewrite E2|]. intros c H. destruct (C1 c H) as (c1 & H1 & T1).
  destruct (C2 c1 H1) as (c2 & H2 & T2). exists c2. auto.
Qed.
Lemma agree_ents h h' i : agree h h' i -> ents h' i = ents h i.
Proof. intros [E _]. unfold ents. by rewrite E. Qed.
Lemma agree_ok h h' p : agree h h' p.2 -> leaf_ok h p -> leaf_ok h' p.
Proof.
  intros Ag (c & H & G & F & Tg & Ks). destruct Ag as [E C]. destruct (C c H) as (c' & H' & T'). exists c'.
  assert (c_leaf c' = c_leaf c) as El.
  { rewrite <-(leaf_at_lookup _ _ _ H), <-(leaf_at_lookup _ _ _ H'). done. }
  rewrite El. repeat split; auto. intros e He. apply Ks. by rewrite <-(agree_ents h h' p.2).
Qed.
Lemma agree_prior h h' a b : agree h h' b.2 -> prior h a b -> prior h' a b.
Proof. intros Ag (k & E & L & H). exists k. split; [done|]. split; [done|]. by rewrite (agree_ents _ _ _ Ag). Qed.
Lemma agree_core h h' L : (forall p, p ∈ L -> agree h h' p.2) -> core h L -> core h' L.
Proof.
  induction L as [|p L IH]; intros Ag C; [apply core_nil|]. apply core_cons in C as (O & C & P). apply core_cons.
  assert (forall q, q ∈ L -> agree h h' q.2) as Ag' by (intros q Hq; apply Ag; by right).
  split; [apply (agree_ok h); [apply Ag; by left|done]|]. split; [auto|]. intros b Hb. destruct (P b Hb) as [N Pr].
  split; [done|]. apply (agree_prior h); auto.
Qed.
Lemma agree_fents h h' L : (forall p, p ∈ L -> agree h h' p.2) -> fents h' L = fents h L.
Proof.
  induction L as [|[s i] L IH]; intros Ag; [done|]. rewrite !fents_cons, IH, (agree_ents h h' i); [done| |].
  - apply (Ag (s, i)). by left.
  - intros p Hp. apply Ag. by right.
Qed.

(** All separators are below a key. *)
Definition below A (k : K) : Prop := forall a, a ∈ A -> exists ka, a.1 = Some ka /\ cmp ka k = Lt.
Lemma below_app A B k : below (A ++ B) k <-> below A k /\ below B k.
Proof.
  split.
  - intros H. split; intros a Ha; apply H, elem_of_app; [by left|by right].
  - intros [H1 H2] a Ha. apply elem_of_app in Ha as [Ha|Ha]; auto.
Qed.
Lemma below_nil k : below [] k.
Proof. intros a H. by apply elem_of_nil in H. Qed.
Lemma below_trans A k k' : below A k -> cmp k k' <> Gt -> below A k'.
Proof. intros H L a Ha. destruct (H a Ha) as (ka & E & Lk). exists ka. split; [done|]. by eapply cmp_lt_le. Qed.

Lemma core_asc h L : core h L -> ascending cmp (fents h L).
Proof.
  induction L as [|[s i] L IH]; intros C; [apply asc_nil|]. apply core_cons in C as (O & C & P). rewrite fents_cons. apply asc_app.
  split; [by apply (ok_asc h (s, i))|]. split; [auto|]. intros x y Hx Hy. apply fents_elem in Hy as (s' & i' & Hi & Hy).
  destruct (P _ Hi) as [_ (k & E & _ & Hk)]. cbn in E. subst s. destruct O as (c & _ & _ & _ & _ & Ks).
  pose proof (Ks x Hx) as Lx. cbn in Lx. eapply (cmp_le_lt cmp T); [exact Lx|]. by apply Hk.
Qed.

(** Around the leaf for a key. *)
Lemma core_left h A k : core h A -> below A k -> forall e, e ∈ fents h A -> cmp e.1 k = Lt.
Proof.
  intros C Bl e He. apply fents_elem in He as (s & i & Hi & He). destruct (cr_leaf _ _ C _ Hi) as (c & _ & _ & _ & _ & Ks).
  destruct (Bl _ Hi) as (ka & E & L). cbn in E. subst s. eapply (cmp_le_lt cmp T); [|exact L]. by apply (Ks e He).
Qed.
Lemma core_right h p B k : (forall b, b ∈ B -> prior h p b) -> kle k p.1 -> forall e, e ∈ fents h B -> cmp k e.1 = Lt.
Proof.
  intros P L e He. apply fents_elem in He as (s & i & Hi & He). destruct (P _ Hi) as (kp & E & _ & Hk).
  rewrite E in L. cbn in L. eapply (cmp_le_lt cmp T); [exact L|]. by apply Hk.
Qed.

Lemma oget_mid es1 es2 es3 k : (forall e, e ∈ es1 -> cmp e.1 k = Lt) -> (forall e, e ∈ es3 -> cmp k e.1 = Lt) ->
  oget cmp (es1 ++ es2 ++ es3) k = oget cmp (V:=V) es2 k.
Proof.
  intros H1 H3. unfold oget. induction es1 as [|e es1 IH]; cbn.
  - induction es2 as [|e es2 IH]; cbn.
    + induction es3 as [|e es3 IH]; cbn; [done|]. rewrite (H3 e) by (by left). apply IH. intros x Hx. apply H3. by right.
    + by destruct (cmp k e.1).
  - assert (cmp k e.1 = Gt) as -> by (apply (cmp_gt cmp T), H1; by left). apply IH. intros x Hx. apply H1. by right.
Qed.
Lemma oput_mid es1 es2 es3 k (v : V) : (forall e, e ∈ es1 -> cmp e.1 k = Lt) -> (forall e, e ∈ es3 -> cmp k e.1 = Lt) ->
  oput cmp (es1 ++ es2 ++ es3) k v = es1 ++ oput cmp es2 k v ++ es3.
Proof.
  intros H1 H3. induction es1 as [|e es1 IH]; cbn.
  - induction es2 as [|e es2 IH]; cbn.
    + destruct es3 as [|e es3]; cbn; [done|]. by rewrite (H3 e) by (by left).
    + destruct (cmp k e.1); [done|done|]. by rewrite IH.
  - assert (cmp k e.1 = Gt) as -> by (apply (cmp_gt cmp T), H1; by left). f_equal. apply IH. intros x Hx. apply H1. by right.
Qed.
Lemma odel_keep (es : list (K * V)) k : (forall e, e ∈ es -> e.1 <> k) -> odel cmp es k = es.
Proof. intros H. apply odel_notin; [done|]. intros Hk. apply elem_of_list_fmap in Hk as (e & -> & He). by apply (H e). Qed.
Lemma odel_mid (es1 es2 es3 : list (K * V)) k : (forall e, e ∈ es1 -> cmp e.1 k = Lt) -> (forall e, e ∈ es3 -> cmp k e.1 = Lt) ->
  odel cmp (es1 ++ es2 ++ es3) k = es1 ++ odel cmp es2 k ++ es3.
Proof.
  intros H1 H3. unfold odel. rewrite !List.filter_app. fold (odel cmp es1 k) (odel cmp es2 k) (odel cmp es3 k).
  rewrite (odel_keep es1), (odel_keep es3); [done| |].
  - intros e He E. subst k. specialize (H3 e He). by rewrite (cmp_refl cmp T) in H3.
  - intros e He E. subst k. specialize (H1 e He). by rewrite (cmp_refl cmp T) in H1.
Qed.
Lemma key_mid (es1 es2 es3 : list (K * V)) k : (forall e, e ∈ es1 -> cmp e.1 k = Lt) -> (forall e, e ∈ es3 -> cmp k e.1 = Lt) ->
  k ∈ (es1 ++ es2 ++ es3).*1 <-> k ∈ es2.*1.
Proof.
  intros H1 H3. rewrite !fmap_app, !elem_of_app. split; [|tauto]. intros [H|[H|H]]; [|done|]; exfalso;
    apply elem_of_list_fmap in H as (e & -> & He).
  - specialize (H1 e He). by rewrite (cmp_refl cmp T) in H1.
  - specialize (H3 e He). by rewrite (cmp_refl cmp T) in H3.
Qed.

(** A list split around the leaf for [k]. *)
Lemma core_around h A s i B k : core h (A ++ (s, i) :: B) -> below A k -> kle k s ->
  (forall e, e ∈ fents h A -> cmp e.1 k = Lt) /\ (forall e, e ∈ fents h B -> cmp k e.1 = Lt).
Proof.
  intros C Bl Lk. apply core_app in C as (CA & C & _). apply core_cons in C as (_ & _ & P). split.
  - by apply core_left.
  - apply (core_right h (s, i)); [|done]. intros b Hb. by apply P.
Qed.

(** Changing the leaf. *)
Lemma set_leaf_lookup h i c l : h !! i = Some c -> set_leaf h i l !! i = Some (Cell l (c_next c) (c_tag c)).
Proof. intros H. unfold set_leaf. rewrite H. apply list_lookup_insert. by eapply lookup_lt_Some. Qed.
Lemma set_leaf_ne h i j l : i <> j -> set_leaf h i l !! j = h !! j.
Proof. intros N. unfold set_leaf. destruct (h !! i); [|done]. by apply list_lookup_insert_ne. Qed.
Lemma leaf_at_set h i c l : h !! i = Some c -> leaf_at (set_leaf h i l) i = l.
Proof. intros H. by rewrite (leaf_at_lookup _ _ _ (set_leaf_lookup _ _ _ l H)). Qed.
Lemma agree_set_leaf h i j l : i <> j -> agree h (set_leaf h i l) j.
Proof.
  intros N. split; [unfold leaf_at; by rewrite set_leaf_ne|]. intros c H. exists c. by rewrite set_leaf_ne.
Qed.
Lemma core_replace h h' A s i B s' i' :
  core h (A ++ (s, i) :: B) -> (forall p, p ∈ A ++ B -> agree h h' p.2) -> leaf_ok h' (s', i') ->
  (forall p, p ∈ A ++ B -> p.2 <> i') ->
  (forall a, a ∈ A -> prior h' a (s', i')) -> (forall b, b ∈ B -> prior h' (s', i') b) ->
  core h' (A ++ (s', i') :: B).
Proof.
  intros C Ag O N PA PB. apply core_app in C as (CA & C & P). apply core_cons in C as (_ & CB & P').
  apply core_app. split; [apply (agree_core h); [|done]; intros p Hp; apply Ag, elem_of_app; by left|]. split.
  - apply core_cons. split; [done|]. split; [apply (agree_core h); [|done]; intros p Hp; apply Ag, elem_of_app; by right|].
    intros b Hb. split; [|auto]. intros E. apply (N b); [apply elem_of_app; by right|done].
  - intros a b Ha Hb. apply elem_of_cons in Hb as [->|Hb].
    + split; [|auto]. apply N, elem_of_app. by left.
    + destruct (P a b Ha) as [Ne Pr]; [by right|]. split; [done|]. apply (agree_prior h); [|done]. apply Ag, elem_of_app. by right.
Qed.
Lemma core_others h A s i B p : core h (A ++ (s, i) :: B) -> p ∈ A ++ B -> i <> p.2.
Proof.
  intros C Hp. apply core_app in C as (_ & C & P). apply core_cons in C as (_ & _ & P').
  apply elem_of_app in Hp as [Hp|Hp].
  - intros E. destruct (P p (s, i) Hp) as [N _]; [by left|]. by apply N.
  - by apply P'.
Qed.
Lemma core_at h A p B : core h (A ++ p :: B) -> leaf_ok h p.
Proof. intros C. apply (cr_leaf _ _ C). apply elem_of_app. right. by left. Qed.
Lemma core_set h A s i B l : core h (A ++ (s, i) :: B) -> good l -> frozen (md l) = false ->
  (forall e, e ∈ scan l -> kle e.1 s /\ below A e.1) -> core (set_leaf h i l) (A ++ (s, i) :: B).
Proof.
  intros C G F Ks. destruct (core_at _ _ _ _ C) as (c & H & _ & _ & Tg & _). cbn in H.
  assert (ents (set_leaf h i l) i = scan l) as E by (unfold ents; by rewrite (leaf_at_set _ _ _ _ H)).
  assert (forall p, p ∈ A ++ B -> i <> p.2) as O by (intros p; by apply (core_others h A s i B)).
  apply (core_replace h _ A s i B); [done|..].
  - intros p Hp. apply agree_set_leaf. auto.
  - exists (Cell l (c_next c) (c_tag c)). cbn. rewrite (set_leaf_lookup _ _ _ _ H). repeat split; auto.
    intros e He. rewrite E in He. by apply Ks.
  - intros p Hp E'. by apply (O p Hp).
  - apply core_app in C as (_ & _ & P). intros a Ha. destruct (P a (s, i) Ha) as [_ (k & Ea & Lt_ & Hk)]; [by left|].
    exists k. split; [done|]. split; [done|]. cbn. intros e He. rewrite E in He. destruct (Ks e He) as [_ Bl].
    destruct (Bl a Ha) as (ka & Ea' & L). rewrite Ea in Ea'. by injection Ea' as <-.
  - apply core_app in C as (_ & C & _). apply core_cons in C as (_ & _ & P). intros b Hb.
    apply (agree_prior h); [|by apply P]. apply agree_set_leaf, O, elem_of_app. by right.
Qed.
Lemma fents_set h A s i B l : core h (A ++ (s, i) :: B) ->
  fents (set_leaf h i l) (A ++ (s, i) :: B) = fents h A ++ scan l ++ fents h B.
Proof.
  intros C. destruct (core_at _ _ _ _ C) as (c & H & _). cbn in H.
  rewrite fents_app, fents_cons. unfold ents. rewrite (leaf_at_set _ _ _ _ H).
  rewrite (agree_fents h _ A), (agree_fents h _ B); [done| |];
    intros p Hp; apply agree_set_leaf; apply (core_others h A s i B p C), elem_of_app; auto.
Qed.
(** Changing a separator. *)
Definition above h u B : Prop := forall b, b ∈ B -> prior h (u, 0) b.
Lemma prior_fst h s i j b : prior h (s, i) b -> prior h (s, j) b.
Proof. intros (k & H). by exists k. Qed.
Lemma agree_above h h' u B : (forall p, p ∈ B -> agree h h' p.2) -> above h u B -> above h' u B.
Proof. intros Ag H b Hb. apply (agree_prior h); auto. Qed.
Lemma core_relabel h A s i B s' : core h (A ++ (s, i) :: B) -> (forall e, e ∈ ents h i -> kle e.1 s') ->
  (forall a, a ∈ A -> exists k, a.1 = Some k /\ klt k s') -> above h s' B -> core h (A ++ (s', i) :: B).
Proof.
  intros C Ks Lt_ Ab. apply (core_replace h h A s i B); [done|..].
  - intros. apply agree_refl.
  - destruct (core_at _ _ _ _ C) as (c & H & G & F & Tg & _). exists c. done.
  - intros p Hp E. by apply (core_others h A s i B p C).
  - apply core_app in C as (_ & _ & P). intros a Ha. destruct (P a (s, i) Ha) as [_ (k & Ea & _ & Hk)]; [by left|].
    destruct (Lt_ a Ha) as (k' & Ea' & L). exists k'. split; [done|]. split; [done|]. cbn. rewrite Ea in Ea'. injection Ea' as <-. done.
  - intros b Hb. apply (prior_fst h s' 0), Ab, Hb.
Qed.
End facts.
