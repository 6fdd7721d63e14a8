(** Removal of a range of keys from a tree. *)
From stdpp Require Import prelude list sorting.
From Verif Require Import LeafModel LeafSpec LeafFacts OrdFacts LeafOps LeafSeq TreeLeaf TreeModel TreeHeap TreeLink TreeSplit TreeShape TreeIns TreeRem TreeIter.
Opaque scan fill.

Section pure.
Context {K : Type} (cmp : K -> K -> comparison) (T : total_order cmp).
Implicit Types (r : bound K * bound K) (k : K).
Notation inr r k := (range_contains cmp r k). Notation under r k := (TreeModel.below cmp r k). Notation within r k := (within_upper cmp r k).

Lemma in_not_under r k : inr r k = true -> under r k = false.
Proof. rewrite (within_range cmp). by destruct (under r k). Qed.
Lemma in_within r k : inr r k = true -> within r k = true.
Proof. rewrite (within_range cmp). by destruct (under r k), (within r k). Qed.
Lemma not_in_above r k : inr r k = false -> under r k = false -> within r k = false.
Proof. rewrite (within_range cmp). intros H Hu. by rewrite Hu in H. Qed.
Lemma above_not_in r k : within r k = false -> inr r k = false.
Proof. rewrite (within_range cmp). intros ->. by rewrite andb_false_r. Qed.
Lemma under_not_in r k : under r k = true -> inr r k = false.
Proof. rewrite (within_range cmp). by intros ->. Qed.
Lemma in_intro r k : under r k = false -> within r k = true -> inr r k = true.
Proof. rewrite (within_range cmp). by intros -> ->. Qed.
Lemma under_mono_le r a b : under r b = true -> cmp a b <> Gt -> under r a = true.
Proof.
  intros H L. destruct (under r a) eqn:E; [done|]. destruct (cmp a b) eqn:C; [|by rewrite (below_mono cmp T r a b E C) in H|done].
  apply (cmp_eq cmp T) in C as ->. congruence.
Qed.
Lemma within_mono_le r a b : within r b = true -> cmp a b <> Gt -> within r a = true.
Proof.
  intros H L. destruct (within r a) eqn:E; [done|]. destruct (cmp a b) eqn:C; [|by rewrite (within_mono cmp T r a b E C) in H|done].
  apply (cmp_eq cmp T) in C as ->. congruence.
Qed.

Lemma rn_in s r k su : inr r k = true -> rr_next cmp s k r su =
  match s with Below => Some (if su then FullyContained else MaybeBelow) | MaybeAbove => None | _ => Some FullyContained end.
Proof. unfold rr_next. intros ->. by destruct s. Qed.
Lemma rn_under r k su : under r k = true -> rr_next cmp Below k r su = Some Below.
Proof.
  intros H. unfold rr_next. rewrite (under_not_in _ _ H). unfold TreeModel.below in H. destruct r.1 as [a|a|]; [| |done]; by destruct (cmp a k).
Qed.
Lemma rn_above s r k su : s <> MaybeAbove -> inr r k = false -> under r k = false -> rr_next cmp s k r su = Some MaybeAbove.
Proof.
  intros Ns H Hu. unfold rr_next. rewrite H. destruct s; [|done|done|done]. unfold TreeModel.below in Hu.
  destruct r.1 as [a|a|]; [| |done]; destruct (cmp a k); done.
Qed.

Definition olist {X} (o : option X) : list X := match o with Some x => [x] | None => [] end.
Context {C : Type}.
Implicit Types (es P Q Y : list (K * C)).
Lemma split_in r es : ascending cmp es -> (forall e, e ∈ es -> under r e.1 = false) ->
  exists Q hi Y, es = Q ++ olist hi ++ Y /\ (forall e, e ∈ Q -> inr r e.1 = true) /\
    (forall e, e ∈ olist hi ++ Y -> within r e.1 = false) /\ (hi = None -> Y = []).
Proof.
  induction es as [|e es IH]; intros As Hu.
  - exists [], None, []. split; [done|]. split; [intros e He; by apply elem_of_nil in He|]. split; [intros e He; by apply elem_of_nil in He|done].
  - apply asc_cons in As as [As Lt]. destruct (inr r e.1) eqn:E.
    + destruct IH as (Q & hi & Y & -> & HQ & HY & HN); [done|intros x Hx; apply Hu; by right|]. exists (e :: Q), hi, Y. split; [done|].
      split; [|done]. intros x Hx. apply elem_of_cons in Hx as [->|Hx]; auto.
    + exists [], (Some e), es. split; [done|]. split; [intros x Hx; by apply elem_of_nil in Hx|]. split; [|done].
      assert (within r e.1 = false) as Hw by (apply not_in_above; [done|apply Hu; by left]).
      intros x Hx. cbn [olist app] in Hx. apply elem_of_cons in Hx as [->|Hx]; [done|]. by apply (within_mono cmp T r e.1 x.1 Hw), Lt.
Qed.
Record cls r (su : bool) P (lo : option (K * C)) Q (hi : option (K * C)) Y : Prop := {
  cl_under : forall e, e ∈ P -> under r e.1 = true;
  cl_in : forall e, e ∈ olist lo ++ Q -> inr r e.1 = true;
  cl_hi : forall e, hi = Some e -> under r e.1 = false;
  cl_above : forall e, e ∈ olist hi ++ Y -> within r e.1 = false;
  cl_end : hi = None -> Y = [];
  cl_su : su = true -> P = [] /\ lo = None;
  cl_lo : su = false -> lo = None -> Q = [] }.
Lemma classify r su es : ascending cmp es -> (su = true -> forall e, e ∈ es -> under r e.1 = false) ->
  exists P lo Q hi Y, es = P ++ olist lo ++ Q ++ olist hi ++ Y /\ cls r su P lo Q hi Y.
Proof.
  induction es as [|e es IH]; intros As Hs.
  - exists [], None, [], None, []. split; [done|]. split; try done; intros x Hx; by apply elem_of_nil in Hx.
  - apply asc_cons in As as [As Lt]. destruct (under r e.1) eqn:Eu.
    + destruct su; [rewrite (Hs eq_refl e) in Eu; [done|by left]|].
      destruct IH as (P & lo & Q & hi & Y & -> & [H1 H2 H3 H4 H5 H6 H7]); [done|done|]. exists (e :: P), lo, Q, hi, Y. split; [done|]. split; try done.
      intros x Hx. apply elem_of_cons in Hx as [->|Hx]; auto.
    + assert (forall x, x ∈ es -> under r x.1 = false) as Hu by (intros x Hx; apply (below_mono cmp T r e.1 x.1 Eu), Lt, Hx).
      destruct su.
      * destruct (split_in r (e :: es)) as (Q & hi & Y & E & HQ & HY & HN).
        { apply asc_cons. done. } { intros x Hx. apply elem_of_cons in Hx as [->|Hx]; auto. }
        exists [], None, Q, hi, Y. split; [done|]. split; try done; [intros x Hx; by apply elem_of_nil in Hx|].
        intros x ->. apply Hs; [done|]. rewrite E. apply elem_of_app. right. by left.
      * destruct (inr r e.1) eqn:Ei.
        -- destruct (split_in r es) as (Q & hi & Y & E & HQ & HY & HN); [done|done|].
           exists [], (Some e), Q, hi, Y. split; [cbn; by rewrite E|]. split; try done.
           ++ intros x Hx; by apply elem_of_nil in Hx.
           ++ intros x Hx. cbn [olist app] in Hx. apply elem_of_cons in Hx as [->|Hx]; auto.
           ++ intros x ->. apply Hu. rewrite E. apply elem_of_app. right. by left.
        -- exists [], None, [], (Some e), es. split; [done|]. split; try done; try (intros x Hx; by apply elem_of_nil in Hx).
           ++ by intros x [= <-].
           ++ intros x Hx. cbn [olist app] in Hx. assert (within r e.1 = false) as Hw by (by apply not_in_above).
              apply elem_of_cons in Hx as [->|Hx]; [done|]. by apply (within_mono cmp T r e.1 x.1 Hw), Lt.
Qed.

(** ** The loops on a classified list *)
Definition dropk Q (c : leaf K C) : leaf K C := foldl (fun c e => (remove_if cmp c e.1 (fun _ => true)).1) c Q.
Lemma dropk_spec Q : forall X Z (c : leaf K C), good cmp c -> frozen (md c) = false -> scan c = X ++ Q ++ Z ->
  good cmp (dropk Q c) /\ frozen (md (dropk Q c)) = false /\ scan (dropk Q c) = X ++ Z.
Proof.
  induction Q as [|e Q IH]; intros X Z c G F Sc; [done|]. cbn [dropk foldl]. fold (dropk Q (remove_if cmp c e.1 (fun _ => true)).1).
  destruct (kid_drop cmp T c X e (Q ++ Z) G F Sc) as (G1 & F1 & S1). by apply IH.
Qed.
Lemma in_loop_under P es r su up : (forall e, e ∈ P -> under r e.1 = true) -> forall (c : leaf K C) n,
  in_rr_loop cmp (P ++ es) r su up Below c n None None = in_rr_loop cmp es r su up Below c (length P + n) None None.
Proof.
  induction P as [|e P IH]; intros H c n; [done|]. cbn [app in_rr_loop]. rewrite rn_under by (apply H; by left). cbn [mbind option_bind].
  rewrite IH by (intros x Hx; apply H; by right). f_equal. cbn [length]. lia.
Qed.
Lemma in_loop_in Q es r su up lo : (forall e, e ∈ Q -> inr r e.1 = true) -> forall s (c : leaf K C) n,
  s = FullyContained \/ s = MaybeBelow \/ s = Below /\ su = true ->
  exists s', (s' = FullyContained \/ s' = MaybeBelow \/ s' = Below) /\
  in_rr_loop cmp (Q ++ es) r su up s c n lo None = in_rr_loop cmp es r su up s' (dropk Q c) n lo None.
Proof.
  induction Q as [|e Q IH]; intros H s c n Hs.
  - exists s. split; [naive_solver|done].
  - cbn [app in_rr_loop]. rewrite rn_in by (apply H; by left).
    destruct (IH ltac:(intros x Hx; apply H; by right) FullyContained (remove_if cmp c e.1 (fun _ => true)).1 n) as (s' & Hs' & E); [by left|].
    exists s'. split; [done|]. destruct Hs as [->|[->|[-> ->]]]; exact E.
Qed.
Lemma in_loop_eq r su up P lo Q hi Y (c : leaf K C) : cls r su P lo Q hi Y -> (up = true -> hi = None) ->
  exists s n, in_rr_loop cmp (P ++ olist lo ++ Q ++ olist hi ++ Y) r su up Below c 1 None None = Some (s, dropk Q c, n, lo, hi).
Proof.
  intros [H1 H2 H3 H4 H5 H6 H7] Hup. rewrite in_loop_under by done.
  assert (exists s n, (s = FullyContained \/ s = MaybeBelow \/ s = Below) /\
    in_rr_loop cmp (olist lo ++ Q ++ olist hi ++ Y) r su up Below c (length P + 1) None None = in_rr_loop cmp (olist hi ++ Y) r su up s (dropk Q c) n lo None) as (s & n & Hs & ->).
  { destruct lo as [e|]; cbn [olist app].
    - destruct su; [by destruct (H6 eq_refl)|]. cbn [in_rr_loop]. rewrite rn_in by (apply H2; by left). cbn [mbind option_bind].
      destruct (in_loop_in Q (olist hi ++ Y) r false up (Some e) ltac:(intros x Hx; apply H2; by right) MaybeBelow c (S (length P + 1))) as (s & Hs & ->); [by right; left|].
      by exists s, (S (length P + 1)).
    - destruct su.
      + destruct (in_loop_in Q (olist hi ++ Y) r true up None H2 Below c (length P + 1)) as (s & Hs & ->); [by right; right|]. by exists s, (length P + 1).
      + rewrite H7 by done. exists Below, (length P + 1). split; [by right; right|done]. }
  destruct hi as [e|]; cbn [olist app].
  - cbn [in_rr_loop]. assert (within r e.1 = false) as Hw by (apply H4; by left).
    rewrite rn_above; [|destruct Hs as [->|[-> | ->]]; done|by apply above_not_in|by apply H3]. cbn [mbind option_bind].
    destruct up; [by specialize (Hup eq_refl)|]. eauto.
  - rewrite H5 by done. cbn [in_rr_loop]. eauto.
Qed.
End pure.

Section ln.
Context {K V : Type} (cmp : K -> K -> comparison) (T : total_order cmp).
Implicit Types (h : heap K V) (r : bound K * bound K) (es P Q Y : list (K * nat)).
Notation inr r k := (range_contains cmp r k). Notation under r k := (TreeModel.below cmp r k). Notation within r k := (within_upper cmp r k).
Definition rmr r es h : heap K V := foldl (fun h e => leaf_remove_range cmp h e.2 r) h es.
Definition dels es h : heap K V := foldl (fun h e => delete_self h e.2) h es.
Definition orelse {X} (a b : option X) : option X := match a with Some _ => a | None => b end.
Lemma ln_loop_under P es r su : (forall e, e ∈ P -> under r e.1 = true) -> forall h (c : leaf K nat) n f,
  ln_rr_loop cmp (P ++ es) r su Below h c n f = ln_rr_loop cmp es r su Below (rmr r P h) c (length P + n) (orelse f (snd <$> head P)).
Proof.
  induction P as [|e P IH]; intros H h c n f; [by destruct f|]. cbn [app ln_rr_loop]. rewrite rn_under by (apply H; by left). cbn [mbind option_bind].
  rewrite IH by (intros x Hx; apply H; by right). cbn [rmr foldl]. f_equal; [cbn [length]; lia|]. by destruct f.
Qed.
Lemma ln_loop_in Q es r su f : (forall e, e ∈ Q -> inr r e.1 = true) -> forall s h (c : leaf K nat) n,
  s = FullyContained \/ s = MaybeBelow \/ s = Below /\ su = true ->
  exists s', (s' = FullyContained \/ s' = MaybeBelow \/ s' = Below) /\
  ln_rr_loop cmp (Q ++ es) r su s h c n f = ln_rr_loop cmp es r su s' (dels Q h) (dropk cmp Q c) n f.
Proof.
  induction Q as [|e Q IH]; intros H s h c n Hs.
  - exists s. split; [naive_solver|done].
  - cbn [app ln_rr_loop]. rewrite rn_in by (apply H; by left).
    destruct (IH ltac:(intros x Hx; apply H; by right) FullyContained (delete_self h e.2) (remove_if cmp c e.1 (fun _ => true)).1 n) as (s' & Hs' & E); [by left|].
    exists s'. split; [done|]. destruct Hs as [->|[->|[-> ->]]]; exact E.
Qed.
Lemma rmr_app r P Q h : rmr r (P ++ Q) h = rmr r Q (rmr r P h).
Proof. unfold rmr. apply foldl_app. Qed.
Lemma ln_loop_eq r su P lo Q hi Y h (c : leaf K nat) : cls cmp r su P lo Q hi Y ->
  exists n, ln_rr_loop cmp (P ++ olist lo ++ Q ++ olist hi ++ Y) r su Below h c 1 None =
    Some (rmr r (olist hi) (dels Q (rmr r (P ++ olist lo) h)), dropk cmp Q c, n, snd <$> head (P ++ olist lo ++ olist hi)).
Proof.
  intros [H1 H2 H3 H4 H5 H6 H7]. rewrite ln_loop_under by done. cbn [orelse]. set (h0 := rmr r P h).
  set (f := snd <$> head P). rewrite rmr_app. fold h0.
  assert (exists s n, (s = FullyContained \/ s = MaybeBelow \/ s = Below) /\
    ln_rr_loop cmp (olist lo ++ Q ++ olist hi ++ Y) r su Below h0 c (length P + 1) f =
    ln_rr_loop cmp (olist hi ++ Y) r su s (dels Q (rmr r (olist lo) h0)) (dropk cmp Q c) n (snd <$> head (P ++ olist lo))) as (s & n & Hs & ->).
  { destruct lo as [e|]; cbn [olist app].
    - destruct su; [by destruct (H6 eq_refl)|]. cbn [ln_rr_loop]. rewrite rn_in by (apply H2; by left). cbn [mbind option_bind].
      destruct (ln_loop_in Q (olist hi ++ Y) r false (match f with Some _ => f | None => Some e.2 end) ltac:(intros x Hx; apply H2; by right) MaybeBelow
        (leaf_remove_range cmp h0 e.2 r) c (S (length P + 1))) as (s & Hs & ->); [by right; left|].
      exists s, (S (length P + 1)). split; [done|]. cbn [rmr foldl]. unfold f. by destruct P.
    - rewrite app_nil_r. destruct su.
      + destruct (ln_loop_in Q (olist hi ++ Y) r true f H2 Below h0 c (length P + 1)) as (s & Hs & ->); [by right; right|]. by exists s, (length P + 1).
      + rewrite H7 by done. exists Below, (length P + 1). split; [by right; right|done]. }
  rewrite (app_assoc P). set (PL := P ++ olist lo). destruct hi as [e|]; cbn [olist app].
  - cbn [ln_rr_loop]. assert (within r e.1 = false) as Hw by (apply H4; by left).
    rewrite rn_above; [|destruct Hs as [->|[-> | ->]]; done|by apply above_not_in|by apply H3]. cbn [mbind option_bind].
    exists (S n). cbn [rmr foldl]. do 2 f_equal. by destruct PL.
  - rewrite H5, app_nil_r by done. cbn [ln_rr_loop]. by exists n.
Qed.
End ln.

Section facts.
Context {K V : Type} (cmp : K -> K -> comparison) (T : total_order cmp).
Implicit Types (h : heap K V) (l : leaf K V) (L A B D F : list (option K * nat)) (i : nat) (s u : option K) (r : bound K * bound K).
Notation good := (good cmp). Notation core := (core cmp). Notation leaf_ok := (leaf_ok cmp). Notation prior := (prior cmp).
Notation kle := (kle cmp). Notation klt := (klt cmp). Notation kwf := (kwf cmp). Notation linked := (linked cmp). Notation nwf := (nwf cmp).
Notation inr r k := (range_contains cmp r k). Notation under r k := (TreeModel.below cmp r k). Notation within r k := (within_upper cmp r k).

(** ** Entries in and outside of the range *)
Definition keepf r (es : list (K * V)) : list (K * V) := List.filter (fun e => negb (inr r e.1)) es.
Definition clean r h L : Prop := forall e, e ∈ fents h L -> inr r e.1 = false.
Definition allin r h L : Prop := forall e, e ∈ fents h L -> inr r e.1 = true.
Lemma keepf_app r es es' : keepf r (es ++ es') = keepf r es ++ keepf r es'.
Proof. apply List.filter_app. Qed.
Lemma keepf_in r es : (forall e : K * V, e ∈ es -> inr r e.1 = true) -> keepf r es = [].
Proof. intros H. apply filter_none. intros e He. by rewrite H. Qed.
Lemma keepf_out r es : (forall e : K * V, e ∈ es -> inr r e.1 = false) -> keepf r es = es.
Proof.
  induction es as [|e es IH]; intros H; [done|]. unfold keepf in *. cbn [List.filter]. rewrite (H e) by left. cbn [negb]. f_equal. apply IH.
  intros x Hx. apply H. by right.
Qed.
Lemma keepf_elem r es e : e ∈ keepf r es <-> e ∈ es /\ inr r e.1 = false.
Proof. unfold keepf. by rewrite !elem_of_list_In, filter_In, negb_true_iff. Qed.
Lemma clean_app r h A B : clean r h (A ++ B) <-> clean r h A /\ clean r h B.
Proof.
  unfold clean. rewrite fents_app. split.
  - intros H. split; intros e He; apply H, elem_of_app; [by left|by right].
  - intros [H1 H2] e He. apply elem_of_app in He as [He|He]; auto.
Qed.
Lemma allin_app r h A B : allin r h (A ++ B) <-> allin r h A /\ allin r h B.
Proof.
  unfold allin. rewrite fents_app. split.
  - intros H. split; intros e He; apply H, elem_of_app; [by left|by right].
  - intros [H1 H2] e He. apply elem_of_app in He as [He|He]; auto.
Qed.
Lemma clean_agree r h h' L : (forall p, p ∈ L -> agree h h' p.2) -> clean r h L -> clean r h' L.
Proof. intros Ag H e. rewrite (agree_fents h h' L Ag). apply H. Qed.
Lemma allin_agree r h h' L : (forall p, p ∈ L -> agree h h' p.2) -> allin r h L -> allin r h' L.
Proof. intros Ag H e. rewrite (agree_fents h h' L Ag). apply H. Qed.

(** ** Bounds from the order of the leaves *)
Lemma top_le h X s i : core h (X ++ [(s, i)]) -> forall e, e ∈ fents h (X ++ [(s, i)]) -> kle e.1 s.
Proof.
  intros C e He. apply fents_elem in He as (s' & j & Hj & He). destruct (cr_leaf _ _ _ C _ Hj) as (c & _ & _ & _ & _ & Ks).
  specialize (Ks e He). cbn [fst] in Ks. apply elem_of_app in Hj as [Hj|Hj].
  - apply core_app in C as (_ & _ & P). destruct (P (s', j) (s, i) Hj) as [_ (k & E & Lt & _)]; [by left|]. cbn [fst] in E, Lt. subst s'.
    cbn in Ks. apply klt_le. by eapply (kle_klt cmp T).
  - apply elem_of_list_singleton in Hj. by injection Hj as -> ->.
Qed.
Lemma after_lt h X Y k i : core h (X ++ Y) -> (Some k, i) ∈ X -> (forall e, e ∈ fents h Y -> cmp k e.1 = Lt) /\ forall p, p ∈ Y -> klt k p.1.
Proof.
  intros C H. apply core_app in C as (_ & _ & P). split.
  - intros e He. apply fents_elem in He as (s & j & Hj & He). destruct (P _ _ H Hj) as [_ (k' & [= <-] & _ & Hk)]. by apply Hk.
  - intros p Hp. destruct (P _ _ H Hp) as [_ (k' & [= <-] & Lt & _)]. done.
Qed.
(** All labels and entries satisfy the start bound. *)
Definition starts r h L : Prop := forall p, p ∈ L -> (forall k, p.1 = Some k -> under r k = false) /\ forall e, e ∈ ents h p.2 -> under r e.1 = false.
Lemma starts_app r h A B : starts r h (A ++ B) <-> starts r h A /\ starts r h B.
Proof.
  unfold starts. split.
  - intros H. split; intros p Hp; apply H, elem_of_app; [by left|by right].
  - intros [H1 H2] p Hp. apply elem_of_app in Hp as [Hp|Hp]; auto.
Qed.
Lemma starts_fents r h L : starts r h L -> forall e, e ∈ fents h L -> under r e.1 = false.
Proof. intros H e He. apply fents_elem in He as (s & i & Hi & He). by apply (H _ Hi). Qed.
Lemma starts_after r h X Y k i : core h (X ++ Y) -> (Some k, i) ∈ X -> under r k = false -> starts r h Y.
Proof.
  intros C H Hu p Hp. destruct (after_lt h X Y k i C H) as [H1 H2]. split.
  - intros k' E. specialize (H2 p Hp). rewrite E in H2. by eapply (below_mono cmp T).
  - intros e He. eapply (below_mono cmp T); [exact Hu|]. apply H1. apply fents_elem. destruct p as [s j]. by exists s, j.
Qed.
Lemma starts_agree r h h' L : (forall p, p ∈ L -> agree h h' p.2) -> starts r h L -> starts r h' L.
Proof. intros Ag H p Hp. rewrite (agree_ents h h') by (by apply Ag). by apply H. Qed.
Lemma gflat_elem {C} (f : option K -> C -> list (option K * nat)) X p : p ∈ gflat f X <-> exists s c, (s, c) ∈ X /\ p ∈ f s c.
Proof.
  induction X as [|[s c] X IH].
  - unfold gflat. cbn. rewrite elem_of_nil. split; [done|]. intros (s & c & H & _). by apply elem_of_nil in H.
  - rewrite gflat_cons, elem_of_app, IH. split.
    + intros [H|(s' & c' & H & H')]; [exists s, c; split; [by left|done]|exists s', c'; split; [by right|done]].
    + intros (s' & c' & H & H'). apply elem_of_cons in H as [[= -> ->]|H]; [by left|right; eauto].
Qed.
Lemma core_fst h X Y : core h (X ++ Y) -> core h X.
Proof. rewrite core_app. tauto. Qed.
Lemma sub_core h X p Y : core h (X ++ p ++ Y) -> core h p.
Proof. rewrite !core_app. tauto. Qed.
Lemma clean_above r h X Y k i : core h (X ++ Y) -> (Some k, i) ∈ X -> within r k = false -> clean r h Y.
Proof.
  intros C H Hw e He. destruct (after_lt h X Y k i C H) as [H1 _]. apply above_not_in. by apply (within_mono cmp T r k e.1 Hw), H1.
Qed.

(** ** The leaves *)
Lemma rm_one r h A s i B : linked h (A ++ (s, i) :: B) ->
  let h' := leaf_remove_range cmp h i r in
  linked h' (A ++ (s, i) :: B) /\ ents h' i = keepf r (ents h i) /\ forall p, p ∈ A ++ B -> agree h h' p.2.
Proof.
  intros [C Sg] h'. pose proof (core_at _ _ _ _ _ C) as O.
  pose proof (ok_good _ _ _ O) as G. cbn in G. pose proof (ok_unfrozen _ _ _ O) as F. cbn in F.
  destruct (remove_range_spec cmp T r (leaf_at h i) G F) as (G' & F' & Sc). split; [split|split].
  - apply (core_set cmp); [done|done|done|]. intros e He. rewrite Sc in He. apply keepf_elem in He as [He _].
    destruct O as (c & Hc & _ & _ & _ & Ks). split; [by apply Ks|].
    intros a Ha. apply core_app in C as (_ & _ & P). destruct (P a (s, i) Ha) as [_ (ka & Ea & _ & Hk)]; [by left|].
    exists ka. split; [done|]. by apply Hk.
  - by apply seg_set_leaf.
  - unfold ents, h', leaf_remove_range. destruct O as (c & Hc & _). cbn in Hc. rewrite (leaf_at_set _ _ _ _ Hc). exact Sc.
  - intros p Hp. apply agree_set_leaf. by eapply core_others.
Qed.
Lemma rmr_ok r (es : list (K * nat)) : forall h A B, linked h (A ++ map lab es ++ B) ->
  let h' := rmr cmp r es h in
  linked h' (A ++ map lab es ++ B) /\ fents h' (map lab es) = keepf r (fents h (map lab es)) /\ (forall p, p ∈ A ++ B -> agree h h' p.2) /\
  forall p, p ∈ map lab es -> ents h' p.2 = keepf r (ents h p.2).
Proof.
  induction es as [|e es IH]; intros h A B Lk; cbn [map app rmr foldl] in *.
  - split; [done|]. split; [done|]. split; [intros p _; apply agree_refl|]. intros p Hp. by apply elem_of_nil in Hp.
  - destruct (rm_one r h A (Some e.1) e.2 (map lab es ++ B) Lk) as (Lk1 & E1 & Ag1). set (h1 := leaf_remove_range cmp h e.2 r) in *.
    change (A ++ (Some e.1, e.2) :: map lab es ++ B) with (A ++ [(Some e.1, e.2)] ++ map lab es ++ B) in Lk1. rewrite app_assoc in Lk1.
    destruct (IH h1 _ B Lk1) as (Lk2 & E2 & Ag2 & En2). fold (rmr cmp r es h1). set (h2 := rmr cmp r es h1) in *. split; [|split; [|split]].
    + rewrite <-app_assoc in Lk2. exact Lk2.
    + unfold lab at 1 3. rewrite !fents_cons, E2, keepf_app. f_equal.
      * rewrite (agree_ents h1 h2), E1; [done|]. apply (Ag2 (Some e.1, e.2)). apply elem_of_app. left. apply elem_of_app. right. by left.
      * f_equal. apply agree_fents. intros p Hp. apply Ag1. apply elem_of_app. right. apply elem_of_app. by left.
    + intros p Hp. apply agree_trans with (h2 := h1).
      * apply Ag1. apply elem_of_app in Hp as [Hp|Hp]; apply elem_of_app; [by left|right; apply elem_of_app; by right].
      * apply Ag2. apply elem_of_app in Hp as [Hp|Hp]; apply elem_of_app; [left; apply elem_of_app; by left|by right].
    + intros p Hp. apply elem_of_cons in Hp as [->|Hp].
      * cbn [snd lab]. rewrite (agree_ents h1 h2), E1; [done|]. apply (Ag2 (Some e.1, e.2)). apply elem_of_app. left. apply elem_of_app. right. by left.
      * rewrite (En2 p Hp). f_equal. apply agree_ents, Ag1. apply elem_of_app. right. apply elem_of_app. by left.
Qed.
Lemma linked_drop h A s i B : linked h (A ++ (s, i) :: B) ->
  linked (delete_self h i) (A ++ B) /\ forall p, p ∈ A ++ B -> agree h (delete_self h i) p.2.
Proof.
  intros [C Sg]. assert (forall p, p ∈ A ++ B -> agree h (delete_self h i) p.2) as Ag.
  { intros p Hp. apply delete_self_agree. by eapply core_others. }
  split; [split|done].
  - apply (agree_core cmp h); [done|]. by apply (core_drop cmp h A [(s, i)] B).
  - rewrite fmap_app. rewrite fmap_app, fmap_cons in Sg. apply seg_delete; [|done|done|done].
    pose proof (cr_nodup _ _ _ C) as N. by rewrite fmap_app, fmap_cons in N.
Qed.
Lemma dels_ok (es : list (K * nat)) : forall h A B, linked h (A ++ map lab es ++ B) ->
  linked (dels es h) (A ++ B) /\ forall p, p ∈ A ++ B -> agree h (dels es h) p.2.
Proof.
  induction es as [|e es IH]; intros h A B Lk; cbn [map app dels foldl] in *.
  - split; [done|]. intros p _. apply agree_refl.
  - destruct (linked_drop h A (Some e.1) e.2 (map lab es ++ B) Lk) as [Lk1 Ag1].
    destruct (IH (delete_self h e.2) A B Lk1) as [Lk2 Ag2]. split; [exact Lk2|]. intros p Hp. eapply agree_trans; [|by apply Ag2].
    apply Ag1. apply elem_of_app in Hp as [Hp|Hp]; apply elem_of_app; [by left|right; apply elem_of_app; by right].
Qed.
(** The last leaf of the lower side is linked to the first one of the upper side. *)
Lemma linked_bypass h A s i D s' j M : linked h (A ++ (s, i) :: D ++ (s', j) :: M) ->
  let h' := set_link h i (Some j) TNone in
  linked h' (A ++ (s, i) :: (s', j) :: M) /\ forall p, agree h h' p.
Proof.
  intros [C Sg] h'. pose proof (core_at _ _ _ _ _ C) as (c & Hc & _ & _ & Tg & _). cbn in Hc.
  assert (forall p, agree h h' p) as Ag.
  { intros p. destruct (decide (i = p)) as [<-|N].
    - split.
      + unfold h'. rewrite (leaf_at_lookup _ _ _ (set_link_lookup h i c (Some j) TNone Hc)), (leaf_at_lookup _ _ _ Hc). done.
      + intros c0 H0. rewrite H0 in Hc. injection Hc as ->. unfold h'. rewrite (set_link_lookup h i c (Some j) TNone H0). by eexists.
    - split; [unfold leaf_at, h'; by rewrite set_link_ne|]. intros c0 H0. exists c0. unfold h'. by rewrite set_link_ne. }
  split; [|done]. pose proof (cr_nodup _ _ _ C) as N. rewrite fmap_app, fmap_cons, fmap_app, fmap_cons in N, Sg. cbn [snd] in *.
  apply NoDup_app in N as (N1 & N2 & N3). apply NoDup_cons in N3 as [N3 _].
  assert (core h (A ++ (s, i) :: (s', j) :: M)) as C'.
  { change (core h (A ++ [(s, i)] ++ ((s', j) :: M))). rewrite app_assoc. apply (core_drop cmp h (A ++ [(s, i)]) D). by rewrite <-app_assoc. }
  split; [by apply (agree_core cmp h)|]. rewrite fmap_app, !fmap_cons. cbn [snd].
  apply seg_app in Sg as [S1 Sg]. apply seg_cons in Sg as [_ Sg]. apply seg_app in Sg as [_ Sg].
  assert (i ∉ A.*2) as Ni. { intros Hi. apply (N2 i Hi). by left. }
  apply seg_app. split; [|apply seg_cons; split].
  - cbn [hd_or] in *. by eapply seg_set_link.
  - exists (Cell (c_leaf c) (Some j) TNone). split; [by apply set_link_lookup|]. cbn [c_next hd_or].
    destruct (core_at cmp h (A ++ [(s, i)]) (s', j) M) as (cj & Hj & _ & _ & Tj & _). { by rewrite <-app_assoc. }
    cbn in Hj. eapply lands_at; [|exact Tj]. unfold h'. rewrite set_link_ne; [done|]. intros ->. apply N3. apply elem_of_app. right. by left.
  - eapply seg_set_link; [exact Hc|done|done| |exact Sg]. intros Hi. apply N3. apply elem_of_app. by right.
Qed.

(** ** One level of the tree; [f] lists the leaves below a child *)
Section level.
Context {C : Type} (f : option K -> C -> list (option K * nat)) (wf : C -> Prop).
Hypothesis Hf : forall n, wf n -> exists F i, forall u, f u n = F ++ [(u, i)].
Implicit Types (es P Q Y : list (K * C)) (n : inode K C).
Notation G := (gflat f).
Lemma kids_top h s c : wf c -> core h (f s c) -> forall e, e ∈ fents h (f s c) -> kle e.1 s.
Proof. intros W Co. destruct (Hf c W) as (F & i & E). rewrite E in *. by apply top_le. Qed.
Lemma kids_sep es e : e ∈ es -> wf e.2 -> exists i, (Some e.1, i) ∈ G (map lab es).
Proof.
  intros He W. destruct (Hf e.2 W) as (F & i & E). exists i. apply gflat_elem. exists (Some e.1), e.2. split.
  - apply elem_of_list_In, in_map_iff. exists e. split; [done|]. by apply elem_of_list_In.
  - rewrite E. apply elem_of_app. right. by left.
Qed.
(** The entries below a child with a key are at most that key. *)
Lemma child_le h X es Z : (forall e, e ∈ es -> wf e.2) -> core h (X ++ G (map lab es) ++ Z) ->
  forall e, e ∈ fents h (G (map lab es)) -> exists x, x ∈ es /\ cmp e.1 x.1 <> Gt.
Proof.
  intros W Co e He. apply fents_elem in He as (s & i & Hi & He). apply gflat_elem in Hi as (s' & c & Hc & Hi).
  apply elem_of_list_In, in_map_iff in Hc as (x & [= <- <-] & Hx). apply elem_of_list_In in Hx. exists x. split; [done|].
  assert (core h (f (Some x.1) x.2)) as Cx.
  { apply elem_of_list_split in Hx as (e1 & e2 & ->). rewrite map_app, gflat_app in Co. cbn [map] in Co. unfold lab at 2 in Co. rewrite gflat_cons in Co.
    apply sub_core in Co. by apply sub_core in Co. }
  apply (kids_top h (Some x.1) x.2 (W x Hx) Cx). apply fents_elem. by exists s, i.
Qed.
Lemma clean_under r h X es Z : (forall e, e ∈ es -> wf e.2) -> core h (X ++ G (map lab es) ++ Z) ->
  (forall e, e ∈ es -> under r e.1 = true) -> clean r h (G (map lab es)).
Proof.
  intros W Co Hu e He. destruct (child_le h X es Z W Co e He) as (x & Hx & Le). apply under_not_in. eapply (under_mono_le cmp T); [by apply Hu|done].
Qed.
Lemma allin_kids r h X es Z : (forall e, e ∈ es -> wf e.2) -> core h (X ++ G (map lab es) ++ Z) ->
  (forall e, e ∈ es -> inr r e.1 = true) -> starts r h (G (map lab es)) -> allin r h (G (map lab es)).
Proof.
  intros W Co Hu St e He. destruct (child_le h X es Z W Co e He) as (x & Hx & Le). apply in_intro; [by eapply starts_fents|].
  eapply (within_mono_le cmp T); [by apply in_within, Hu|done].
Qed.

(** The node seen through the classification of its children. *)
Lemma view u n r su : nwf wf n -> (su = true -> forall e, e ∈ scan (ch n) -> under r e.1 = false) ->
  exists P lo Q hi Y cu hs hc Yt, scan (ch n) = P ++ olist lo ++ Q ++ olist hi ++ Y /\ cls cmp r su P lo Q hi Y /\
    ub n = To cu /\ wf cu /\ map lab (olist hi ++ Y) ++ [(u, cu)] = (hs, hc) :: Yt /\
    match hi with Some e => To e.2 | None => ub n end = To hc /\ wf hc /\
    (forall e, e ∈ P ++ olist lo ++ Q ++ olist hi ++ Y -> wf e.2) /\
    (hi = None -> hs = u /\ hc = cu /\ Yt = []) /\ (forall e, hi = Some e -> hs = Some e.1 /\ hc = e.2) /\
    ukids u n = map lab (P ++ olist lo) ++ map lab Q ++ (hs, hc) :: Yt.
Proof.
  intros [Gd Fz (cu & Eu & Wu) Ks] Hs. destruct (classify cmp T r su (scan (ch n))) as (P & lo & Q & hi & Y & Sc & Cl); [by apply scan_asc|done|].
  rewrite Sc in Ks. assert (ukids u n = map lab (P ++ olist lo) ++ map lab Q ++ map lab (olist hi ++ Y) ++ [(u, cu)]) as Ek.
  { unfold ukids, ub_kid. rewrite Eu, Sc, !map_app, <-!app_assoc. done. }
  destruct hi as [e|].
  - exists P, lo, Q, (Some e), Y, cu, (Some e.1), e.2, (map lab Y ++ [(u, cu)]). split; [done|]. split; [done|]. split; [done|]. split; [done|].
    split; [done|]. split; [done|]. split. { apply Ks. apply elem_of_app. right. apply elem_of_app. right. apply elem_of_app. right. by left. }
    split; [done|]. split; [done|]. split; [by intros ? [= <-]|]. exact Ek.
  - pose proof (cl_end _ _ _ _ _ _ _ _ Cl eq_refl) as ->. exists P, lo, Q, None, [], cu, u, cu, []. split; [done|]. split; [done|]. split; [done|].
    split; [done|]. split; [done|]. split; [done|]. split; [done|]. split; [done|]. split; [done|]. split; [done|]. exact Ek.
Qed.
Lemma put_key_spec n e es1 es2 c' : nwf wf n -> scan (ch n) = es1 ++ e :: es2 -> wf c' ->
  nwf wf (put_key cmp n e.1 c') /\ scan (ch (put_key cmp n e.1 c')) = es1 ++ (e.1, c') :: es2 /\ ub (put_key cmp n e.1 c') = ub n.
Proof.
  intros W Sc Wc. pose proof W as [Gd Fz (cu & Eu & Wu) Ks]. unfold put_key.
  pose proof (search_slot_spec cmp T (md (ch n)) (slots (ch n)) e.1 (good_co _ _ Gd)) as Sp.
  assert (e ∈ scan (ch n)) as He by (rewrite Sc; apply elem_of_app; right; by left).
  destruct (search_slot cmp (slots (ch n)) e.1 (md (ch n))) as [i|].
  - destruct Sp as (rk & v & H1 & H2 & H3). assert (at_slot (ch n) i (e.1, v)) as At by (by exists rk).
    assert ((e.1, v) = e) as Ev. { eapply (same_key_entry cmp T (ch n)); [done|by eapply (at_slot_scan cmp)|done|done]. }
    destruct (put_spec cmp T wf n None (AtSlot i e.1) (Some e.1) v c' (map lab es1) (map lab es2 ++ ub_kid None n) W) as [W' Pl].
    { cbn. split; [done|]. split; [done|]. exists es1, es2. rewrite Ev. done. } { done. }
    split; [exact W'|]. cbn in Pl. destruct Pl as (_ & At' & _). split; [|done].
    destruct (set_slot_spec cmp T (ch n) i e.1 v c' es1 es2 Gd At) as (_ & Sc' & _); [by rewrite Ev|]. exact Sc'.
  - exfalso. apply (scan_elem cmp) in He; [|done]. destruct e as [ke ve]. by apply (Sp ve).
Qed.
Lemma put_border_spec u n hi Y X cu hs hc Yt c' : nwf wf n -> ub n = To cu -> scan (ch n) = X ++ olist hi ++ Y -> (hi = None -> Y = []) ->
  map lab (olist hi ++ Y) ++ [(u, cu)] = (hs, hc) :: Yt -> wf c' ->
  nwf wf (put_border cmp n hi c') /\ ukids u (put_border cmp n hi c') = map lab X ++ (hs, c') :: Yt.
Proof.
  intros W Eu Sc Hn Ek Wc. pose proof W as [Gd Fz _ Ks]. destruct hi as [e|].
  - destruct (put_key_spec n e X Y c' W Sc Wc) as (W' & Sc' & Eu'). cbn [put_border]. split; [done|]. unfold ukids, ub_kid. rewrite Sc', Eu', Eu.
    cbn in Ek. injection Ek as <- <- <-. rewrite map_app, <-app_assoc. done.
  - rewrite Hn in * by done. rewrite app_nil_r in Sc. cbn in Ek. injection Ek as <- <- <-. cbn [put_border put]. split.
    + split; cbn [ch ub]; [done|done|by exists c'|done].
    + unfold ukids, ub_kid. cbn [ch ub]. by rewrite Sc.
Qed.
End level.
End facts.
