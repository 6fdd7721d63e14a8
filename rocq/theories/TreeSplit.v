(** Splitting a leaf: the heap afterwards. *)
From stdpp Require Import prelude list sorting.
From Verif Require Import LeafModel LeafSpec LeafFacts OrdFacts LeafOps LeafSeq TreeLeaf TreeModel TreeHeap TreeLink.
Opaque scan.

Section facts.
Context {K V : Type} (cmp : K -> K -> comparison) (T : total_order cmp).
Implicit Types (h : heap K V) (l : leaf K V) (L A B : list (option K * nat)) (i : nat) (s u : option K).
Notation good := (good cmp). Notation core := (core cmp). Notation leaf_ok := (leaf_ok cmp). Notation prior := (prior cmp).
Notation below := (below cmp). Notation kle := (kle cmp). Notation klt := (klt cmp).

(** What led to [i] now leads through [i] to the first of [new]. *)
Lemma seg_replace h h' ids1 i ids2 new q c : NoDup (ids1 ++ i :: ids2) ->
  keeps_del h h' -> (forall j, j ∈ ids1 ++ ids2 -> h' !! j = h !! j) -> q <> Some i -> keeps_live h h' q ->
  h' !! i = Some c -> c_tag c = TSecond -> lands h' (c_next c) (hd_or (new ++ ids2) q) -> seg h' new (hd_or ids2 q) ->
  seg h (ids1 ++ i :: ids2) q -> seg h' (ids1 ++ new ++ ids2) q.
Proof.
  intros N D Same Nq Lq Hi Tg La Sn S. rewrite seg_app, seg_cons in S. destruct S as (S1 & G & S2). cbn [hd_or] in S1.
  apply NoDup_app in N as (N1 & N2 & N3). apply NoDup_cons in N3 as [N3 N4].
  assert (forall j, j ∈ ids1 ++ ids2 -> keeps_next h h' j) as Kn.
  { intros j Hj d Hd. exists d. by rewrite Same. }
  assert (forall j, j ∈ ids1 ++ ids2 -> keeps_live h h' (Some j)) as Kl.
  { intros j Hj a d [= <-] Hd Td. exists d. by rewrite Same. }
  apply seg_app. split; [|apply seg_app; split; [done|]].
  - clear S2 N4. revert N1 N2 S1 Kn Kl. clear Same. induction ids1 as [|a ids1 IH]; intros N1 N2 S1 Kn Kl; [done|].
    apply NoDup_cons in N1 as [Na N1]. rewrite seg_cons in S1. destruct S1 as [G1 S1]. apply seg_cons. split.
    + destruct ids1 as [|b ids1]; cbn [hd_or] in *.
      * destruct G1 as (ca & Ha & L). destruct (Kn a) with (c := ca) as (c' & H' & E); [by left|done|]. exists c'. split; [done|].
        rewrite E. clear -L D Hi Tg La. remember (Some i) as z eqn:Ez. induction L as [|j d H Td|j d z H Td _ IH].
        -- done.
        -- injection Ez as ->. by eapply lands_skip.
        -- destruct (D j d H Td) as (d' & H' & Td' & E). eapply lands_skip; [done..|]. rewrite E. auto.
      * eapply goes_mono; [done|apply Kn; by left|done|]. apply Kl. right. by left.
    + apply IH; [done| |done|..].
      * intros x Hx. apply N2. by right.
      * intros j Hj. apply Kn. by right.
      * intros j Hj. apply Kl. by right.
  - eapply seg_mono; [done|done| | |done]; intros j Hj; [apply Kn|apply Kl]; apply elem_of_app; by right.
Qed.

(** A leaf replaced by its two halves, or by a copy. *)
Record split2 h h' i (c : cell K V) fz lo hi : Prop := {
  s2_i : h' !! i = Some (Cell fz (Some (length h)) TSecond);
  s2_lo : h' !! length h = Some (Cell lo (Some (S (length h))) TNone);
  s2_hi : h' !! S (length h) = Some (Cell hi (c_next c) TNone);
  s2_other : forall j, j <> i -> j < length h -> h' !! j = h !! j }.
Record split1 h h' i (c : cell K V) fz lo : Prop := {
  s1_i : h' !! i = Some (Cell fz (Some (length h)) TSecond);
  s1_lo : h' !! length h = Some (Cell lo (c_next c) TNone);
  s1_other : forall j, j <> i -> j < length h -> h' !! j = h !! j }.

Lemma other_agree h h' i : (forall j, j <> i -> j < length h -> h' !! j = h !! j) ->
  forall j, j <> i -> j < length h -> agree h h' j.
Proof. intros H j Nj Lj. specialize (H j Nj Lj). split; [unfold leaf_at; by rewrite H|]. intros c Hc. exists c. by rewrite H. Qed.
Lemma other_del h h' i c : h !! i = Some c -> c_tag c <> TSecond ->
  (forall j, j <> i -> j < length h -> h' !! j = h !! j) -> keeps_del h h'.
Proof. intros Hi Tg H j d Hj Td. exists d. rewrite H; [done|congruence|by eapply lookup_lt_Some]. Qed.
Lemma lands_other h h' i c p q : h !! i = Some c -> c_tag c <> TSecond -> q <> Some i ->
  (forall j, j <> i -> j < length h -> h' !! j = h !! j) -> lands h p q -> lands h' p q.
Proof.
  intros Hi Tg Nq H L. eapply lands_mono; [done|by eapply other_del|]. intros j d -> Hj Td. exists d. split; [|done].
  rewrite H; [done|congruence|by eapply lookup_lt_Some].
Qed.

Lemma core_ids_lt h L p : core h L -> p ∈ L -> p.2 < length h.
Proof. intros C Hp. eapply ok_lt. by apply (cr_leaf _ _ _ C). Qed.
Lemma ids_nodup h L : core h L -> NoDup L.*2.
Proof. apply cr_nodup. Qed.
Lemma ids_elem L i : i ∈ L.*2 -> exists s, (s, i) ∈ L.
Proof. intros H. apply elem_of_list_fmap in H as ([s j] & -> & H). by exists s. Qed.

Lemma split2_spec h h' A s i B c fz lo hi mid e :
  core h (A ++ (s, i) :: B) -> seg h (A ++ (s, i) :: B).*2 None -> h !! i = Some c -> split2 h h' i c fz lo hi ->
  good lo -> good hi -> frozen (md lo) = false -> frozen (md hi) = false -> scan (c_leaf c) = scan lo ++ scan hi -> scan hi <> [] ->
  last (scan lo) = Some e -> mid = e.1 ->
  core h' (A ++ (Some mid, length h) :: (s, S (length h)) :: B) /\
  seg h' (A ++ (Some mid, length h) :: (s, S (length h)) :: B).*2 None /\
  fents h' (A ++ (Some mid, length h) :: (s, S (length h)) :: B) = fents h (A ++ (s, i) :: B).
Proof.
  intros C Sg Hi S2 Glo Ghi Flo Fhi Sc Ne Le ->. destruct S2 as [Si Slo Shi So].
  assert (i < length h) as Li by (by eapply lookup_lt_Some).
  pose proof (core_at _ _ _ _ _ C) as (c' & Hc' & G & Fz & Tg & Ks). cbn in Hc'. rewrite Hi in Hc'. injection Hc' as <-. cbn in Ks.
  assert (ents h i = scan (c_leaf c)) as Eh by (unfold ents; by rewrite (leaf_at_lookup _ _ _ Hi)).
  assert (forall p, p ∈ A ++ B -> agree h h' p.2) as Ag.
  { intros p Hp. pose proof (core_others _ _ _ _ _ _ _ C Hp). apply (other_agree h h' i So); [done|].
    apply (core_ids_lt h (A ++ (s, i) :: B)); [done|]. apply elem_of_app. apply elem_of_app in Hp as [Hp|Hp]; [by left|right; by right]. }
  assert (ents h' (length h) = scan lo) as El by (unfold ents; by rewrite (leaf_at_lookup _ _ _ Slo)).
  assert (ents h' (S (length h)) = scan hi) as Ehi by (unfold ents; by rewrite (leaf_at_lookup _ _ _ Shi)).
  assert (forall p, p ∈ A ++ B -> p.2 < length h) as Lt_.
  { intros p Hp. apply (core_ids_lt h (A ++ (s, i) :: B)); [done|]. apply elem_of_app. apply elem_of_app in Hp as [Hp|Hp]; [by left|right; by right]. }
  (* the order inside *)
  pose proof (scan_asc cmp (c_leaf c) G) as Asc. rewrite Sc in Asc. apply asc_app in Asc as (A1 & A2 & A3).
  assert (exists es, scan lo = es ++ [e]) as [es Elo].
  { apply last_Some in Le as [es ->]. by exists es. }
  assert (e ∈ scan lo) as He by (rewrite Elo; apply elem_of_app; right; by left).
  assert (forall x, x ∈ scan lo -> cmp x.1 e.1 <> Gt) as Mx.
  { intros x Hx. rewrite Elo in Hx, A1. apply elem_of_app in Hx as [Hx|Hx].
    - apply asc_app in A1 as (_ & _ & A1). rewrite (A1 x e Hx); [done|by left].
    - apply elem_of_list_singleton in Hx as ->. by rewrite (cmp_refl cmp T). }
  assert (forall y, y ∈ scan hi -> cmp e.1 y.1 = Lt) as Mn by (intros y Hy; by apply A3).
  assert (forall x, x ∈ scan lo -> x ∈ ents h i) as In1 by (intros x Hx; rewrite Eh, Sc; apply elem_of_app; by left).
  assert (forall x, x ∈ scan hi -> x ∈ ents h i) as In2 by (intros x Hx; rewrite Eh, Sc; apply elem_of_app; by right).
  apply core_app in C as C'. destruct C' as (CA & CB & P). apply core_cons in CB as (_ & CB & P').
  split; [|split].
  - apply core_app. split; [apply (agree_core cmp h); [|done]; intros p Hp; apply Ag, elem_of_app; by left|].
    assert (core h' B) as CB' by (apply (agree_core cmp h); [|done]; intros p Hp; apply Ag, elem_of_app; by right).
    split.
    + apply core_cons. split; [|split].
      * exists (Cell lo (Some (S (length h))) TNone). cbn. rewrite Slo, El. repeat split; auto.
      * apply core_cons. split; [|split; [done|]].
        -- exists (Cell hi (c_next c) TNone). cbn. rewrite Shi, Ehi. repeat split; auto.
        -- intros b Hb. split; [cbn; specialize (Lt_ b ltac:(apply elem_of_app; by right)); lia|].
           apply (agree_prior cmp h); [apply Ag, elem_of_app; by right|]. apply (prior_fst cmp h s i), P', Hb.
      * intros b Hb. apply elem_of_cons in Hb as [->|Hb].
        -- cbn. split; [lia|]. exists e.1. cbn. rewrite Ehi. split; [done|]. split; [|done].
           destruct (scan hi) as [|y ys] eqn:Ey; [done|]. assert (y ∈ scan hi) as Hy by (rewrite Ey; by left).
           rewrite <-Ey in *. eapply (klt_kle cmp T); [by apply Mn|]. apply Ks, In2, Hy.
        -- split; [cbn; specialize (Lt_ b ltac:(apply elem_of_app; by right)); lia|].
           destruct (P' b Hb) as [_ (k & Es & Lb & Hk)]. cbn in Es. subst s. exists e.1.
           pose proof (Ks e (In1 e He)) as Lk. cbn in Lk. split; [done|].
           split; [by eapply (kle_klt cmp T)|]. intros x Hx. rewrite (agree_ents h h' b.2) in Hx by (apply Ag, elem_of_app; by right).
           eapply (cmp_le_lt cmp T); [done|]. auto.
    + intros a b Ha Hb. destruct (P a (s, i) Ha) as [_ (k & Ea & Lb & Hk)]; [by left|]. cbn in Lb, Hk.
      assert (a.2 < length h) as La by (apply Lt_, elem_of_app; by left).
      apply elem_of_cons in Hb as [->|Hb]; [|apply elem_of_cons in Hb as [->|Hb]].
      * cbn. split; [lia|]. exists k. split; [done|]. cbn. rewrite El. split; [by apply Hk, In1|]. intros x Hx. by apply Hk, In1.
      * cbn. split; [lia|]. exists k. split; [done|]. cbn. rewrite Ehi. split; [done|]. intros x Hx. by apply Hk, In2.
      * destruct (P a b Ha) as [Nab Pr]; [by right|]. split; [done|]. apply (agree_prior cmp h); [|done]. apply Ag, elem_of_app. by right.
  - rewrite !fmap_app, !fmap_cons in *. cbn [snd] in *.
    apply (seg_replace h h' A.*2 i B.*2 [length h; S (length h)] None (Cell fz (Some (length h)) TSecond)).
    + pose proof (cr_nodup _ _ _ C) as N. by rewrite fmap_app, fmap_cons in N.
    + by eapply other_del.
    + intros j Hj. rewrite <-fmap_app in Hj. apply ids_elem in Hj as [s' Hj]. apply So; [|by apply (Lt_ (s', j))].
      intros ->. by apply (core_others _ _ _ _ _ _ _ C Hj).
    + done.
    + apply keeps_live_none.
    + done.
    + done.
    + cbn. by eapply lands_at.
    + rewrite seg_cons. split; [|rewrite seg_cons; split; [|done]].
      * eexists. split; [exact Slo|]. cbn. by eapply lands_at.
      * eexists. split; [exact Shi|]. cbn [c_next hd_or]. rewrite seg_app, seg_cons in Sg. destruct Sg as (_ & (d & Hd & Ld) & _).
        rewrite Hi in Hd. injection Hd as <-. eapply lands_other; [exact Hi|exact Tg| |exact So|exact Ld].
        pose proof (cr_nodup _ _ _ C) as N. rewrite fmap_app, fmap_cons in N. apply NoDup_app in N as (_ & _ & N).
        apply NoDup_cons in N as [N _]. destruct (B.*2); [done|]. cbn. intros [= ->]. apply N. by left.
    + done.
  - rewrite !fents_app, !fents_cons, El, Ehi, Eh, Sc, <-!app_assoc.
    rewrite (agree_fents h h' A), (agree_fents h h' B); [done| |]; intros p Hp; apply Ag, elem_of_app; [by right|by left].
Qed.

Lemma split1_spec h h' A s i B c fz lo :
  core h (A ++ (s, i) :: B) -> seg h (A ++ (s, i) :: B).*2 None -> h !! i = Some c -> split1 h h' i c fz lo ->
  good lo -> frozen (md lo) = false -> scan (c_leaf c) = scan lo ->
  core h' (A ++ (s, length h) :: B) /\ seg h' (A ++ (s, length h) :: B).*2 None /\
  fents h' (A ++ (s, length h) :: B) = fents h (A ++ (s, i) :: B).
Proof.
  intros C Sg Hi S1 Glo Flo Sc. destruct S1 as [Si Slo So].
  pose proof (core_at _ _ _ _ _ C) as (c' & Hc' & G & Fz & Tg & Ks). cbn in Hc'. rewrite Hi in Hc'. injection Hc' as <-. cbn in Ks.
  assert (ents h i = scan (c_leaf c)) as Eh by (unfold ents; by rewrite (leaf_at_lookup _ _ _ Hi)).
  assert (ents h' (length h) = ents h i) as El by (unfold ents at 1; by rewrite (leaf_at_lookup _ _ _ Slo), Eh, Sc).
  assert (forall p, p ∈ A ++ B -> p.2 < length h) as Lt_.
  { intros p Hp. apply (core_ids_lt h (A ++ (s, i) :: B)); [done|]. apply elem_of_app. apply elem_of_app in Hp as [Hp|Hp]; [by left|right; by right]. }
  assert (forall p, p ∈ A ++ B -> agree h h' p.2) as Ag.
  { intros p Hp. pose proof (core_others _ _ _ _ _ _ _ C Hp). apply (other_agree h h' i So); [done|]. auto. }
  split; [|split].
  - apply (core_replace cmp h h' A s i B); [done|done|..].
    + exists (Cell lo (c_next c) TNone). cbn. rewrite Slo, El. repeat split; auto.
    + intros p Hp. specialize (Lt_ p Hp). lia.
    + apply core_app in C as (_ & _ & P). intros a Ha. destruct (P a (s, i) Ha) as [_ (k & Ea & Lk & Hk)]; [by left|].
      exists k. split; [done|]. split; [done|]. cbn. by rewrite El.
    + apply core_app in C as (_ & C & _). apply core_cons in C as (_ & _ & P). intros b Hb.
      apply (agree_prior cmp h); [apply Ag, elem_of_app; by right|]. apply (prior_fst cmp h s i), P, Hb.
  - rewrite !fmap_app, !fmap_cons in *. cbn [snd] in *.
    apply (seg_replace h h' A.*2 i B.*2 [length h] None (Cell fz (Some (length h)) TSecond)).
    + pose proof (cr_nodup _ _ _ C) as N. by rewrite fmap_app, fmap_cons in N.
    + by eapply other_del.
    + intros j Hj. rewrite <-fmap_app in Hj. apply ids_elem in Hj as [s' Hj]. apply So; [|by apply (Lt_ (s', j))].
      intros ->. by apply (core_others _ _ _ _ _ _ _ C Hj).
    + done.
    + apply keeps_live_none.
    + done.
    + done.
    + cbn. by eapply lands_at.
    + rewrite seg_cons. split; [|done]. eexists. split; [exact Slo|]. cbn [c_next hd_or].
      rewrite seg_app, seg_cons in Sg. destruct Sg as (_ & (d & Hd & Ld) & _).
      rewrite Hi in Hd. injection Hd as <-. eapply lands_other; [exact Hi|exact Tg| |exact So|exact Ld].
      pose proof (cr_nodup _ _ _ C) as N. rewrite fmap_app, fmap_cons in N. apply NoDup_app in N as (_ & _ & N).
      apply NoDup_cons in N as [N _]. destruct (B.*2); [done|]. cbn. intros [= ->]. apply N. by left.
    + done.
  - rewrite !fents_app, !fents_cons, El.
    rewrite (agree_fents h h' A), (agree_fents h h' B); [done| |]; intros p Hp; apply Ag, elem_of_app; [by right|by left].
Qed.
End facts.
