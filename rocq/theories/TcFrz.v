(** Freezing a leaf, and taking up the split of a child, keep the invariant. *)
From Coq Require Import List Arith Bool Lia.
From Verif Require Import TcModel TcRoute TcSpec TcInv TcTree TcFrame TcKeep TcJobs TcSplit.
Import ListNotations.

Section frz.
Context {K V : Type} (leb : K -> K -> bool) (HO : tord leb).
Notation heap := (nat -> obj K V).
Notation pos := (pos leb).
Notation nxt := (nxt leb).
Notation On := (On leb).
Notation Live := (Live leb).
Notation sel := (sel leb).
Notation wlt := (wlt leb).
Notation HInv := (HInv leb).
Context (h : heap) (f : nat) (r : option nat) (lg : list (ev K V)) (HI : HInv h f r lg).
Notation "'on' k x" := (On h r k x) (at level 10, k at level 9, x at level 9).
Notation live := (Live h r).

Lemma wfo_leaf (h' : heap) f' y es z w : h' y = leaf0 es z w -> wfo leb h' f' y.
Proof.
  intros E. constructor; rewrite E; cbn; auto; try congruence; try tauto.
  - repeat split; auto. constructor. constructor. intros ? [].
  - constructor.
Qed.
Lemma wfo_node (h' : heap) f' y L es u j w : h' y = mk_node L es u j w -> L <> 0 -> j = Idle \/ j = NewLk ->
  (exists c, u = UTo c) -> wfc leb (cells (h' y)) (nsl (h' y)) -> NoDup (kids (h' y)) ->
  (forall c, In c (kids (h' y)) -> c < f' /\ L = S (lvl (h' c))) -> wfo leb h' f' y.
Proof.
  intros E Ll Hj [u0 ->] Hw Nd Hk. constructor; auto; rewrite E in *; cbn in *; auto; try congruence; try tauto; try (intros X; destruct (X u0 eq_refl)).
  - destruct Hj as [->| ->]; auto.
  - destruct Hj as [->| ->]; auto.
Qed.

(** The key between the halves is no key of the node. *)
Lemma mid_notkey x o c m lo hi : x < f -> jv (jb (h x)) = Some (o, c, Some m, lo, hi) ->
  over (h x) = false -> isIns (jb (h x)) = false -> ~ In m (keys (cells (h x))).
Proof.
  intros Hx J O I Hi. pose proof (h_hld _ _ _ _ _ HI _ _ _ _ _ _ Hx J) as L.
  pose proof (l_pos _ _ _ _ _ _ _ _ _ L I m eq_refl) as Pm.
  destruct (j_w _ _ _ _ _ _ _ _ _ (h_job _ _ _ _ _ HI _ _ _ _ _ _ Hx J O)) as (k0 & H0 & W0).
  destruct (up leb HO h f r lg HI k0 _ _ _ _ _ _ Hx J (or_introl O) H0) as (_ & P0 & _).
  destruct (w_wfc _ _ _ _ (h_wf _ _ _ _ _ HI x Hx)) as (Ws & Wn & _).
  rewrite pos_rts in *. apply (route_sep leb HO (cells (h x)) m m k0); auto; [|congruence].
  kord HO.
Qed.

Section one.
Context (h' : heap) (n c : nat) (o : lpos).
Hypothesis Hn : n < f.
Hypothesis Jn : jb (h n) = Locked.
Hypothesis Hp : ptr (h n) o = Some c.
Hypothesis Lc : lvl (h c) = 0.
Hypothesis Fc : fz (h c) = Open.
Hypothesis Ec : h' c = set_fz (Orig n) (h c).
Hypothesis Eo : forall y, y < f -> y <> n -> y <> c -> h' y = h y.

Lemma fz_same : (exists j, h' n = set_jb j (h n)) ->
  forall y, y < f -> same (h' y) (h y) /\ ret (h' y) = ret (h y) /\ nsl (h' y) = nsl (h y)
    /\ over (h' y) = over (h y) /\ wlo (h' y) = wlo (h y) /\ own (h' y) = own (h y).
Proof.
  intros [j En] y Hy. destruct (Nat.eq_dec y n) as [->|A]; [rewrite En; repeat split; auto|].
  destruct (Nat.eq_dec y c) as [->|B]; [rewrite Ec; repeat split; auto|]. rewrite Eo; repeat split; auto.
Qed.
Lemma fz_ln : lvl (h n) = 1 /\ c < f /\ c <> n.
Proof.
  pose proof (lk_c leb h f r lg HI n c o Hn Hp) as [A B]. split; [lia|]. split; auto. intros ->. lia.
Qed.
Lemma fz_on k v : In (k, v) (ents (h c)) -> on k c.
Proof.
  intros Hi. destruct fz_ln as (Ln1 & Hc & _). assert (lvl (h n) <> 0) as Ln by lia.
  apply (h_ent _ _ _ _ _ HI).
  - apply (lk_clive leb HO h f r lg HI n c o); auto.
  - apply in_map_iff. now exists (k, v).
  - pose proof (lk_cover leb HO h f r lg HI n c o Hn Jn Ln Hp) as Oc.
    rewrite (w_wlo _ _ _ _ (h_wf _ _ _ _ _ HI c Hc) Oc). exact Logic.I.
Qed.

Lemma step_frz0 : h' n = set_jb (Swap0 o c f) (h n) -> h' f = leaf0 (ents (h c)) Open n -> HInv h' (S f) r lg.
Proof.
  intros En Ef. destruct fz_ln as (Ln1 & Hc & Ncn). assert (lvl (h n) <> 0) as Ln by lia.
  apply (step_split leb HO h f r lg HI h' (S f) n c f f o None); auto.
  - left. rewrite En. auto.
  - apply fz_same. eauto.
  - intros y Hy. replace y with f by lia. split; [eapply wfo_leaf; eauto|]. rewrite Ef. auto.
  - intros y A B C. rewrite Eo; auto.
  - left. rewrite Ec. auto.
  - intros y Hy Ny. destruct (Nat.eq_dec y n) as [->|A]; [rewrite En; auto|]. rewrite Eo; auto.
  - destruct (lk_clive leb HO h f r lg HI n c o Hn Jn Ln Hp) as [k Hk]. exists k. split; auto. exact Logic.I.
  - congruence.
  - rewrite Ef. cbn. repeat split; auto.
  - congruence.
  - unfold Fz. rewrite En. cbn. intros _. now rewrite Ef.
  - intros k u ->. cbn. rewrite Ef. split; auto. cbn. intros o' a' om' lo' hi' J.
    destruct (w_leaf _ _ _ _ (h_wf _ _ _ _ _ HI c Hc) Lc) as (_ & _ & E). now rewrite E in J.
Qed.

Lemma step_frz1 m v : h' n = set_jb (Split o c m f (S f)) (h n) ->
  h' f = leaf0 (upto leb m (ents (h c))) (Hold n) n -> h' (S f) = leaf0 (above leb m (ents (h c))) Open n ->
  get leb (ents (h c)) m = Some v -> above leb m (ents (h c)) <> [] ->
  HInv h' (S (S f)) r lg.
Proof.
  intros En Ef Eg Hm Ha. destruct fz_ln as (Ln1 & Hc & Ncn). assert (lvl (h n) <> 0) as Ln by lia.
  apply (step_split leb HO h f r lg HI h' (S (S f)) n c f (S f) o (Some m)); auto; try lia.
  - right. exists m. rewrite En. auto.
  - apply fz_same. eauto.
  - intros y Hy. assert (y = f \/ y = S f) as [->| ->] by lia; (split; [eapply wfo_leaf; eauto|]);
      [rewrite Ef|rewrite Eg]; auto.
  - intros y A B C. rewrite Eo; auto.
  - left. rewrite Ec. auto.
  - intros y Hy Ny. destruct (Nat.eq_dec y n) as [->|A]; [rewrite En; auto|]. rewrite Eo; auto.
  - destruct (above leb m (ents (h c))) as [|[k w] l] eqn:E; [tauto|].
    assert (In (k, w) (above leb m (ents (h c)))) as Hi by (rewrite E; now left).
    apply filter_In in Hi as [Hi Hk]. exists k. split; [eapply fz_on; eauto|]. cbn in *.
    unfold ltb in Hk. now destruct (leb k m).
  - intros m0 [= <-]. apply (get_in leb HO) in Hm. eapply fz_on; eauto.
  - rewrite Ef, Eg. cbn. repeat split; auto.
  - intros ? ? ? ? ? ? _ J. destruct (w_leaf _ _ _ _ (h_wf _ _ _ _ _ HI c Hc) Lc) as (_ & _ & E). now rewrite E in J.
  - unfold Fz. rewrite En. cbn. intros _. now rewrite Ef, Eg.
  - intros k u Eu. split.
    + intros _. unfold TcInv.sel in *. destruct (leb k m) eqn:E; subst u; [rewrite Ef|rewrite Eg]; cbn; split.
      * unfold upto. now rewrite (get_filter leb HO (fun k => leb k m)).
      * intros e He. apply filter_In in He as [He1 He2]. now rewrite He2.
      * unfold above. rewrite (get_filter leb HO (fun k => ltb leb m k)); auto. unfold ltb. now rewrite E.
      * intros e He. apply filter_In in He as [He1 He2]. unfold ltb in He2. destruct (leb (fst e) m); [discriminate|auto].
    + intros o' a' om' lo' hi' J.
      destruct (w_leaf _ _ _ _ (h_wf _ _ _ _ _ HI c Hc) Lc) as (_ & _ & E). now rewrite E in J.
Qed.
End one.

Lemma step_take (h' : heap) n c o o1 c1 m1 lo1 hi1 lns1 lns2 b mid xl xh :
  n < f -> jb (h n) = Locked -> ptr (h n) o = Some c -> lvl (h c) <> 0 ->
  jb (h c) = Full o1 c1 m1 lo1 hi1 None lns1 ->
  build (h c) o1 m1 lo1 hi1 b n = Some (mid, xl, xh) ->
  h' c = set_jb (Full o1 c1 m1 lo1 hi1 (Some n) lns2) (h c) ->
  h' n = set_jb (Split o c mid f (S f)) (h n) ->
  h' f = xl -> h' (S f) = xh ->
  (forall y, y < f -> y <> n -> y <> c -> h' y = h y) ->
  HInv h' (S (S f)) r lg.
Proof.
  intros Hn Jn Hp Lc Jc Hb Ec En Ef Eg Eo.
  pose proof (lk_c leb h f r lg HI n c o Hn Hp) as [Hc Lnc]. assert (lvl (h n) <> 0) as Ln by lia.
  pose proof (lk_cover leb HO h f r lg HI n c o Hn Jn Ln Hp) as Oc.
  pose proof (lk_clive leb HO h f r lg HI n c o Hn Jn Ln Hp) as Lv.
  assert (c <> n) as Ncn by (intros ->; lia).
  assert (jv (jb (h c)) = Some (o1, c1, Some m1, lo1, hi1)) as Jv by now rewrite Jc.
  pose proof (h_hld _ _ _ _ _ HI _ _ _ _ _ _ Hc Jv) as L.
  assert (isIns (jb (h c)) = false) as Is by now rewrite Jc.
  pose proof (h_wf _ _ _ _ _ HI c Hc) as W.
  pose proof (l_ptr _ _ _ _ _ _ _ _ _ L) as Hp1.
  destruct (build_spec leb HO (h c) o1 m1 lo1 hi1 b n c1 mid xl xh) as
    ((es1 & d1 & Exl) & (es2 & d2 & Exh) & W1 & W2 & Nd1 & Nd2 & Hk & Hmid & Hkl & Hkh & Hnx); auto.
  { apply W. } { eapply (kid_ub leb h f r lg HI c c1 Hc), in_kids; eauto. }
  { apply (l_pos _ _ _ _ _ _ _ _ _ L Is). auto. }
  { eapply mid_notkey; eauto. } { eapply (jv_nd leb h f r lg HI c); eauto. }
  { apply (l_lok _ _ _ _ _ _ _ _ _ L Is). } { apply L. } { apply L. congruence. }
  assert (forall y, y < f -> same (h' y) (h y) /\ ret (h' y) = ret (h y) /\ nsl (h' y) = nsl (h y)
    /\ over (h' y) = over (h y) /\ wlo (h' y) = wlo (h y) /\ own (h' y) = own (h y)) as Hs.
  { intros y Hy. destruct (Nat.eq_dec y n) as [->|A]; [rewrite En; repeat split; auto|].
    destruct (Nat.eq_dec y c) as [->|B]; [rewrite Ec; repeat split; auto|]. rewrite Eo; repeat split; auto. }
  set (j := match lvl (h c) with 1 => NewLk | _ => Idle end : job K) in *.
  assert (j = Idle \/ j = NewLk) as Hj.
  { unfold j. destruct (lvl (h c)) as [|[|]]; auto. }
  assert (forall q, In q (kids xl) \/ In q (kids xh) -> q < S (S f) /\ lvl (h c) = S (lvl (h' q))) as Hk2.
  { intros q Hq. assert (q < f /\ lvl (h c) = S (lvl (h q))) as [Q1 Q2].
    { destruct (jv_c_lt leb h f r lg HI _ _ _ _ _ _ Hc Jv) as [_ Lc1].
      destruct (Hk q Hq) as [->|[->|Hq']].
      - split; [apply L|]. rewrite (l_lvlo _ _ _ _ _ _ _ _ _ L). auto.
      - split; [apply L|]. rewrite (l_lvhi _ _ _ _ _ _ _ _ _ L). auto.
      - destruct (kid_lvl leb h f r lg HI c q Hc Hq'). auto. }
    destruct (Hs q Q1) as ((-> & _) & _). split; auto. }
  assert (forall s, In s (keys (cells (h c))) \/ Some m1 = Some s -> on s c) as Hon.
  { assert (wlo (h c) = None) as Ew by now apply W.
    intros s [Hi|[= <-]]; [apply (h_sep _ _ _ _ _ HI c s); auto; rewrite Ew; exact Logic.I|].
    apply (h_mid _ _ _ _ _ HI c o1 c1 m1 lo1 hi1); auto. rewrite Ew. exact Logic.I. }
  apply (step_split leb HO h f r lg HI h' (S (S f)) n c f (S f) o (Some mid)); auto; try lia.
  - right. exists mid. rewrite En. auto.
  - intros y Hy. assert (y = f \/ y = S f) as [->| ->] by lia.
    + split; [|rewrite Ef, Exl; auto]. apply (wfo_node h' _ f (lvl (h c)) es1 (UTo d1) j n); auto; rewrite ?Ef; eauto.
    + split; [|rewrite Eg, Exh; auto]. apply (wfo_node h' _ (S f) (lvl (h c)) es2 (UTo d2) j n); auto; rewrite ?Eg; eauto.
  - intros y A B C. rewrite Eo; auto.
  - right. split; auto. exists o1, c1, m1, lo1, hi1, lns1, lns2. rewrite Ec. auto.
  - intros y Hy Ny. destruct (Nat.eq_dec y n) as [->|A]; [rewrite En; auto|].
    destruct (Nat.eq_dec y c) as [->|B]; [rewrite Ec; auto|]. rewrite Eo; auto.
  - destruct (h_wu _ _ _ _ _ HI c Lv) as (k & A & B & C). exists k. split; auto. cbn.
    specialize (C _ _ _ _ _ Jv Is). destruct Hmid as [Hmid| ->]; auto.
    rewrite pos_rts in B. apply (proj1 (route_ub_keys leb _ _) B); auto.
  - intros m0 [= <-]. apply Hon. destruct Hmid as [|<-]; auto.
  - rewrite Ef, Eg, Exl, Exh. cbn. repeat split; auto.
  - intros m0 ? ? ? ? ? [= <-] J. rewrite Jv in J. injection J as <- <- <- <- <-.
    destruct Hmid as [|<-]; auto.
  - unfold Fz. rewrite En. cbn. lia.
  - intros k u Eu. split; [tauto|]. intros o' a' om' lo' hi' J. rewrite Jv in J. injection J as <- <- <- <- <-.
    specialize (Hnx k). unfold TcInv.sel in *. unfold TcInv.nxt at 1.
    destruct (leb k mid) eqn:E; subst u; [rewrite Ef|rewrite Eg]; split; auto; intros s Hi.
    + destruct (Hkl s Hi) as [A B]. assert (leb s mid = true) as -> by kord HO.
      split; [destruct A as [| ->]; auto|]. split; auto. intros [= <-]. kord HO.
    + destruct (Hkh s Hi) as [A ->]. split; [destruct A as [| ->]; auto|]. split; auto.
      intros [= <-]. pose proof (proj2 (Hkh mid Hi)). kord HO.
Qed.
End frz.
