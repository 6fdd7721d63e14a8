(** The first step of a split keeps the invariant. *)
From Coq Require Import List Arith Bool Lia.
From Verif Require Import TcModel TcRoute TcSpec TcInv TcTree TcFrame TcKeep TcJobs.
Import ListNotations.

Section split.
Context {K V : Type} (leb : K -> K -> bool) (HO : tord leb).
Notation heap := (nat -> obj K V).
Notation pos := (pos leb).
Notation nxt := (nxt leb).
Notation On := (On leb).
Notation Live := (Live leb).
Notation Path := (Path leb).
Notation Rep := (Rep leb).
Notation sel := (sel leb).
Notation wlt := (wlt leb).
Notation Job := (Job leb).
Notation HInv := (HInv leb).

Lemma path_top (h : heap) x o c om lo hi k p : jv (jb (h x)) = Some (o, c, om, lo, hi) -> Path h x k p ->
  p = x \/ pos (h x) k = o /\ Path h c k p.
Proof.
  intros J. induction 1 as [|p o1 a om1 lo1 hi1 Hp IH Hj Ho]; [now left|right].
  destruct IH as [->|[E IH]].
  - rewrite J in Hj. injection Hj as <- <- <- <- <-. split; auto. apply P0.
  - split; auto. eapply PS; eauto.
Qed.
Lemma path_none (h : heap) x k p : jv (jb (h x)) = None -> Path h x k p -> p = x.
Proof.
  intros J. induction 1 as [|p o1 a om1 lo1 hi1 Hp IH Hj Ho]; auto. subst. congruence.
Qed.

Context (h : heap) (f : nat) (r : option nat) (lg : list (ev K V)) (HI : HInv h f r lg).
Notation "'on' k x" := (On h r k x) (at level 10, k at level 9, x at level 9).
Notation live := (Live h r).

(** Children of a locked node. *)
Section locked.
Context (n c : nat) (o : lpos).
Hypothesis Hn : n < f.
Hypothesis Jn : jb (h n) = Locked.
Hypothesis Ln : lvl (h n) <> 0.
Hypothesis Hp : ptr (h n) o = Some c.
Lemma lk_noover : over (h n) = false.
Proof. apply (idle_noover leb h f r lg HI n Hn Ln). now rewrite Jn. Qed.
Lemma lk_kid : In c (kids (h n)).
Proof. eapply in_kids; eauto. Qed.
Lemma lk_live : live n.
Proof.
  apply (act_live leb h f r lg HI n Hn); [now rewrite Jn|apply lk_noover|]. exists c. apply lk_kid.
Qed.
Lemma lk_clive : live c.
Proof. apply (live_kid leb HO h f r lg HI n c lk_live lk_noover lk_kid). Qed.
Lemma lk_c : c < f /\ lvl (h n) = S (lvl (h c)).
Proof. destruct (kid_lvl leb h f r lg HI n c Hn lk_kid). auto. Qed.
Lemma lk_nd : NoDup (kids (h n)).
Proof. pose proof (w_nd _ _ _ _ (h_wf _ _ _ _ _ HI n Hn)) as W. now rewrite Jn in W. Qed.
Lemma lk_up k : on k c -> on k n /\ pos (h n) k = o /\ nxt h n k = Some c.
Proof.
  intros Hk. destruct (every_kid leb HO h f r lg HI n c lk_live lk_noover lk_kid) as (k5 & H5 & N5).
  destruct (on_parent leb h f r lg HI k n c Hn lk_kid lk_live Hk) as (u & Hu & Nu).
  assert (u = n) by (eapply (h_tree _ _ _ _ _ HI k k5); eauto). subst u.
  split; auto. split; auto. eapply ptr_inj; eauto. apply lk_nd.
Qed.
Lemma lk_cover : over (h c) = false.
Proof.
  destruct (over (h c)) eqn:E; auto. exfalso.
  destruct (every_kid leb HO h f r lg HI n c lk_live lk_noover lk_kid) as (k5 & H5 & N5).
  destruct (h_over _ _ _ _ _ HI _ _ _ H5 N5 E) as (? & ? & ? & ? & J & _). rewrite Jn in J. discriminate.
Qed.
End locked.

Section step.
Context (h' : heap) (f' n c lo hi : nat) (o : lpos) (om : option K).
Hypothesis Hn : n < f.
Hypothesis Jn : jb (h n) = Locked.
Hypothesis Ln : lvl (h n) <> 0.
Hypothesis Hp : ptr (h n) o = Some c.
Hypothesis Ff : f <= f'.
Hypothesis Hlo : f <= lo < f'.
Hypothesis Hhi : f <= hi < f'.
Hypothesis J' : (om = None /\ hi = lo /\ lvl (h n) = 1 /\ jb (h' n) = Swap0 o c lo)
  \/ (exists m, om = Some m /\ lo <> hi /\ jb (h' n) = Split o c m lo hi).
Hypothesis Hsame : forall y, y < f -> same (h' y) (h y) /\ ret (h' y) = ret (h y) /\ nsl (h' y) = nsl (h y)
  /\ over (h' y) = over (h y) /\ wlo (h' y) = wlo (h y) /\ own (h' y) = own (h y).
Hypothesis K_new : forall y, f <= y < f' -> wfo leb h' f' y /\ (jb (h' y) = Idle \/ jb (h' y) = NewLk).
Hypothesis Hj : forall y, y < f -> y <> n -> y <> c -> jb (h' y) = jb (h y).
Hypothesis Hc : (lvl (h c) = 0 /\ jb (h' c) = jb (h c) /\ fz (h c) = Open /\ fz (h' c) = Orig n)
  \/ (lvl (h c) <> 0 /\ exists o1 c1 m1 lo1 hi1 lns1 lns2,
        jb (h c) = Full o1 c1 m1 lo1 hi1 None lns1 /\ jb (h' c) = Full o1 c1 m1 lo1 hi1 (Some n) lns2).
Hypothesis Hfz : forall y, y < f -> (lvl (h c) = 0 -> y <> c) -> fz (h' y) = fz (h y).
Hypothesis Hw : exists k0, on k0 c /\ wlt om k0.
Hypothesis Hm : forall m, om = Some m -> on m c.
Hypothesis Hnew : lvl (h' lo) = lvl (h c) /\ lvl (h' hi) = lvl (h c) /\ own (h' lo) = n /\ own (h' hi) = n
  /\ over (h' lo) = false /\ over (h' hi) = false.
Hypothesis Hsep : forall m o' c' om' lo' hi', om = Some m -> jv (jb (h c)) = Some (o', c', om', lo', hi') ->
  In m (keys (cells (h c))) \/ om' = Some m.
Hypothesis HF : Fz h' n.
Hypothesis Himg : forall k u, u = sel om lo hi k ->
  (lvl (h c) = 0 -> get leb (ents (h' u)) k = get leb (ents (h c)) k
      /\ forall e, In e (ents (h' u)) -> In e (ents (h c)) /\ sel om lo hi (fst e) = u)
  /\ (forall o' a' om' lo' hi', jv (jb (h c)) = Some (o', a', om', lo', hi') ->
      nxt h' u k = (if lpos_eqb (pos (h c) k) o' then Some (sel om' lo' hi' k) else nxt h c k)
      /\ forall s, In s (keys (cells (h' u))) ->
           (In s (keys (cells (h c))) \/ om' = Some s) /\ sel om lo hi s = u /\ om <> Some s).

Lemma sp_jv : jv (jb (h' n)) = Some (o, c, om, lo, hi) /\ isIns (jb (h' n)) = false.
Proof. destruct J' as [(-> & -> & _ & ->)|(m & -> & _ & ->)]; auto. Qed.
Lemma sp_cjv : jv (jb (h' c)) = jv (jb (h c)) /\ isIns (jb (h' c)) = isIns (jb (h c))
  /\ active (jb (h' c)) = active (jb (h c)).
Proof. destruct Hc as [(_ & -> & _)|(_ & ? & ? & ? & ? & ? & ? & ? & -> & ->)]; auto. Qed.
Lemma sp_nheld y q : q < f -> held h y q -> lvl (h q) <> 0 -> jb (h' q) = jb (h q) /\ q <> n.
Proof.
  intros Hq Hh Lq. assert (q <> n) as Ne.
  { intros ->. apply (held_nofull h y n Hh Lq). unfold nofull. now rewrite Jn. }
  split; auto. destruct (Nat.eq_dec q c) as [->|Nc]; [|auto].
  destruct Hc as [(_ & E & _)|(L & ? & ? & ? & ? & ? & ? & ? & E & _)]; auto. exfalso.
  unfold held in Hh. destruct (lvl (h c)); [tauto|]. destruct Hh as (? & ? & ? & ? & ? & ? & E'). congruence.
Qed.
Lemma sp_pos k : pos (h' n) k = pos (h n) k.
Proof. apply same_pos. now apply Hsame. Qed.
Let on_keep k y := k2_on leb h h' f r lg HI Hsame k y.
Let live_keep y := k2_live leb h h' f r lg HI Hsame y.

Theorem step_split : HInv h' f' r lg.
Proof.
  pose proof (lk_noover n Hn Jn Ln) as On0.
  pose proof (lk_live n c o Hn Jn Ln Hp) as Lv.
  pose proof (lk_clive n c o Hn Jn Ln Hp) as Lvc.
  pose proof (lk_c n c o Hn Hp) as [Hcf Lc].
  pose proof (lk_cover n c o Hn Jn Ln Hp) as Oc.
  pose proof (lk_up n c o Hn Jn Ln Hp) as Up.
  pose proof (lk_nd n Hn Jn) as Nd.
  destruct sp_jv as [Jv Is].
  assert (c <> n) as Ncn by (intros ->; lia).
  destruct sp_cjv as (Cj1 & Cj2 & Cj3).
  destruct Hnew as (N1 & N2 & N3 & N4 & N5 & N6).
  destruct (Hsame n Hn) as (Sn & _). destruct (Hsame c Hcf) as (Sc & _ & _ & Eoc & _).
  assert (forall q, In q (kids (h' n)) -> q < f) as Kf.
  { intros q Hq. rewrite (same_kids _ _ Sn) in Hq. now apply (kid_lvl leb h f r lg HI n q Hn). }
  apply (keep2 leb HO h h' f f' r lg HI n); auto.
  - intros y Hy. destruct (Nat.eq_dec y n) as [->|Ne].
    { right. unfold jbok. rewrite On0, Jn. split; auto. split; [congruence|].
      split; [congruence|]. destruct J' as [(_ & _ & _ & ->)|(m & _ & _ & ->)]; split; congruence || auto. }
    destruct (Nat.eq_dec y c) as [->|Nc]; auto.
    destruct Hc as [(_ & E & _)|(L & ? & ? & ? & ? & ? & ? & ? & E1 & E2)]; auto.
    right. unfold jbok. rewrite Oc, E1, E2. repeat split; congruence.
  - intros y Hy O L. apply Hfz; auto. intros _ ->. congruence.
  - intros y c1 lo1 hi1 lns1 i1 Hy J1 Ej L1 Hh1.
    pose proof (w_commit _ _ _ _ (h_wf _ _ _ _ _ HI y Hy)) as W. rewrite J1 in W.
    destruct W as [_ W]. destruct (W L1) as (Hc1 & Lc1 & _ & _). now apply (sp_nheld y).
  - intros y Hy Ne. left. destruct (Nat.eq_dec y c) as [->|Nc]; auto. rewrite Hj; auto.
  - intros y o1 q om1 lo1 hi1 Hy Ne J1 _.
    destruct (jv_c_lt leb h f r lg HI _ _ _ _ _ _ Hy J1) as [Hq _].
    pose proof (l_held _ _ _ _ _ _ _ _ _ (h_hld _ _ _ _ _ HI _ _ _ _ _ _ Hy J1)) as Hh.
    destruct (Nat.eq_dec (lvl (h q)) 0) as [Lq|Lq]; [|now apply (sp_nheld y)].
    assert (q <> n) by (intros ->; tauto). split; auto.
    destruct (Nat.eq_dec q c) as [->|]; auto. destruct Hc as [(_ & E & _)|(L & _)]; tauto.
  - intros y z Hy Hz Ne Ej Oz D. apply Hfz; auto. intros L ->.
    destruct Hc as [(_ & _ & E & _)|(L' & _)]; [|tauto]. destruct D as [D|[_ D]]; [congruence|tauto].
  - intros y z Hz Ne D. apply Hfz; auto. intros L ->.
    destruct Hc as [(_ & _ & E & _)|(L' & _)]; [congruence|tauto].
  - intros y Hy Ne. destruct (Nat.eq_dec y c) as [->|Nc]; auto.
    destruct Hc as [(_ & E & _)|(L & o1 & c1 & m1 & lo1 & hi1 & lns1 & lns2 & E1 & E2)]; auto. right.
    unfold Fz. rewrite E2. destruct Sc as (-> & _). intros Lc1.
    pose proof (h_fz _ _ _ _ _ HI c Hcf Lc1) as F. rewrite E1 in F.
    assert (jv (jb (h c)) = Some (o1, c1, Some m1, lo1, hi1)) as Jc by now rewrite E1.
    pose proof (h_hld _ _ _ _ _ HI _ _ _ _ _ _ Hcf Jc) as Lc2.
    pose proof (l_lo _ _ _ _ _ _ _ _ _ Lc2). pose proof (l_hi _ _ _ _ _ _ _ _ _ Lc2).
    rewrite !Hfz; auto; lia.
  - intros o1 c1 om1 lo1 hi1 _ E. rewrite Jv in E. injection E as <- <- <- <- <-.
    assert (lvl (h' c) = lvl (h c)) as Elc by apply Sc.
    constructor; rewrite ?(same_ptr _ _ o Sn), ?Elc; auto; try lia.
    + unfold held. rewrite Elc. destruct Hc as [(L & _ & _ & E)|(L & o1 & c1 & m1 & lo1 & hi1 & lns1 & lns2 & E1 & E2)].
      * now rewrite L.
      * destruct (lvl (h c)); [tauto|]. rewrite E2. eauto 10.
    + intros Nom. destruct J' as [(E & _)|(m & _ & E & _)]; tauto.
    + intros Hi. apply Kf in Hi. lia.
    + intros _ Hi. apply Kf in Hi. lia.
    + intros _ m Em. rewrite sp_pos. now apply Up, Hm.
    + intros Em. destruct J' as [(_ & _ & E & _)|(m & E & _)]; [lia|congruence].
    + rewrite Cj1. destruct Sc as (_ & _ & -> & _). exact Hsep.
    + destruct (Hsame n Hn) as (_ & _ & _ & -> & _). congruence.
  - intros o1 c1 om1 lo1 hi1 _ E _. rewrite Jv in E. injection E as <- <- <- <- <-.
    constructor.
    + destruct Hw as (k0 & H0 & W0). exists k0. split; auto. now apply on_keep.
    + congruence.
    + rewrite Is. intros k p a u R _. destruct R as (Pt & o1 & om1 & lo1 & hi1 & Jp & Ep & Eu).
      destruct (path_top h' n o c om lo hi k p Jv Pt) as [->|[Eo Pc]].
      * rewrite Jv in Jp. injection Jp as <- <- <- <- <-.
        destruct (Himg k u Eu) as [G1 G2].
        assert (u = lo \/ u = hi) as Du.
        { rewrite Eu. unfold TcInv.sel. destruct om; auto. destruct (leb k k0); auto. }
        split. { intros Hl. apply live_keep in Hl. apply (live_lt leb h f r lg HI) in Hl. destruct Du; lia. }
        split. { destruct Du as [->| ->]; auto. }
        destruct Sc as (-> & -> & Sc3 & Sc4). split.
        -- intros L. destruct (G1 L) as [G G']. split; auto. intros e He. destruct (G' e He) as [A B].
           split; auto. split; [|congruence]. intros o1 a1 om1 lo1 hi1 E. rewrite Jv in E.
           injection E as <- <- <- <- <-. auto.
        -- intros o' a' om' lo' hi' E. rewrite Cj1 in E. destruct (G2 _ _ _ _ _ E) as [G G'].
           assert (forall k, pos (h' c) k = pos (h c) k) as Ec by (intros; apply same_pos; now apply Hsame).
           rewrite Ec. rewrite (k2_nxt leb h h' f Hsame c k Hcf). split; auto.
           rewrite Sc3. intros s Hs. destruct (G' s Hs) as (A & B & C). split; auto. split; [|split; [congruence|]].
           ++ intros o1 a1 om1 lo1 hi1 E1. rewrite Jv in E1. injection E1 as <- <- <- <- <-. auto.
           ++ intros o1 a1 m1 lo1 hi1 E1. rewrite Jv in E1. injection E1 as <- <- E1 <- <-. congruence.
      * assert (exists o2 c2 om2 lo2 hi2, jv (jb (h c)) = Some (o2, c2, om2, lo2, hi2)) as (o2 & c2 & om2 & lo2 & hi2 & J2).
        { destruct (jv (jb (h c))) as [[[[[? ?] ?] ?] ?]|] eqn:E; eauto 10. exfalso.
          assert (jv (jb (h' c)) = None) as E' by congruence.
          pose proof (path_none _ _ _ _ E' Pc). subst p. congruence. }
        assert (isIns (jb (h c)) = false) as Ic.
        { destruct Hc as [(L & _)|(L & ? & ? & ? & ? & ? & ? & ? & -> & _)]; auto.
          destruct (jv_lvl leb h f r lg HI c _ Hcf J2 L). }
        assert (Job h' r c o2 c2 om2 lo2 hi2) as [_ _ Jg].
        { apply (job_keep leb h h' r r c); auto.
          - now apply (h_job _ _ _ _ _ HI).
          - intros q Hq. assert (q < f /\ lvl (h q) < lvl (h n)) as [Hqf Lq].
            { destruct Hq as [->|Hq]; [split; auto; lia|].
              destruct (chain_full leb h f r lg HI c q Hcf Hq) as (A & _ & B). split; auto. lia. }
            split; [now apply Hsame|]. destruct (Nat.eq_dec q c) as [->|Nc]; auto.
            assert (q <> n) by (intros ->; lia). rewrite Hj; auto.
          - intros k1 p1 a1 u1 R _. destruct (rep_own leb h f r lg HI c k1 p1 a1 u1 Hcf R) as (_ & _ & Hu & _).
            pose proof (h_job _ _ _ _ _ HI _ _ _ _ _ _ Hcf J2 Oc) as [_ _ Jg0].
            assert (wgt leb (isIns (jb (h c))) om2 k1) as W by (rewrite Ic; intros ?; congruence).
            destruct (Jg0 _ _ _ _ R W) as (A & B & _).
            destruct (Hsame u1 Hu) as (S1 & _ & _ & -> & _). split; auto. split; auto.
            intros X. apply live_keep in X. auto.
          - intros k1 Hk1. now apply on_keep.
          - congruence. }
        assert (wgt leb (isIns (jb (h' c))) om2 k) as W by (rewrite Cj2, Ic; intros ?; congruence).
        destruct (Jg k p a u) as (A & B & G1 & G2); auto.
        { split; auto. exists o1, om1, lo1, hi1. auto. }
        split; auto. split; auto. split.
        -- intros L. destruct (G1 L) as [G G']. split; auto. intros e He. destruct (G' e He) as (X & Y & _).
           split; auto. split; auto. congruence.
        -- intros o' a' om' lo' hi' E. destruct (G2 _ _ _ _ _ E) as [G G']. split; auto.
           intros s Hs. destruct (G' s Hs) as (X & Y & _ & Z). split; auto. split; auto. split; auto. congruence.
  - intros o1 c1 m1 lo1 hi1 _ E _ _ _. rewrite Jv in E. injection E as <- <- -> <- <-. now apply Up, Hm.
  - intros o1 c1 m1 lo1 hi1 _ E _ _. rewrite Jv in E. injection E as <- <- -> <- <-.
    destruct Hw as (k0 & H0 & W0). destruct (Up _ H0) as (A0 & B0 & _).
    destruct (Up _ (Hm m1 eq_refl)) as (A1 & B1 & _).
    destruct o as [j|]; [|exists k0; auto].
    destruct (h_wu _ _ _ _ _ HI n Lv) as (k & C1 & C2 & _). exists k. split; auto. split; auto.
    destruct (leb k m1) eqn:E; auto. rewrite pos_rts in *.
    pose proof (route_ub_mono leb HO _ _ _ C2 E). congruence.
  - intros k z Hk Hz O. destruct (h_over _ _ _ _ _ HI _ _ _ Hk Hz O) as (? & ? & ? & ? & J1 & _).
    rewrite Jn in J1. discriminate.
Qed.
End step.
End split.
