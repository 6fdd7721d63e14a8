(** The replacement of a child by its halves keeps the invariant of the list. *)
From Coq Require Import List Arith Bool Lia.
From Verif Require Import TcModel TcRoute TcSpec TcInv TcTree TcFrame TcKeep TcJobs TcSplit TcFrz TcMove TcGrow TcFz TcFzs TcExt TcSys TiModel TiInv TiConv TiList TiMove TiBlk TiPush TiStep TiSysA TiSysB TiSysC.
Import ListNotations.

Section sysd.
Context {K V : Type} (leb : K -> K -> bool) (HO : tord leb).
Notation heap := (nat -> obj K V).
Notation On := (On leb).
Notation Live := (Live leb).
Notation klt := (klt leb).
Notation HInv := (HInv leb).
Notation SJ := (SJ leb).
Context (h : heap) (f : nat) (r : option nat) (nx : nat -> option nat) (dl : nat -> bool) (sg : nat -> stg) (S : SJ h f r nx dl sg)
  (lg : list (ev K V)) (HI : HInv h f r lg) (FI : FInv h f).
Notation tp := (tpf h sg).
Notation LI := (s_l _ _ _ _ _ _ _ S).

Lemma mv_ins n o c m low high : jb (h n) = Split o c m low high ->
  let h1 := fun y => if inch h (lvl (h c)) c y then set_over (Some m) (h y) else h y in
  let h2 := upd h1 n (set_cells (h1 n) (ins_cell leb (m, (nsl (h1 n), low)) (cells (h1 n))) (Datatypes.S (nsl (h1 n)))) in
  let h' := upd h2 n (set_jb (Ins o c m low high (negb (lvl (h n) =? 1))) (h2 n)) in
  HInv h' f r lg /\ MvR leb f h r h' n /\ h' n = set_jb (Ins o c m low high (negb (lvl (h n) =? 1))) (put_low leb (h n) m low)
  /\ forall y, y <> n -> h' y = h y \/ h' y = set_over (Some m) (h y).
Proof.
  intros J h1 h2 h'. destruct (locked_lt leb h f r lg HI FI n) as [Hn Ln]; [congruence|].
  assert (jv (jb (h n)) = Some (o, c, Some m, low, high)) as Jv by now rewrite J.
  pose proof (h_hld _ _ _ _ _ HI _ _ _ _ _ _ Hn Jv) as L.
  destruct (jv_c_lt leb h f r lg HI _ _ _ _ _ _ Hn Jv) as [Hc Lc].
  assert (forall y, inch h (lvl (h c)) c y = true <-> Chain h n y) as Ic.
  { intros y. rewrite (chain_sub h n y _ _ _ _ _ Jv). apply (inch_chain leb h f r lg HI); auto. intros Nl.
    pose proof (l_held _ _ _ _ _ _ _ _ _ L) as Hh. unfold held in Hh. destruct (lvl (h c)) eqn:E1; [lia|].
    destruct Hh as (? & ? & ? & ? & ? & ? & ->). exact I. }
  assert (~ Chain h n n) as Nc. { intros C. destruct (chain_full leb h f r lg HI n n Hn C) as (_ & _ & ?). lia. }
  assert (h1 n = h n) as E1. { unfold h1. destruct (inch _ _ _ n) eqn:E; auto. apply Ic in E. tauto. }
  assert (h' n = set_jb (Ins o c m low high (negb (lvl (h n) =? 1))) (put_low leb (h n) m low)) as A1.
  { unfold h', h2. rewrite !upd_eq, E1. reflexivity. }
  assert (forall y, y <> n -> h' y = h1 y) as A2.
  { intros y Ny. unfold h', h2. now rewrite !upd_ne. }
  assert (forall y, y <> n -> Chain h n y -> h' y = set_over (Some m) (h y)) as A3.
  { intros y Ny C. rewrite A2 by auto. unfold h1. apply Ic in C. now rewrite C. }
  assert (forall y, y <> n -> ~ Chain h n y -> h' y = h y) as A4.
  { intros y Ny C. rewrite A2 by auto. unfold h1. destruct (inch _ _ _ y) eqn:E; auto. apply Ic in E. tauto. }
  assert (forall y, Chain h n y \/ ~ Chain h n y) as Dec.
  { intros y. destruct (inch h (lvl (h c)) c y) eqn:E; [left; now apply Ic|].
    right. intros C. apply Ic in C. congruence. }
  destruct (step_ins leb HO h f r lg HI h' n o c m low high _ Hn J A1 A3 A4 Dec) as [H1 [_ H3]].
  split; auto. split; auto. split; auto. intros y Ny. destruct (Dec y); auto.
Qed.

Section mv.
Context (h' : heap) (n : nat) (Mv : MvR leb f h r h' n) (HP : lvl (h n) = 1 -> pub sg n)
  (HS : isIns (jb (h n)) = true -> isIns (jb (h' n)) = false) (Hl : forall y, lvl (h' y) = lvl (h y)).
Lemma mv_pub n' : lvl (h n') = 1 -> tkn h n n' -> pub sg n'.
Proof.
  intros L1 [->|(b1 & b2 & b3 & b4 & b5 & b6 & b7 & J)]; auto. pose proof (s_g _ _ _ _ _ _ _ S n') as G. rewrite L1, J in G. cbn in G. now left.
Qed.
Lemma mv_fwd k y : On h r k y -> lvl (h y) = 0 -> On h' r k y \/ ret (h y) = true
  \/ exists n lo hi om, tp n = Some (y, lo, hi) /\ pub sg n /\ On h' r k (sel leb om lo hi k).
Proof.
  intros O Ly. destruct (proj1 Mv k y O) as [?|(n' & o & om & lo & hi & Hn & Tk & J & O')]; auto. right. right.
  destruct (jv_c_lt leb h f r lg HI _ _ _ _ _ _ Hn J) as [_ Ln]. exists n', lo, hi, om.
  split; [eapply tp_of; eauto; lia|]. split; auto. apply mv_pub; auto. lia.
Qed.
Lemma mv_img k y : On h' r k y -> lvl (h' y) = 0 -> On h r k y
  \/ exists n' o a om lo hi, n' < f /\ lvl (h n') = 1 /\ tkn h n n' /\ jv (jb (h n')) = Some (o, a, om, lo, hi) /\ On h r k a /\ y = sel leb om lo hi k /\ own (h y) = n'.
Proof.
  intros O Ly. destruct (proj2 Mv k y O) as [?|(n' & o & a & om & lo & hi & Hn & Tk & J & O' & E & _)]; auto. right.
  destruct (jv_c_lt leb h f r lg HI _ _ _ _ _ _ Hn J) as [_ Ln].
  pose proof (h_hld _ _ _ _ _ HI _ _ _ _ _ _ Hn J) as H. exists n', o, a, om, lo, hi. split; auto. rewrite Hl in Ly.
  assert (lvl (h y) = lvl (h a) /\ own (h y) = n') as [E1 E2].
  { rewrite E. destruct (sel_in leb om lo hi k) as [->| ->]; split; apply H. }
  repeat split; auto. lia.
Qed.
Lemma mv_rev k y : On h' r k y -> lvl (h' y) = 0 -> (exists k', On h r k' y /\ On h' r k' y)
  \/ exists n L lo hi om, tp n = Some (L, lo, hi) /\ pub sg n /\ (isIns (jb (h n)) = true -> isIns (jb (h' n)) = false)
       /\ On h r k L /\ y = sel leb om lo hi k.
Proof.
  intros O Ly. destruct (mv_img k y O Ly) as [?|(n' & o & a & om & lo & hi & Hn & L1 & Tk & J & O' & E & _)]; [left; eauto|]. right.
  exists n', a, lo, hi, om. split; [eapply tp_of; eauto|]. split; [now apply mv_pub|]. split; auto.
  destruct Tk as [->|(b1 & b2 & b3 & b4 & b5 & b6 & b7 & J')]; auto. rewrite J'. discriminate.
Qed.
End mv.

Lemma sj_ins n o c m low high sg' : jb (h n) = Split o c m low high -> (lvl (h n) = 1 -> sg n = GLo) -> (forall y, sg' y = sg y) ->
  let h1 := fun y => if inch h (lvl (h c)) c y then set_over (Some m) (h y) else h y in
  let h2 := upd h1 n (set_cells (h1 n) (ins_cell leb (m, (nsl (h1 n), low)) (cells (h1 n))) (Datatypes.S (nsl (h1 n)))) in
  let h' := upd h2 n (set_jb (Ins o c m low high (negb (lvl (h n) =? 1))) (h2 n)) in
  SJ h' f r nx dl sg'.
Proof.
  intros J G Es h1 h2 h'.
  assert (HInv h' f r lg /\ MvR leb f h r h' n /\ h' n = set_jb (Ins o c m low high (negb (lvl (h n) =? 1))) (put_low leb (h n) m low)
  /\ forall y, y <> n -> h' y = h y \/ h' y = set_over (Some m) (h y)) as (HI' & Mv & En & Eo) by exact (mv_ins n o c m low high J).
  clearbody h'. clear h1 h2.
  destruct (locked_lt leb h f r lg HI FI n) as [Hn Ln]; [congruence|].
  assert (jv (jb (h n)) = Some (o, c, Some m, low, high)) as Jv by now rewrite J.
  pose proof (h_hld _ _ _ _ _ HI _ _ _ _ _ _ Hn Jv) as Hl.
  destruct (jv_c_lt leb h f r lg HI _ _ _ _ _ _ Hn Jv) as [Hc Lc].
  assert (forall y, lvl (h' y) = lvl (h y) /\ ents (h' y) = ents (h y) /\ ret (h' y) = ret (h y) /\ fz (h' y) = fz (h y) /\ ub (h' y) = ub (h y)) as Q.
  { intros y. destruct (Nat.eq_dec y n) as [->|Ny]; [rewrite En; auto|]. destruct (Eo y Ny) as [->| ->]; repeat split; auto. }
  assert (forall y, y <> n -> jb (h' y) = jb (h y) /\ kids (h' y) = kids (h y) /\ forall o, ptr (h' y) o = ptr (h y) o) as Qn.
  { intros y Ny. destruct (Eo y Ny) as [->| ->]; repeat split; auto. }
  assert (forall y, lvl (h' y) = lvl (h y)) as Lv by (intros y; apply Q).
  assert (isIns (jb (h n)) = true -> isIns (jb (h' n)) = false) as HS by (rewrite J; discriminate).
  assert (lvl (h n) = 1 -> pub sg n) as HP by (intros E; left; auto).
  assert (forall y, y < f -> lvl (h' y) = lvl (h y) /\ (lvl (h y) = 0 -> ents (h' y) = ents (h y) /\ ret (h' y) = ret (h y))) as Q1.
  { intros y _. destruct (Q y) as (A & B & C & _). auto. }
  pose proof (mv_fwd h' n Mv HP) as Fwd. pose proof (mv_rev h' n Mv HP HS Lv) as Rev.
  assert (forall x, x < f -> lvl (h' x) = 1 -> ub (h' x) = UNull -> r = Some x) as T8.
  { intros x Hx Lx U. destruct (Q x) as (A & _ & _ & _ & B). apply (s_un _ _ _ _ _ _ _ S); congruence. }
  destruct (Nat.eq_dec (lvl (h n)) 1) as [L1|L1].
  - assert (over (h n) = false) as On0 by (eapply (job_over leb h f r lg HI n); eauto; unfold nofull; now rewrite J).
    pose proof (tp_of h sg n _ _ _ _ _ L1 Jv) as T.
    rewrite L1 in En. cbn in En.
    assert (tpf h' sg' n = tp n) as Tn. { unfold tpf. rewrite En, J. cbn. reflexivity. }
    assert (forall y, tpf h' sg' y = tp y) as To. { intros y. destruct (Nat.eq_dec y n) as [->|Ny]; auto. apply tp_ext; auto. now apply Qn. }
    destruct (half_dead leb HO h f r lg HI FI n o c m low high Ln Jv) as [D1 D2]; [now rewrite J|auto|].
    assert (low <> high) as Nlh by (apply Hl; congruence).
    assert (LInv leb h' f r nx dl sg tp) as LM.
    { apply (li_move leb HO h f r nx dl sg S lg HI h' f r); auto; try lia; intros; try left; apply Q. }
    apply (sj_rest leb HO h f r nx dl sg S lg h' f r sg'); auto; try lia.
    + intros y Hy. destruct (Q y) as (A & B & _). auto.
    + intros n0 L lo hi T0. left. now rewrite To.
    + intros n0 L lo hi T0. rewrite To in T0. auto.
    + intros n0 L lo hi T0. destruct (Nat.eq_dec n0 n) as [->|Ny]; [rewrite En; cbn; tauto|]. now rewrite (proj1 (Qn n0 Ny)).
    + intros y. rewrite Es, Lv. destruct (Nat.eq_dec y n) as [->|Ny]; [rewrite L1, En; cbn; auto|]. rewrite (proj1 (Qn y Ny)). apply S.
    + intros n0 o0 c0 m0 lo hi b L0 J0. destruct (Nat.eq_dec n0 n) as [->|Ny].
      * rewrite En in J0. cbn in J0. injection J0 as <- <- <- <- <- <-. split.
        { rewrite En. change (In low (kids (put_low leb (h n) m low))). apply put_low_in_kids. auto. }
        right. intros k1 k2 O1 O2.
        assert (leb k1 m = true) as E1.
        { destruct (mv_img h' n Mv HP Lv k1 low O1) as [A|(n' & o' & a & om & lo' & hi' & Hn' & L1' & Tk & J' & O' & E & W)].
          - rewrite Lv, (l_lvlo _ _ _ _ _ _ _ _ _ Hl). lia.
          - destruct D1. now exists k1.
          - rewrite (l_ownlo _ _ _ _ _ _ _ _ _ Hl) in W. subst n'. rewrite Jv in J'. injection J' as <- <- <- <- <-.
            unfold sel in E. destruct (leb k1 m); congruence. }
        assert (jv (jb (h' n)) = Some (o, c, Some m, low, high)) as Jv' by now rewrite En.
        assert (over (h' n) = false) as On0' by now rewrite En.
        pose proof (h_job _ _ _ _ _ HI' _ _ _ _ _ _ Hn Jv' On0') as Jb.
        destruct (j_ins _ _ _ _ _ _ _ _ _ Jb) as (W & _); [now rewrite En|].
        destruct (up leb HO h' f r lg HI' k2 n _ _ _ _ _ Hn Jv' (or_introl On0') O2) as (_ & Pk & _).
        specialize (W k2 Pk). cbn in W. unfold TiInv.klt. destruct (leb k2 k1) eqn:Q'; auto. rewrite (t_trans _ HO _ _ _ Q' E1) in W. discriminate.
      * destruct (Qn n0 Ny) as (E1 & E2 & _). rewrite E1 in J0. rewrite Lv in L0. rewrite E2. split; [|left; eauto].
        exact (proj1 (s_in _ _ _ _ _ _ _ S _ _ _ _ _ _ _ L0 J0)).
    + intros p o0 y Hp Gp P. assert (p <> n) as Np by (intros ->; rewrite G in Gp; [discriminate|auto]). left. rewrite Es. split; auto. now rewrite (proj2 (proj2 (Qn p Np))).
    + intros n0 c0 lo hi lns i L0 J0. destruct (Nat.eq_dec n0 n) as [->|Ny]; [rewrite En in J0; discriminate|].
      rewrite (proj1 (Qn n0 Ny)) in J0. rewrite Lv in L0. left. eauto.
    + apply (l_ext leb h' f r nx dl sg tp LM); auto.
  - apply (sj_move leb HO h f r nx dl sg S lg HI FI h' f r sg'); auto; try lia.
    + intros y _. apply Q.
    + intros y _. apply Q.
    + intros y _. left. apply Q.
    + intros y. destruct (Nat.eq_dec y n) as [->|Ny]; [apply (js_not1 leb h f r nx dl sg S); auto|].
      apply (j_same leb h f r nx dl sg S); auto. now apply Qn.
    + intros y Ly. assert (y <> n) as Ny by congruence. destruct (Qn y Ny) as (_ & A & B). rewrite A. split; auto.
Qed.

(** The swap of the last field of a split. *)
Section swap.
Context (h' : heap) (n : nat) (o : lpos) (c low high : nat) (om : option K) (sg' : nat -> stg)
  (L1 : lvl (h n) = 1) (Jv : jv (jb (h n)) = Some (o, c, om, low, high)) (On0 : over (h n) = false)
  (G : sg n = GDel) (Gn : sg' n = G0) (Es : forall y, y <> n -> sg' y = sg y)
  (HI' : HInv h' f r lg) (Mv : MvR leb f h r h' n)
  (En : h' n = set_jb Locked (set_ptr (h n) o high)) (Oc : over (h' c) = true)
  (Eo : forall y, y <> n -> h' y = h y \/ h' y = set_over None (h y))
  (HIn : low = high \/ (exists m b, om = Some m /\ jb (h n) = Ins o c m low high b)).
Lemma sj_sw1 : SJ h' f r nx dl sg'.
Proof.
  destruct (locked_lt leb h f r lg HI FI n) as [Hn Ln]; [intros C; rewrite C in Jv; discriminate|].
  pose proof (h_hld _ _ _ _ _ HI _ _ _ _ _ _ Hn Jv) as Hl.
  destruct (jv_c_lt leb h f r lg HI _ _ _ _ _ _ Hn Jv) as [Hc Lc]. assert (c <> n) as Nc by (intros ->; lia).
  assert (forall y, lvl (h' y) = lvl (h y) /\ ents (h' y) = ents (h y) /\ ret (h' y) = ret (h y) /\ fz (h' y) = fz (h y)) as Q.
  { intros y. destruct (Nat.eq_dec y n) as [->|Ny]; [rewrite En; destruct o; auto|]. destruct (Eo y Ny) as [->| ->]; repeat split; auto. }
  assert (forall y, y <> n -> jb (h' y) = jb (h y) /\ kids (h' y) = kids (h y) /\ (forall o, ptr (h' y) o = ptr (h y) o) /\ ub (h' y) = ub (h y)) as Qn.
  { intros y Ny. destruct (Eo y Ny) as [->| ->]; repeat split; auto. }
  assert (forall y, lvl (h' y) = lvl (h y)) as Lv by (intros y; apply Q).
  assert (isIns (jb (h n)) = true -> isIns (jb (h' n)) = false) as HS by (rewrite En; auto).
  assert (lvl (h n) = 1 -> pub sg n) as HP by (intros E; right; auto).
  assert (forall y, y < f -> lvl (h' y) = lvl (h y) /\ (lvl (h y) = 0 -> ents (h' y) = ents (h y) /\ ret (h' y) = ret (h y))) as Q1.
  { intros y _. destruct (Q y) as (A & B & C & _). auto. }
  pose proof (mv_fwd h' n Mv HP) as Fwd. pose proof (mv_rev h' n Mv HP HS Lv) as Rev.
  pose proof (tp_of h sg n _ _ _ _ _ L1 Jv) as T. destruct (blk leb h f r nx dl sg S _ _ _ _ T) as [_ B].
  assert (LInv leb h' f r nx dl sg tp) as LM.
  { apply (li_move leb HO h f r nx dl sg S lg HI h' f r); auto; try lia; intros; try left; apply Q. }
  assert (~ Live h' r c) as Dc.
  { apply (over_dead leb h' f r lg HI' c n); auto.
    - rewrite Lv. lia.
    - destruct (Q c) as (_ & _ & _ & ->). apply B.
    - now rewrite En. }
  assert (tpf h' sg' n = None) as Tn. { unfold tpf. rewrite Lv, L1, En. reflexivity. }
  assert (forall y, y <> n -> tpf h' sg' y = tp y) as To. { intros y Ny. apply tp_ext; auto. now apply Qn. }
  assert (lvl (h' low) = 0 /\ lvl (h' high) = 0) as [Ll0 Lh0].
  { rewrite !Lv, (l_lvlo _ _ _ _ _ _ _ _ _ Hl), (l_lvhi _ _ _ _ _ _ _ _ _ Hl). lia. }
  assert (LInv leb h' f r nx dl sg (tpf h' sg')) as LE.
  { apply (l_end leb HO h' f r nx dl sg tp LM n c low high T); auto. left. split; auto. split; auto.
    intros k1 k2 O1 O2 Nlh. destruct HIn as [?|(m & b & -> & J)]; [congruence|].
    destruct (s_in _ _ _ _ _ _ _ S _ _ _ _ _ _ _ L1 J) as [_ Sp].
    assert (isIns (jb (h n)) = true) as Is by now rewrite J.
    pose proof (h_job _ _ _ _ _ HI _ _ _ _ _ _ Hn Jv On0) as Jb.
    destruct (j_ins _ _ _ _ _ _ _ _ _ Jb Is) as (W & _).
    assert (forall k, On h r k c -> leb k m = false) as Wc.
    { intros k Ok. destruct (up leb HO h f r lg HI k n _ _ _ _ _ Hn Jv (or_introl On0) Ok) as (_ & Pk & _). exact (W k Pk). }
    apply Sp.
    - destruct (mv_img h' n Mv HP Lv k1 low O1 Ll0) as [A|(n' & o' & a & om' & lo' & hi' & Hn' & L1' & Tk & J' & O' & E & Ow)]; auto.
      exfalso. rewrite (l_ownlo _ _ _ _ _ _ _ _ _ Hl) in Ow. subst n'. rewrite Jv in J'. injection J' as <- <- <- <- <-.
      unfold sel in E. rewrite (Wc k1 O') in E. congruence.
    - destruct (mv_img h' n Mv HP Lv k2 high O2 Lh0) as [A|(n' & o' & a & om' & lo' & hi' & Hn' & L1' & Tk & J' & O' & E & Ow)].
      + exfalso. apply (open_half leb HO h f r lg HI n o c (Some m) low high Hn Jv On0). now exists k2.
      + rewrite (l_ownhi _ _ _ _ _ _ _ _ _ Hl) in Ow. subst n'. rewrite Jv in J'. now injection J' as <- <- <- <- <-. }
  apply (sj_rest leb HO h f r nx dl sg S lg h' f r sg'); auto; try lia.
  - intros y Hy. destruct (Q y) as (A & B' & _). auto.
  - intros n0 L lo hi T0. destruct (Nat.eq_dec n0 n) as [->|Ny].
    + rewrite T in T0. injection T0 as <- <- <-. auto.
    + left. rewrite To by auto. auto.
  - intros n0 L lo hi T0. destruct (Nat.eq_dec n0 n) as [->|Ny]; [congruence|]. rewrite To in T0 by auto. auto.
  - intros n0 L lo hi T0. destruct (Nat.eq_dec n0 n) as [->|Ny]; [congruence|]. now rewrite (proj1 (Qn n0 Ny)).
  - intros y. rewrite Lv. destruct (Nat.eq_dec y n) as [->|Ny]; [rewrite L1, En, Gn; cbn; auto|]. rewrite (proj1 (Qn y Ny)), Es by auto. apply S.
  - intros n0 o0 c0 m0 lo hi b L0 J0. destruct (Nat.eq_dec n0 n) as [->|Ny]; [rewrite En in J0; discriminate|].
    destruct (Qn n0 Ny) as (E1 & E2 & _). rewrite E1 in J0. rewrite Lv in L0. rewrite E2. split; [|left; eauto].
    exact (proj1 (s_in _ _ _ _ _ _ _ S _ _ _ _ _ _ _ L0 J0)).
  - intros p o0 y Hp Gp P. assert (p <> n) as Np by (intros ->; rewrite G in Gp; discriminate). left. rewrite Es by auto. split; auto. now rewrite (proj1 (proj2 (proj2 (Qn p Np)))).
  - intros n0 c0 lo hi lns i L0 J0. destruct (Nat.eq_dec n0 n) as [->|Ny]; [rewrite En in J0; discriminate|].
    rewrite (proj1 (Qn n0 Ny)) in J0. rewrite Lv in L0. left. eauto.
  - intros x Hx Lx U. rewrite Lv in Lx. apply (s_un _ _ _ _ _ _ _ S); auto. destruct (Nat.eq_dec x n) as [->|Ny].
    + rewrite En in U. destruct o; cbn in U; auto. discriminate.
    + destruct (Qn x Ny) as (_ & _ & _ & A). congruence.
  - apply (l_ext leb h' f r nx dl sg (tpf h' sg') LE); auto. intros y. destruct (Nat.eq_dec y n) as [->|Ny]; auto.
Qed.
End swap.

Lemma sj_swap0 n o c low sg' : jb (h n) = Swap0 o c low -> sg n = GDel -> sg' n = G0 -> (forall y, y <> n -> sg' y = sg y) ->
  let h1 := upd h c (set_over None (h c)) in
  SJ (upd h1 n (set_jb Locked (set_ptr (h1 n) o low))) f r nx dl sg'.
Proof.
  intros J G Gn Es h1. destruct (locked_lt leb h f r lg HI FI n) as [Hn Ln]; [congruence|].
  assert (jv (jb (h n)) = Some (o, c, None, low, low)) as Jv by now rewrite J.
  assert (nofull h n) as Nf by (unfold nofull; now rewrite J).
  pose proof (job_over leb h f r lg HI n _ Hn Jv Nf) as On0.
  pose proof (h_hld _ _ _ _ _ HI _ _ _ _ _ _ Hn Jv) as L.
  destruct (jv_c_lt leb h f r lg HI _ _ _ _ _ _ Hn Jv) as [Hc Lc]. assert (c <> n) as Ncn by (intros ->; lia).
  match goal with |- SJ ?x _ _ _ _ _ => set (h' := x) end.
  assert (h1 n = h n) as E1 by (unfold h1; apply upd_ne; auto).
  assert (h' n = set_jb Locked (set_ptr (h n) o low)) as A1 by (unfold h'; now rewrite upd_eq, E1).
  assert (h' c = set_over None (h c)) as A2 by (unfold h', h1; now rewrite upd_ne, upd_eq).
  assert (forall y, y <> n -> y <> c -> h' y = h y) as A3 by (intros; unfold h', h1; now rewrite !upd_ne).
  destruct (step_swap0 leb HO h f r lg HI h' n o c low Hn J A1 A2 A3) as [H1 [_ H3]].
  pose proof (l_none _ _ _ _ _ _ _ _ _ L eq_refl) as Lc0.
  apply (sj_sw1 h' n o c low low None sg'); auto; try lia.
  - now rewrite A2.
  - intros y Ny. destruct (Nat.eq_dec y c) as [->|Nc]; auto.
Qed.
Lemma sj_swap n o c m low high sg' : jb (h n) = Ins o c m low high true -> (lvl (h n) = 1 -> sg n = GDel) -> sg' n = G0 -> (forall y, y <> n -> sg' y = sg y) ->
  let h1 := match jb (h c) with Full _ d _ lo hi _ lns => upd h c (set_jb (Commit d lo hi lns 0) (h c)) | _ => h end in
  SJ (upd h1 n (set_jb Locked (set_ptr (h1 n) o high))) f r nx dl sg'.
Proof.
  intros J G Gn Es h1. destruct (locked_lt leb h f r lg HI FI n) as [Hn Ln]; [congruence|].
  assert (jv (jb (h n)) = Some (o, c, Some m, low, high)) as Jv by now rewrite J.
  assert (nofull h n) as Nf by (unfold nofull; now rewrite J).
  assert (isIns (jb (h n)) = true) as Is by now rewrite J.
  pose proof (job_over leb h f r lg HI n _ Hn Jv Nf) as On0.
  pose proof (h_hld _ _ _ _ _ HI _ _ _ _ _ _ Hn Jv) as L.
  pose proof (h_job _ _ _ _ _ HI _ _ _ _ _ _ Hn Jv On0) as Jb.
  destruct (j_ins _ _ _ _ _ _ _ _ _ Jb Is) as (_ & Oc & _).
  destruct (jv_c_lt leb h f r lg HI _ _ _ _ _ _ Hn Jv) as [Hc Lc]. assert (c <> n) as Ncn by (intros ->; lia).
  match goal with |- SJ ?x _ _ _ _ _ => set (h' := x) end.
  assert (h1 n = h n) as E1 by (unfold h1; destruct (jb (h c)); auto; apply upd_ne; auto).
  assert (h' n = set_jb Locked (set_ptr (h n) o high)) as A1 by (unfold h'; now rewrite upd_eq, E1).
  assert (h' c = match jb (h c) with Full _ d _ lo hi _ lns => set_jb (Commit d lo hi lns 0) (h c) | _ => h c end) as A2.
  { unfold h'. rewrite upd_ne by auto. unfold h1. destruct (jb (h c)); auto. apply upd_eq. }
  assert (forall y, y <> n -> y <> c -> h' y = h y) as A3.
  { intros. unfold h'. rewrite upd_ne by auto. unfold h1. destruct (jb (h c)); auto. apply upd_ne; auto. }
  destruct (step_swap leb HO h f r lg HI h' n o c m low high Hn J A1 A2 A3) as [H1 [_ H3]].
  clearbody h'. clear h1 E1.
  destruct (Nat.eq_dec (lvl (h n)) 1) as [L1|L1].
  - assert (h' c = h c) as A2'.
    { rewrite A2. destruct (w_leaf _ _ _ _ (h_wf _ _ _ _ _ HI c Hc)) as (_ & _ & Jc); [lia|]. now rewrite Jc. }
    apply (sj_sw1 h' n o c low high (Some m) sg'); auto.
    + now rewrite A2'.
    + intros y Ny. left. destruct (Nat.eq_dec y c) as [->|Nc]; auto.
    + right. eauto.
  - pose proof (l_held _ _ _ _ _ _ _ _ _ L) as Hh. unfold held in Hh. destruct (lvl (h c)) as [|lc] eqn:Elc; [lia|].
    destruct Hh as (o' & c' & m' & low' & high' & lns' & Jc). rewrite Jc in A2.
    assert (forall y, lvl (h' y) = lvl (h y) /\ ents (h' y) = ents (h y) /\ ret (h' y) = ret (h y) /\ fz (h' y) = fz (h y)) as Q.
    { intros y. destruct (Nat.eq_dec y n) as [->|Ny]; [rewrite A1; destruct o; auto|]. 
      destruct (Nat.eq_dec y c) as [->|Nc]; [rewrite A2; auto|]. rewrite A3 by auto. auto. }
    assert (forall y, lvl (h' y) = lvl (h y)) as Lv by (intros y; apply Q).
    assert (isIns (jb (h n)) = true -> isIns (jb (h' n)) = false) as HS by (rewrite A1; auto).
    assert (lvl (h n) = 1 -> pub sg n) as HP by (intros E; right; auto).
    assert (sg n = G0) as G0n by (apply (g0_not1 leb h f r nx dl sg S); auto).
    assert (forall y, sg' y = sg y) as Es'. { intros y. destruct (Nat.eq_dec y n) as [->|Ny]; auto. congruence. }
    assert (forall y, y <> n -> kids (h' y) = kids (h y) /\ (forall o, ptr (h' y) o = ptr (h y) o) /\ ub (h' y) = ub (h y)) as Qn.
    { intros y Ny. destruct (Nat.eq_dec y c) as [->|Nc]; [rewrite A2; auto|]. rewrite A3 by auto. auto. }
    apply (sj_move leb HO h f r nx dl sg S lg HI FI h' f r sg'); auto; try lia.
    + intros y _. destruct (Q y) as (A & B & C & _). auto.
    + intros y _. apply Q.
    + intros y _. apply Q.
    + intros y _. left. apply Q.
    + apply (mv_fwd h' n H3 HP).
    + apply (mv_rev h' n H3 HP HS Lv).
    + intros y. destruct (Nat.eq_dec y n) as [->|Ny]; [apply (js_not1 leb h f r nx dl sg S); auto|].
      destruct (Nat.eq_dec y c) as [->|Nc]; [eapply (js_commit leb h f r nx dl sg S); eauto; now rewrite A2|].
      apply (j_same leb h f r nx dl sg S); auto; now rewrite A3.
    + intros y Ly. assert (y <> n) as Ny by congruence. destruct (Qn y Ny) as (A & B & _). rewrite A. split; auto.
    + intros x Hx Lx U. rewrite Lv in Lx. assert (x <> n) as Ny by congruence. destruct (Qn x Ny) as (_ & _ & A). apply (s_un _ _ _ _ _ _ _ S); auto. congruence.
Qed.
End sysd.
