(** In runs in which no rolled-back split removes its mark: marks are set while a split is listed,
    retired leaves are deleted before they are dropped, and low halves end with the separating key. *)
From Coq Require Import List Arith Bool Lia.
From Verif Require Import TcModel TcRoute TcSpec TcInv TcTree TcFrame TcKeep TcJobs TcSplit TcFrz TcMove TcGrow TcFz TcFzs TcExt TcOps TcSys TcRun TiModel TiInv TiConv TiList TiMove TiBlk TiPush TiStep TiSysA TiSysB TiSysC TiSysD TiSysE TiSysF TiSys TiTs TiJob TiWay.
Import ListNotations.

Section mark.
Context {K V : Type} (leb : K -> K -> bool) (HO : tord leb).
Notation st := (st K V).
Notation Inv := (Inv leb).
Notation SI := (SI leb).
Implicit Types (s : ls K V) (n y z w x p q : nat).

Record MI s : Prop := {
  m_mk : forall n L lo hi, lvl (hp (tc s) n) = 1 -> jt (jb (hp (tc s) n)) = Some (L, lo, hi) -> sg s n <> G0 -> mk s L = true;
  m_gret : forall p o, sg s p = GRet o -> exists y, ptr (hp (tc s) p) o = Some y /\ dl s y = true;
  m_cut : forall n m lo, lvl (hp (tc s) n) = 1 -> cj (jb (hp (tc s) n)) = Some (m, lo) -> low_ok leb (hp (tc s) lo) m }.

Lemma tsg a s s' : tstep leb a s = Some s' -> step leb a (tc s) = Some (tc s') /\ link s' = link s /\ dl s' = dl s /\ mk s' = mk s /\ its s' = its s
  /\ (forall n, sg s' n = sg s n \/ sg s' n = G0 \/ exists c, sg s' n = GUm c)
  /\ (forall n, lvl (hp (tc s) n) = 1 -> (exists j, a = SRem n j) \/ a = SRet n -> sg s' n = G0)
  /\ (forall n, lvl (hp (tc s) n) = 1 -> a = SRoll n -> sg s n = GRb2).
Proof.
  intros H. unfold tstep in H. destruct (step leb a (tc s)) as [t|] eqn:E; [|discriminate].
  assert (forall n g t0 s', need s n g g t0 = Some s' -> tc s' = t0 /\ link s' = link s /\ dl s' = dl s /\ mk s' = mk s /\ its s' = its s /\ forall m, sg s' m = sg s m \/ sg s' m = G0 \/ exists c, sg s' m = GUm c) as N1.
  { intros n g t0 s0 Q. apply need_same in Q as (g1 & -> & A & _). cbn. repeat split; auto. }
  assert (forall n g g' t0 s', need s n g g' t0 = Some s' -> g' = G0 \/ (exists c, g' = GUm c) ->
    tc s' = t0 /\ link s' = link s /\ dl s' = dl s /\ mk s' = mk s /\ its s' = its s /\ (forall m, sg s' m = sg s m \/ sg s' m = G0 \/ exists c, sg s' m = GUm c)
    /\ (lvl (hp (tc s) n) = 1 -> sg s n = g /\ sg s' n = g')) as N2.
  { intros n g g' t0 s0 Q D. apply need_inv in Q as (g1 & -> & A & B & C). cbn. repeat split; auto; try (now apply B).
    intros m. destruct (Nat.eq_dec m n) as [->|Nm]; [|left; now apply A].
    destruct (Nat.eq_dec (lvl (hp (tc s) n)) 1) as [L|L]; [|left; now apply C]. right. destruct (B L) as [_ ->]. destruct D as [->|[c ->]]; eauto. }
  Local Ltac dn := repeat split; auto; try (intros ? ? [[? ?]|?]; discriminate); try (intros; discriminate).
  destruct a; try (injection H as <-; cbn; dn; fail); try (destruct (N1 _ _ _ _ H) as (-> & ? & ? & ? & ? & ?); dn; fail).
  - destruct (N2 _ _ _ _ _ H) as (-> & ? & ? & ? & ? & ? & ?); auto. dn.
  - destruct (ptr (nd s n) o); [|discriminate]. destruct (settled s n0); [|discriminate]. destruct (N1 _ _ _ _ H) as (-> & ? & ? & ? & ? & ?); dn.
  - destruct (jb (nd s n)) as [| | | | | | | |? ? ? ? [|]|]; try (injection H as <-; cbn; dn; fail). destruct (N1 _ _ _ _ H) as (-> & ? & ? & ? & ? & ?); dn.
  - destruct (jb (nd s n)); try discriminate. destruct (N2 _ _ _ _ _ H) as (-> & ? & ? & ? & ? & ? & Q); eauto.
    repeat split; auto; try (intros n0 L0 [[j0 E0]|E0]; discriminate). intros n0 L0 [= <-]. now apply Q.
  - destruct (N2 _ _ _ _ _ H) as (-> & ? & ? & ? & ? & ? & Q); auto. repeat split; auto; try (intros n0 L0 E0; discriminate).
    intros n0 L0 [[j0 [= <- <-]]|E0]; [|discriminate]. now apply Q.
  - destruct (N2 _ _ _ _ _ H) as (-> & ? & ? & ? & ? & ? & Q); auto. repeat split; auto; try (intros n0 L0 E0; discriminate).
    intros n0 L0 [[j0 E0]|[= <-]]; [discriminate|]. now apply Q.
  - destruct (root (tc s)); [|discriminate]. destruct (settled s n); [|discriminate]. injection H as <-; cbn; dn.
  - destruct (root (tc s)); [|discriminate]. destruct (N1 _ _ _ _ H) as (-> & ? & ? & ? & ? & ?); dn.
Qed.

Lemma jt_gs (j : job K) t g : jt j = Some t -> stgok 1 j g -> (forall c, g <> GUm c) /\ forall o, g <> GRet o.
Proof.
  intros J S. split; intros c ->; destruct j as [| | | | | |? ? ? ? ? [|]|? ? ? ? ? [|] ?|? ? ? ? [|]|]; cbn in *; try discriminate;
    repeat (destruct S as [S|S]; try discriminate); discriminate.
Qed.
Lemma ts_t a s s' : SI s -> step leb a (tc s) = Some (tc s') -> TS leb (tc s) (tc s').
Proof. intros [I J0] E. apply (ts_step leb HO a); auto. apply (q_nd _ _ _ _ _ _ _ _ (s_l _ _ _ _ _ _ _ J0)). Qed.
Lemma low_hold s n m lo : SI s -> lvl (hp (tc s) n) = 1 -> cj (jb (hp (tc s) n)) = Some (m, lo) ->
  lo < fresh (tc s) /\ lvl (hp (tc s) lo) = 0 /\ fz (hp (tc s) lo) = Hold n.
Proof.
  intros [I J0] L C. assert (n < fresh (tc s)) as Hn by (apply (lvl1_lt _ _ (i_f leb _ I)); lia).
  pose proof (h_fz _ _ _ _ _ (i_h leb _ I) n Hn L) as F.
  assert (forall o c om hi, jv (jb (hp (tc s) n)) = Some (o, c, om, lo, hi) -> lo < fresh (tc s) /\ lvl (hp (tc s) lo) = 0) as Q.
  { intros o c om hi Jv. destruct (blk leb _ _ _ _ _ _ J0 _ _ _ _ (tp_of _ _ _ _ _ _ _ _ L Jv)) as [_ B].
    split; [apply (b_lt _ _ _ _ _ _ _ _ _ _ _ B)|apply (b_lv _ _ _ _ _ _ _ _ _ _ _ B)]. }
  destruct (jb (hp (tc s) n)) as [| | | | |o c mm low high|o c mm low high [|]|o c mm low high tk lns| |]; cbn in C; try discriminate; injection C as <- <-;
    (destruct (Q _ _ _ _ eq_refl) as [Q1 Q2]; split; auto; split; auto; apply F; auto).
Qed.

Lemma mi_t a s s' : SI s -> MI s -> tstep leb a s = Some s' -> MI s'.
Proof.
  intros SIs M H. pose proof (si_t leb HO a s s' SIs H) as SIs'. destruct (tsg a s s' H) as (E & El & Ed & Em & _ & G & GR & _).
  pose proof (proj1 SIs) as I. pose proof (proj1 SIs') as I'. pose proof (proj2 SIs) as J0. pose proof (proj2 SIs') as J0'.
  constructor.
  - intros n L lo hi L1 Jt Ng. rewrite Em. pose proof (s_g _ _ _ _ _ _ _ J0' n) as S'. rewrite L1 in S'.
    destruct (jt_gs _ _ _ Jt S') as [Nu Nr].
    assert (sg s' n = sg s n) as Es. { destruct (G n) as [?|[?|[c ?]]]; auto; [tauto|]. now destruct (Nu c). }
    destruct (jt_step leb a _ _ I E n _ L1 Jt) as [[L0 Jt0]|Lk].
    + apply (m_mk s M n L lo hi); auto. congruence.
    + exfalso. pose proof (s_g _ _ _ _ _ _ _ J0 n) as S0. rewrite Lk in S0.
      destruct (Nat.eq_dec (lvl (hp (tc s) n)) 1) as [L0|L0].
      * rewrite L0 in S0. cbn in S0. rewrite <- Es in S0. destruct S0 as [?|[[c ?]|[o ?]]]; [tauto|now destruct (Nu c)|now destruct (Nr o)].
      * apply Ng. rewrite Es. now apply (g0_not1 leb _ _ _ _ _ _ J0).
  - intros p o Gp. rewrite Ed.
    assert (sg s p = GRet o) as Gp0. { destruct (G p) as [?|[?|[c ?]]]; congruence. }
    destruct (m_gret s M p o Gp0) as (y & Py & Dy). exists y. split; auto.
    destruct (gret_1 leb _ _ _ _ _ _ J0 p o Gp0) as [L1 Lk].
    destruct (proj2 (jf_step leb HO a _ _ I E) p) as [?|[Pk|D]]; [tauto| |].
    + apply Pk; auto. apply (lvl1_lt _ _ (i_f leb _ I)). lia.
    + exfalso. rewrite (GR p L1) in Gp; [discriminate|]. exact D.
  - intros n m lo L1 C. destruct (cj_step leb HO a _ _ I E n m lo L1 C) as [[C0 L0]|?]; auto.
    pose proof (m_cut s M n m lo L0 C0) as Q. destruct (low_hold s n m lo SIs L0 C0) as (A1 & A2 & A3).
    unfold low_ok in *. rewrite (ts_z _ _ _ (ts_t a s s' SIs E) lo A1 A2); auto. left. congruence.
Qed.
Lemma mi_l a s s' : SI s -> MI s -> lstep a s = Some s' -> (forall n, a <> LUnm n) ->
  MI s' /\ tc s' = tc s /\ its s' = its s /\ (forall y, dl s y = true -> dl s' y = true) /\ forall y, mk s y = true -> mk s' y = true.
Proof.
  intros SIs M H Nu. pose proof (si_l leb HO a s s' SIs H) as SIs'.
  assert (forall n g, (forall o, g <> GRet o) -> (forall y, dl s y = true -> dl s' y = true) -> (forall y, mk s y = true -> mk s' y = true) ->
    tc s' = tc s -> sg s' = upd (sg s) n g -> (forall L lo hi, lvl (hp (tc s) n) = 1 -> jt (jb (hp (tc s) n)) = Some (L, lo, hi) -> mk s' L = true) -> MI s') as Q.
  { intros n g Ng Hd Hm Ht Hg Hn. constructor; rewrite Ht, ?Hg.
    - intros q L lo hi Lq Jq Gq. destruct (Nat.eq_dec q n) as [->|Nq]; [eapply Hn; eauto|]. rewrite upd_ne in Gq by auto. apply Hm. eapply (m_mk s M q); eauto.
    - intros p o Gp. destruct (Nat.eq_dec p n) as [->|Nq]; [rewrite upd_eq in Gp; now destruct (Ng o)|]. rewrite upd_ne in Gp by auto.
      destruct (m_gret s M p o Gp) as (y & P & D). exists y. auto.
    - apply (m_cut s M). }
  assert (forall (f : nat -> bool) n b, (b = true) -> forall y, f y = true -> upd f n b y = true) as Up.
  { intros f n b -> y Hy. unfold upd. destruct (y =? n); auto. }
  destruct a; cbn [lstep] in H; unfold is1, nd in H.
  - destruct (Nat.eqb_spec (lvl (hp (tc s) n)) 1) as [L|]; [|discriminate].
    destruct (jb (hp (tc s) n)) as [| | | | |o c m low high| | | |] eqn:J; try discriminate.
    destruct (sg s n) eqn:G; try discriminate. injection H as <-. cbn. split; [|repeat split; auto].
    apply (Q n GHi); cbn; auto; try discriminate. rewrite J. cbn. intros ? ? ? _ [= <- <- <-]. apply upd_eq.
  - destruct (Nat.eqb_spec (lvl (hp (tc s) n)) 1) as [L|]; [|discriminate].
    destruct (jb (hp (tc s) n)) as [| | | |o c low|o c m low high| | | |] eqn:J; try discriminate;
    destruct (sg s n) eqn:G; try discriminate; injection H as <-; cbn; (split; [|repeat split; auto]);
    (apply (Q n GLo); cbn; auto; try discriminate; rewrite J; cbn; intros ? ? ? _ [= <- <- <-]; apply upd_eq).
  - destruct (Nat.eqb_spec (lvl (hp (tc s) n)) 1) as [L|]; [|discriminate].
    destruct (jb (hp (tc s) n)) as [| | | |o c low| |o c m low high [|]| |c low high lns [|i]|] eqn:J; try discriminate;
    destruct (sg s n) eqn:G; try discriminate; injection H as <-; cbn; (split; [|repeat split; auto]);
    (apply (Q n GDel); cbn; auto; try discriminate; intros; eapply (m_mk s M n); eauto; congruence).
  - destruct (Nat.eqb_spec (lvl (hp (tc s) n)) 1) as [L|]; [|discriminate].
    destruct (jb (hp (tc s) n)) as [| | | | | | |o c m low high [tk|] lns| |] eqn:J; try discriminate.
    destruct (sg s n) eqn:G; try discriminate. injection H as <-; cbn; (split; [|repeat split; auto]).
    apply (Q n GRb1); cbn; auto; try discriminate; intros; eapply (m_mk s M n); eauto; congruence.
  - destruct (Nat.eqb_spec (lvl (hp (tc s) n)) 1) as [L|]; [|discriminate].
    destruct (jb (hp (tc s) n)) as [| | | | | | |o c m low high [tk|] lns| |] eqn:J; try discriminate.
    destruct (sg s n) eqn:G; try discriminate. injection H as <-; cbn; (split; [|repeat split; auto]).
    apply (Q n GRb2); cbn; auto; try discriminate; intros; eapply (m_mk s M n); eauto; congruence.
  - now destruct (Nu n).
  - destruct (Nat.eqb_spec (lvl (hp (tc s) n)) 1) as [L|]; [|discriminate].
    destruct (jb (hp (tc s) n)) eqn:J; try discriminate. destruct (sg s n) eqn:G; try discriminate.
    destruct (ptr (hp (tc s) n) o) as [c|] eqn:P; [|discriminate]. destruct (_ && _); [|discriminate]. injection H as <-.
    cbn. split; [|repeat split; auto]. constructor; cbn.
    + intros q L0 lo hi Lq Jq Gq. destruct (Nat.eq_dec q n) as [->|Nq]; [rewrite J in Jq; discriminate|]. rewrite upd_ne in Gq by auto. eapply (m_mk s M q); eauto.
    + intros p o0 Gp. destruct (Nat.eq_dec p n) as [->|Nq].
      * rewrite upd_eq in Gp. injection Gp as <-. exists c. split; auto. apply upd_eq.
      * rewrite upd_ne in Gp by auto. destruct (m_gret s M p o0 Gp) as (y & P' & D). exists y. auto.
    + apply (m_cut s M).
Qed.
Lemma mi_init : MI linit.
Proof. constructor; cbn; intros; discriminate. Qed.
End mark.
