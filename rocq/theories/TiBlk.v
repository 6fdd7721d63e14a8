(** Steps of the list: halves are linked, origins or halves are deleted, a split ends. *)
From Coq Require Import List Arith Bool Lia.
From Verif Require Import TcModel TcRoute TcSpec TcInv TcTree TcFrame TcJobs TiModel TiInv TiConv TiList TiMove.
Import ListNotations.

Section blk.
Context {K V : Type} (leb : K -> K -> bool) (HO : tord leb).
Notation heap := (nat -> obj K V).
Notation On := (On leb).
Notation Live := (Live leb).
Notation klt := (klt leb).
Context (h : heap) (f : nat) (r : option nat) (nx : nat -> option nat) (dl : nat -> bool) (sg : nat -> stg)
  (tp : nat -> option (nat * nat * nat)) (LI : LInv leb h f r nx dl sg tp) (lg : list (ev K V)) (HI : HInv leb h f r lg).
Notation lm n L lo hi y := (lmem (sg n) L lo hi y).
Notation Pt := (Pt tp sg).
Lemma Inj a b c : nx a = Some c -> nx b = Some c -> a = b.
Proof. exact (q_inj _ _ _ _ _ _ _ _ LI a b c). Qed.
Lemma Acy a : ~ Nx nx a a.
Proof. exact (q_acy _ _ _ _ _ _ _ _ LI a). Qed.

Lemma blk_keep nx1 dl1 g n L lo hi : Blk leb h r f nx dl g n L lo hi -> 
  (nx1 L = nx L) -> (nx1 lo = nx lo) -> (unl nx lo -> unl nx1 lo) -> (unl nx hi -> unl nx1 hi) ->
  dl1 L = dl L -> dl1 lo = dl lo -> dl1 hi = dl hi -> Blk leb h r f nx1 dl1 g n L lo hi.
Proof.
  intros [B1 B2 B3 B4 B5 B6 B7 B8 B9 B10 B11 B12] N1 N2 U1 U2 D1 D2 D3. constructor; auto; try (rewrite D1 || rewrite D2 || rewrite D3; auto; fail).
  rewrite N1, N2. destruct g; try exact B6; destruct B6 as [B6 B6']; auto.
Qed.
(** Only the stages of the splits matter. *)
Lemma l_ext tp1 sg1 : (forall n, tp1 n = tp n) -> (forall n, tp n = None \/ sg1 n = sg n) -> LInv leb h f r nx dl sg1 tp1.
Proof.
  intros Et Es.
  assert (forall n L lo hi, tp1 n = Some (L, lo, hi) -> tp n = Some (L, lo, hi) /\ sg1 n = sg n) as A.
  { intros n L lo hi T. rewrite Et in T. destruct (Es n); [congruence|auto]. }
  assert (forall y z, Fm tp y z -> Fm tp1 y z) as Ff.
  { intros y z [->|(n & L & lo & hi & T & D)]; [now left|]. right. exists n, L, lo, hi. rewrite Et. auto. }
  assert (forall y c, TiInv.Pt tp1 sg1 y c -> Pt y c) as Fp.
  { intros y c [(n & L & lo & T & M)|[-> N]].
    - destruct (A _ _ _ _ T) as [T' E]. left. exists n, L, lo. now rewrite <- E.
    - right. split; auto. intros n L lo hi T. rewrite <- Et in T. destruct (A _ _ _ _ T) as [_ E]. rewrite <- E. eauto. }
  destruct LI. constructor; auto.
  - intros n n' L lo hi L' lo' hi' y T T'. apply A in T as [T _]. apply A in T' as [T' _]. eauto.
  - intros n L lo hi T. apply A in T as [T E]. destruct (q_blk _ _ _ _ T). rewrite E. auto.
  - intros y e A1 A2 A3 A4. destruct (q_rz y e A1 A2 A3 A4) as (z & ? & ? & ? & ?). exists z. auto.
  - intros. eapply q_ord; eauto.
  - intros k y O Ly D. destruct (q_dl k y O Ly D) as [(n & lo & hi & T & G)|?]; auto. left. exists n, lo, hi. rewrite Et.
    split; auto. destruct (Es n); congruence.
Qed.

Context (n L lo hi : nat) (T : tp n = Some (L, lo, hi)).
Lemma B : Blk leb h r f nx dl (sg n) n L lo hi.
Proof. exact (blk_of leb h f r nx dl sg tp LI n L lo hi T). Qed.
Lemma same_n n' L' lo' hi' y : tp n' = Some (L', lo', hi') -> mem L lo hi y -> mem L' lo' hi' y -> n' = n /\ L' = L /\ lo' = lo /\ hi' = hi.
Proof. intros T' M M'. eapply bd; eauto. Qed.
(** The point of a leaf outside of the split is outside. *)
Lemma pt_in z c : Pt z c -> lm n L lo hi c -> lm n L lo hi z.
Proof.
  intros [(n' & L' & lo' & T' & M)|[-> N]] Mc; auto.
  destruct (same_n n' L' lo' c c T') as (-> & -> & -> & ->); auto.
  - eapply lmem_mem; eauto.
  - unfold mem; auto.
Qed.
Lemma pt_of z : lm n L lo hi z -> Pt z hi.
Proof. intros M. left. eauto. Qed.
Lemma blk_into w y : ~ lm n L lo hi w -> lm n L lo hi y -> Nx nx w hi -> Nx nx w y.
Proof.
  intros Nw My H. pose proof (b_nx _ _ _ _ _ _ _ _ _ _ _ B) as X. unfold lmem, mem in *.
  assert (forall a b, nx a = Some b -> Nx nx w b -> w <> a -> Nx nx w a) as P.
  { intros a b E1 E2 E3. destruct (nx_pred nx Inj w a b E1 E2); [congruence|auto]. }
  destruct (sg n); try tauto; destruct X as [X X']; try destruct X' as [->|X'];
    repeat match goal with M : _ \/ _ |- _ => destruct M as [->|M] end; subst; auto;
    try (eapply P; eauto; fail); try (apply (P L lo); auto; eapply P; eauto; fail).
Qed.

(** ** The split ends. *)
Section ends.
Context (HE : (sg n = GDel /\ ~ Live h r L /\ (forall k1 k2, On h r k1 lo -> On h r k2 hi -> lo <> hi -> klt k1 k2))
  \/ (sg n = GRb2 /\ dl lo = true /\ dl hi = true /\ ~ Live h r lo /\ ~ Live h r hi)).
Context (tp1 : nat -> option (nat * nat * nat)) (Tn : tp1 n = None) (To : forall m, m <> n -> tp1 m = tp m).
Lemma end_tp m L' lo' hi' : tp1 m = Some (L', lo', hi') -> m <> n /\ tp m = Some (L', lo', hi').
Proof. intros T'. destruct (Nat.eq_dec m n) as [->|N]; [congruence|]. rewrite To in T'; auto. Qed.
Lemma end_lm z : mem L lo hi z <-> lm n L lo hi z.
Proof. destruct HE as [(-> & _)|(-> & _)]; tauto. Qed.
Lemma end_pt z c : TiInv.Pt tp1 sg z c -> (lm n L lo hi z /\ c = z) \/ (~ lm n L lo hi z /\ Pt z c).
Proof.
  intros [(m & L' & lo' & T' & M)|[-> N]].
  - destruct (end_tp _ _ _ _ T') as [Nm T1]. right. split; [|left; eauto]. intros M'. apply Nm.
    destruct (same_n m L' lo' c z T1) as (E & _); auto; eapply lmem_mem; eauto.
  - destruct (lmem_dec (sg n) L lo hi z) as [M|M]; auto. right. split; auto. right. split; auto.
    intros m L' lo' hi' T'. destruct (Nat.eq_dec m n) as [->|Nm]; [congruence|]. eapply N. rewrite To; eauto.
Qed.
Lemma l_end : LInv leb h f r nx dl sg tp1.
Proof.
  pose proof (b_nx _ _ _ _ _ _ _ _ _ _ _ B) as X. pose proof (b_dL _ _ _ _ _ _ _ _ _ _ _ B) as DL.
  assert (forall z, lm n L lo hi z -> z = hi \/ Nx nx z hi) as Reach by (intros; eapply blk_reach; eauto).
  destruct LI as [Q1 Q2 Q3 Q4 Q5 Q6 Q7 Q8 Q9 Q10 Q11]. constructor; auto.
  - intros m m' L1 lo1 hi1 L2 lo2 hi2 y T1 T2. apply end_tp in T1 as [_ T1]. apply end_tp in T2 as [_ T2]. eauto.
  - intros m L1 lo1 hi1 T1. apply end_tp in T1 as [_ T1]. auto.
  - intros y e Hy Ly Dy Ie. destruct (Q8 y e Hy Ly Dy Ie) as (z & Oz & Lz & Iz & Fz). exists z. split; auto. split; auto. split; auto.
    destruct Fz as [->|(m & L' & lo' & hi' & T' & D)]; [now left|].
    destruct (Nat.eq_dec m n) as [->|Nm].
    + rewrite T in T'. injection T' as <- <- <-. left. exfalso. assert (Live h r z) as Hz by (now exists (fst e)).
      destruct HE as [(G & E1 & _)|(G & E1 & E2 & E3 & E4)].
      * destruct D as [[-> _]|[-> _]]; [|tauto]. rewrite (proj2 DL G) in Dy. discriminate.
      * destruct D as [[-> [->| ->]]|[_ [->| ->]]]; try tauto; congruence.
    + right. exists m, L', lo', hi'. rewrite To by auto. auto.
  - intros k1 k2 z1 z2 w1 w2 Lt O1 O2 L1 L2 P1 P2.
    assert (Live h r z1) as V1 by (now exists k1). assert (Live h r z2) as V2 by (now exists k2).
    apply end_pt in P1 as [[M1 ->]|[N1 P1]]; apply end_pt in P2 as [[M2 ->]|[N2 P2]].
    + destruct (Nat.eq_dec z1 z2) as [->|Nz]; auto. right. apply end_lm in M1. apply end_lm in M2.
      destruct HE as [(G & E1 & E2)|(G & E1 & E2 & E3 & E4)]; rewrite G in *.
      * assert (z1 <> L /\ z2 <> L) as [N1 N2] by (split; intros ->; tauto).
        assert (z1 = lo /\ z2 = hi \/ z1 = hi /\ z2 = lo) as D by (unfold mem in *; destruct M1 as [?|[?|?]]; destruct M2 as [?|[?|?]]; subst; tauto).
        destruct D as [[-> ->]|[-> ->]].
        -- destruct X as [_ [?|X]]; [tauto|]. now constructor.
        -- exfalso. assert (klt k2 k1) as C by (apply E2; auto). apply (klt_leb leb HO) in C. unfold TiInv.klt in Lt. congruence.
      * exfalso. destruct M1 as [->|[->| ->]]; try tauto. destruct M2 as [->|[->| ->]]; tauto.
    + destruct (Q9 _ _ _ _ _ _ Lt O1 O2 L1 L2 (pt_of _ M1) P2) as [<-|C].
      * exfalso. apply N2. apply (pt_in _ _ P2). apply end_lm. unfold mem; auto.
      * right. destruct (Reach _ M1) as [->|R]; auto. eapply nx_trans; eauto.
    + destruct (Q9 _ _ _ _ _ _ Lt O1 O2 L1 L2 P1 (pt_of _ M2)) as [->|C].
      * exfalso. apply N1. apply (pt_in _ _ P1). apply end_lm. unfold mem; auto.
      * right. apply blk_into; auto. intros M. apply N1. apply (pt_in _ _ P1). auto.
    + eapply Q9; eauto.
  - intros k y O Ly D. destruct (Q10 k y O Ly D) as [(m & lo' & hi' & T' & G)|?]; auto. left. exists m, lo', hi'. split; auto.
    rewrite To; auto. intros ->. rewrite T in T'. injection T' as <- <- <-. assert (Live h r L) by (now exists k).
    destruct HE as [(_ & E1 & _)|(E0 & _)]; [tauto|congruence].
Qed.
End ends.

(** ** Stages *)
Section stage.
Context (g : stg).
Let sg1 := upd sg n g.
Lemma sg_n : sg1 n = g.
Proof. unfold sg1, upd. now rewrite Nat.eqb_refl. Qed.
Lemma sg_o m : m <> n -> sg1 m = sg m.
Proof. intros N. unfold sg1, upd. destruct (Nat.eqb_spec m n); [congruence|auto]. Qed.
(** Same leaves linked. *)
Lemma st_pt z c : (forall y, lmem g L lo hi y <-> lm n L lo hi y) -> TiInv.Pt tp sg1 z c -> Pt z c.
Proof.
  intros E [(m & L' & lo' & T' & M)|[-> N]].
  - left. exists m, L', lo'. split; auto. destruct (Nat.eq_dec m n) as [->|Nm]; [|now rewrite sg_o in M].
    rewrite T in T'. injection T' as <- <- <-. rewrite sg_n in M. now apply E.
  - right. split; auto. intros m L' lo' hi' T'. specialize (N m L' lo' hi' T'). destruct (Nat.eq_dec m n) as [->|Nm]; [|now rewrite sg_o in N].
    rewrite T in T'. injection T' as <- <- <-. rewrite sg_n in N. now rewrite <- E.
Qed.
(** A leaf of the split is deleted. *)
Context (d : nat) (Hd : (sg n = GLo /\ g = GDel /\ d = L)
  \/ (sg n = GLo /\ g = GRb1 /\ d = hi /\ ~ Live h r lo /\ ~ Live h r hi /\ fz (h hi) <> Open)
  \/ (sg n = GRb1 /\ g = GRb2 /\ d = lo /\ ~ Live h r lo /\ ~ Live h r hi /\ fz (h lo) <> Open)).
Let dl1 := upd dl d true.
Lemma dl_o y : y <> d -> dl1 y = dl y.
Proof. intros N. unfold dl1, upd. destruct (Nat.eqb_spec y d); [congruence|auto]. Qed.
Lemma dl_d : dl1 d = true.
Proof. unfold dl1, upd. now rewrite Nat.eqb_refl. Qed.
Lemma dl_f y : dl1 y = false -> y <> d /\ dl y = false.
Proof. intros E. destruct (Nat.eq_dec y d) as [->|N]; [rewrite dl_d in E; discriminate|]. rewrite dl_o in E; auto. Qed.
Lemma l_del : (g = GRb1 -> lo <> hi) -> LInv leb h f r nx dl1 sg1 tp.
Proof.
  intros Nlh.
  assert (mem L lo hi d) as Md by (unfold mem; destruct Hd as [(_ & _ & ->)|[(_ & _ & -> & _)|(_ & _ & -> & _)]]; auto).
  assert (forall y, lmem g L lo hi y <-> lm n L lo hi y) as El.
  { intros y. destruct Hd as [(-> & -> & _)|[(-> & -> & _)|(-> & -> & _)]]; cbn; tauto. }
  assert (d < f /\ lvl (h d) = 0) as [Fd Ld].
  { destruct (b_lt _ _ _ _ _ _ _ _ _ _ _ B) as (? & ? & ?). destruct (b_lv _ _ _ _ _ _ _ _ _ _ _ B) as (? & ? & ?).
    destruct Md as [->|[->| ->]]; auto. }
  destruct LI as [Q1 Q2 Q3 Q4 Q5 Q6 Q7 Q8 Q9 Q10 Q11]. constructor; auto.
  - intros y D. destruct (Nat.eq_dec y d) as [->|N]; auto. rewrite dl_o in D; auto.
  - intros m L' lo' hi' T'. destruct (Q7 _ _ _ _ T') as [Fm' B']. split; auto. destruct (Nat.eq_dec m n) as [->|Nm].
    + rewrite T in T'. injection T' as <- <- <-. clear B'. rewrite sg_n.
      pose proof B as [B1 B2 [B3 B3'] B4 B5 B6 B7 B8 B9 B10 B11 B12]. constructor; auto.
      * destruct Hd as [(_ & -> & _)|[(_ & -> & _)|(_ & -> & _)]]; auto 10.
      * destruct Hd as [(E & -> & _)|[(E & -> & _)|(E & -> & _)]]; rewrite E in B6; exact B6.
      * destruct Hd as [(E & Eg & Ed)|[(E & Eg & Ed & _)|(E & Eg & Ed & _)]].
        -- rewrite <- Ed at 1. rewrite dl_d. tauto.
        -- rewrite dl_o by congruence. rewrite B7, E, Eg. split; discriminate.
        -- rewrite dl_o by congruence. rewrite B7, E, Eg. split; discriminate.
      * intros G. destruct Hd as [(E & Eg & Ed)|[(E & Eg & Ed & _)|(E & Eg & Ed & _)]]; try tauto.
        -- rewrite dl_o by congruence. apply B8; rewrite E; discriminate.
        -- rewrite dl_o by (rewrite Ed; auto). apply B8; rewrite E; discriminate.
      * intros G1 G2. destruct Hd as [(E & Eg & Ed)|[(E & Eg & Ed & _)|(E & Eg & Ed & _)]]; try tauto.
        rewrite dl_o by congruence. apply B9; rewrite E; discriminate.
      * intros [G|G]; destruct Hd as [(E & Eg & _)|[(E & Eg & _)|(E & Eg & _)]]; congruence.
      * intros G. apply B11. destruct Hd as [(E & Eg & _)|[(E & Eg & _)|(E & Eg & _)]]; try tauto; rewrite E; discriminate.
    + rewrite sg_o by auto.
      assert (forall y, mem L' lo' hi' y -> y <> d) as Ny. { intros y M ->. apply Nm. destruct (same_n m L' lo' hi' d T') as (E & _); auto. }
      apply (blk_keep nx dl1 (sg m)); auto; apply dl_o; apply Ny; unfold mem; auto.
  - intros y e Hy Ly Dy Ie. apply dl_f in Dy as [_ Dy]. auto.
  - intros k1 k2 z1 z2 w1 w2 Lt O1 O2 L1 L2 P1 P2. apply st_pt in P1; auto. apply st_pt in P2; auto. eapply Q9; eauto.
  - intros k y O Ly Dy. destruct (Nat.eq_dec y d) as [->|Ny].
    + left. assert (Live h r d) as Vd by (now exists k). destruct Hd as [(_ & E & Ed)|[(_ & _ & Ed & _ & ? & _)|(_ & _ & Ed & ? & _ & _)]]; rewrite Ed in *; try tauto.
      exists n, lo, hi. split; auto. rewrite sg_n. auto.
    + rewrite dl_o in Dy by auto. destruct (Q10 k y O Ly Dy) as [(m & lo' & hi' & T' & G)|?]; auto. left. exists m, lo', hi'. split; auto.
      destruct (Nat.eq_dec m n) as [->|Nm]; [|now rewrite sg_o]. exfalso. destruct Hd as [(E & _)|[(E & _)|(E & _)]]; congruence.
  - intros y Dy Ly. destruct (Nat.eq_dec y d) as [->|Ny]; [|rewrite dl_o in Dy by auto; auto].
    destruct Hd as [(_ & _ & Ed)|[(_ & _ & Ed & _ & _ & ?)|(_ & _ & Ed & _ & _ & ?)]]; rewrite Ed in *; auto.
    rewrite (b_fz _ _ _ _ _ _ _ _ _ _ _ B). left. discriminate.
Qed.
End stage.
End blk.
