(** More steps of the list: leaves are linked, retired leaves are deleted, splits begin, leaves are made
    and written. *)
From Coq Require Import List Arith Bool Lia.
From Verif Require Import TcModel TcRoute TcSpec TcInv TcTree TcFrame TcJobs TiModel TiInv TiConv TiList TiMove TiBlk.
Import ListNotations.

Section push.
Context {K V : Type} (leb : K -> K -> bool) (HO : tord leb).
Notation heap := (nat -> obj K V).
Notation On := (On leb).
Notation Live := (Live leb).
Notation klt := (klt leb).
Context (h : heap) (f : nat) (r : option nat) (nx : nat -> option nat) (dl : nat -> bool) (sg : nat -> stg)
  (tp : nat -> option (nat * nat * nat)) (LI : LInv leb h f r nx dl sg tp).
Notation lm n L lo hi y := (lmem (sg n) L lo hi y).
Notation Pt := (Pt tp sg).

Section one.
Context (n L lo hi : nat) (T : tp n = Some (L, lo, hi)).
Notation Bn := (B leb h f r nx dl sg tp LI n L lo hi T).
Lemma p_lt x a b : unl nx x -> x < f -> lvl (h x) = 0 -> L < f -> lvl (h L) = 0 -> L <> x ->
  nx' nx L x a = Some b -> a < f /\ b < f /\ lvl (h a) = 0 /\ lvl (h b) = 0.
Proof.
  intros U X1 X2 L1 L2 N. pose proof (q_lt _ _ _ _ _ _ _ _ LI) as Q. rewrite p_eq.
  destruct (Nat.eqb_spec a L) as [->|A]; [intros [= <-]; auto|]. destruct (Nat.eqb_spec a x) as [->|A']; [|apply Q].
  intros E. apply Q in E. tauto.
Qed.
Lemma o_blk x g m L' lo' hi' : L <> x -> mem L lo hi x -> m <> n -> tp m = Some (L', lo', hi') -> 
  Blk leb h r f nx dl g m L' lo' hi' -> Blk leb h r f (nx' nx L x) dl g m L' lo' hi'.
Proof.
  intros NLx Mx Nm T' B'.
  assert (forall y, mem L' lo' hi' y -> y <> L /\ y <> x) as Ny.
  { intros y M. split; intros ->; apply Nm.
    - destruct (same_n leb h f r nx dl sg tp LI n L lo hi T m L' lo' hi' L T') as (E & _); auto. unfold mem; auto.
    - destruct (same_n leb h f r nx dl sg tp LI n L lo hi T m L' lo' hi' x T') as (E & _); auto. }
  destruct (Ny L') as [N1 N2]; [unfold mem; auto|]. destruct (Ny lo') as [N3 N4]; [unfold mem; auto|]. destruct (Ny hi') as [N5 N6]; [unfold mem; auto|].
  apply (blk_keep leb h f r nx dl (nx' nx L x) dl g); auto; try (apply p_o; auto); apply p_unl; auto.
Qed.

(** The first leaf of a split is linked. *)
Lemma l_push1 g : sg n = G0 -> (g = GHi /\ lo <> hi \/ g = GLo /\ lo = hi) -> LInv leb h f r (nx' nx L hi) dl (upd sg n g) tp.
Proof.
  intros G Hg. pose proof Bn as [B1 B2 [B3 B3'] B4 B5 B6 B7 B8 B9 B10 B11 B12]. rewrite G in *.
  destruct B6 as [U1 U2]. destruct (B10 (or_introl eq_refl)) as [V1 V2]. destruct B1 as (F1 & F2 & F3). destruct B2 as (E1 & E2 & E3).
  pose proof (q_inj _ _ _ _ _ _ _ _ LI) as Inj. pose proof (q_acy _ _ _ _ _ _ _ _ LI) as Acy.
  assert (forall y, lmem g L lo hi y <-> y = L \/ y = hi) as El. { intros y. clear - Hg. destruct Hg as [[-> _]|[-> <-]]; cbn; unfold mem; tauto. }
  assert (forall z c, TiInv.Pt tp (upd sg n g) z c -> (z = L /\ c = hi) \/ z = hi \/ (z <> L /\ Pt z c /\ c <> L)) as Fp.
  { intros z c [(m & L' & lo' & T' & M)|[-> N]].
    - destruct (Nat.eq_dec m n) as [->|Nm].
      + rewrite T in T'. injection T' as <- <- <-. rewrite sg_n in M. apply El in M as [->| ->]; auto.
      + rewrite sg_o in M by auto. pose proof (lmem_mem _ _ _ _ _ M) as M'. right; right.
        assert (forall y, mem L' lo' c y -> y <> L) as Ny.
        { intros y My ->. apply Nm. destruct (same_n leb h f r nx dl sg tp LI n L lo hi T m L' lo' c L T') as (E & _); auto. unfold mem; auto. }
        split; [now apply Ny|]. split; [left; eauto|]. apply Ny. unfold mem; auto.
    - destruct (Nat.eq_dec z L) as [->|Nz].
      { exfalso. apply (N _ _ _ _ T). rewrite sg_n. apply El. auto. }
      right; right. split; auto. split; auto. right. split; auto. intros m L' lo' hi' T'. destruct (Nat.eq_dec m n) as [->|Nm].
      + rewrite G. auto.
      + specialize (N _ _ _ _ T'). now rewrite sg_o in N by auto. }
  assert (Pt L L) as PL.
  { right. split; auto. intros m L' lo' hi' T' M. destruct (same_n leb h f r nx dl sg tp LI n L lo hi T m L' lo' hi' L T') as (-> & _); [unfold mem; auto|eapply lmem_mem; eauto|].
    now rewrite G in M. }
  destruct LI as [Q1 Q2 Q3 Q4 Q5 Q6 Q7 Q8 Q9 Q10 Q11]. constructor; auto.
  - now apply p_inj.
  - now apply p_acy.
  - intros a b. apply p_lt; auto.
  - intros m L' lo' hi' T'. destruct (Q7 _ _ _ _ T') as [Fm' B']. split; auto. destruct (Nat.eq_dec m n) as [->|Nm].
    + rewrite T in T'. injection T' as <- <- <-. clear B'. rewrite sg_n. constructor; auto.
      * destruct Hg as [[-> ?]|[-> ?]]; auto.
      * destruct Hg as [[-> N]|[-> <-]].
        -- split; [apply p_y|]. apply p_unl; auto.
        -- split; [apply p_y|auto].
      * rewrite B7. destruct Hg as [[-> _]|[-> _]]; split; discriminate.
      * intros _. apply B8. discriminate.
      * intros _ _. apply B9; discriminate.
      * intros _. apply B11. discriminate.
    + rewrite sg_o by auto. apply o_blk; auto. unfold mem; auto.
  - intros k1 k2 z1 z2 w1 w2 Lt O1 O2 L1 L2 P1 P2.
    assert (forall z c, z = hi -> On h r c z -> False) as Nh. { intros z c -> O. apply V2. now exists c. }
    assert (forall z c k, On h r k z -> Pt z c -> c <> L -> c <> hi) as Nc.
    { intros z c k O P N ->. destruct P as [(m & L' & lo' & T' & M)|[<- _]]; [|eapply Nh; eauto].
      destruct (same_n leb h f r nx dl sg tp LI n L lo hi T m L' lo' hi hi T') as (-> & _); [unfold mem; auto|unfold mem; auto|]. now rewrite G in M. }
    apply Fp in P1. apply Fp in P2.
    destruct P1 as [[-> ->]|[->|(N1 & P1 & C1)]]; [| exfalso; eapply Nh; eauto |];
    destruct P2 as [[-> ->]|[->|(N2 & P2 & C2)]]; try (exfalso; eapply Nh; eauto; fail); auto.
    + destruct (Q9 _ _ _ _ _ _ Lt O1 O2 L1 L2 PL P2) as [<-|C]; [congruence|]. right. apply p_from_x; auto.
    + destruct (Q9 _ _ _ _ _ _ Lt O1 O2 L1 L2 P1 PL) as [->|C]; [congruence|]. right. apply p_to_x; auto. apply (Nc z1 w1 k1); auto.
    + destruct (Q9 _ _ _ _ _ _ Lt O1 O2 L1 L2 P1 P2) as [->|C]; auto. right. apply p_keep; auto.
  - intros k y O Ly D. destruct (Q10 k y O Ly D) as [(m & lo' & hi' & T' & G')|?]; auto. left. exists m, lo', hi'. split; auto.
    rewrite sg_o; auto. intros ->. congruence.
Qed.
(** The low leaf is linked in front of the high one. *)
Lemma l_push2 : sg n = GHi -> LInv leb h f r (nx' nx L lo) dl (upd sg n GLo) tp.
Proof.
  intros G. pose proof Bn as [B1 B2 [B3 B3'] B4 B5 B6 B7 B8 B9 B10 B11 B12]. rewrite G in *.
  destruct B6 as [X U]. destruct (B10 (or_intror eq_refl)) as [V1 V2]. destruct B1 as (F1 & F2 & F3). destruct B2 as (E1 & E2 & E3).
  assert (lo <> hi) as Nlh by (destruct B5 as [?|[[_ ?]|[?|[?|[?|?]]]]]; congruence).
  pose proof (q_inj _ _ _ _ _ _ _ _ LI) as Inj. pose proof (q_acy _ _ _ _ _ _ _ _ LI) as Acy.
  assert (forall z c, TiInv.Pt tp (upd sg n GLo) z c -> z <> lo -> Pt z c) as Fp.
  { intros z c [(m & L' & lo' & T' & M)|[-> N]] Nz.
    - left. exists m, L', lo'. split; auto. destruct (Nat.eq_dec m n) as [->|Nm]; [|now rewrite sg_o in M].
      rewrite T in T'. injection T' as <- <- <-. rewrite sg_n in M. rewrite G. cbn in M |- *. unfold mem in M. clear - M Nz. tauto.
    - right. split; auto. intros m L' lo' hi' T'. specialize (N _ _ _ _ T'). destruct (Nat.eq_dec m n) as [->|Nm]; [|now rewrite sg_o in N].
      rewrite T in T'. injection T' as <- <- <-. rewrite sg_n in N. rewrite G. cbn in N |- *. unfold mem in N. clear - N. tauto. }
  destruct LI as [Q1 Q2 Q3 Q4 Q5 Q6 Q7 Q8 Q9 Q10 Q11]. constructor; auto.
  - now apply p_inj.
  - now apply p_acy.
  - intros a b. apply p_lt; auto.
  - intros m L' lo' hi' T'. destruct (Q7 _ _ _ _ T') as [Fm' B']. split; auto. destruct (Nat.eq_dec m n) as [->|Nm].
    + rewrite T in T'. injection T' as <- <- <-. clear B'. rewrite sg_n. constructor; auto.
      * split; [apply p_y|]. right. rewrite p_x; auto.
      * rewrite B7. split; discriminate.
      * intros _. apply B8. discriminate.
      * intros _ _. apply B9; discriminate.
      * intros _. apply B11. discriminate.
    + rewrite sg_o by auto. apply o_blk; auto. unfold mem; auto.
  - intros k1 k2 z1 z2 w1 w2 Lt O1 O2 L1 L2 P1 P2.
    apply Fp in P1; [|intros ->; apply V1; now exists k1]. apply Fp in P2; [|intros ->; apply V1; now exists k2].
    destruct (Q9 _ _ _ _ _ _ Lt O1 O2 L1 L2 P1 P2) as [->|C]; auto. right. apply p_keep; auto.
  - intros k y O Ly D. destruct (Q10 k y O Ly D) as [(m & lo' & hi' & T' & G')|?]; auto. left. exists m, lo', hi'. split; auto.
    rewrite sg_o; auto. intros ->. congruence.
Qed.
End one.

(** A retired leaf is deleted. *)
Lemma l_ret c : c < f -> ret (h c) = true -> (forall n L lo hi, tp n = Some (L, lo, hi) -> ~ mem L lo hi c) ->
  LInv leb h f r nx (upd dl c true) sg tp.
Proof.
  intros Fc Rc Nb.
  destruct LI as [Q1 Q2 Q3 Q4 Q5 Q6 Q7 Q8 Q9 Q10 Q11]. constructor; auto.
  - intros y D. destruct (Nat.eq_dec y c) as [->|N]; auto. rewrite dl_o in D; auto.
  - intros m L' lo' hi' T'. destruct (Q7 _ _ _ _ T') as [Fm' B']. split; auto.
    assert (forall y, mem L' lo' hi' y -> y <> c) as Ny. { intros y M ->. eapply Nb; eauto. }
    apply (blk_keep leb h f r nx dl nx); auto; apply dl_o; apply Ny; unfold mem; auto.
  - intros y e Hy Ly Dy Ie. apply dl_f in Dy as [_ Dy]. auto.
  - intros k y O Ly D. destruct (Nat.eq_dec y c) as [->|N]; auto. rewrite dl_o in D by auto. eauto.
  - intros y D Ly. destruct (Nat.eq_dec y c) as [->|N]; auto. rewrite dl_o in D by auto. eauto.
Qed.

(** A split begins. *)
Lemma l_begin (h' : heap) f' n L lo hi tp1 :
  f <= lo -> f <= hi -> lo < f' -> hi < f' -> (forall y, f <= y -> y < f' -> y = lo \/ y = hi) ->
  (forall y, y < f -> lvl (h' y) = lvl (h y) /\ ents (h' y) = ents (h y) /\ ret (h' y) = ret (h y)) ->
  (forall y, y < f -> y <> L -> lvl (h y) = 0 -> fz (h' y) = fz (h y)) -> fz (h' L) = Orig n ->
  (forall y, NoDup (map fst (ents (h' y)))) -> lvl (h' lo) = 0 -> lvl (h' hi) = 0 ->
  (forall k y, On h' r k y <-> On h r k y) -> (forall y, Live h r y -> y < f) ->
  (forall e, In e (ents (h L)) <-> In e (ents (h' lo)) \/ In e (ents (h' hi))) ->
  (lo <> hi -> forall a b, In a (ents (h' lo)) -> In b (ents (h' hi)) -> klt (fst a) (fst b)) ->
  tp n = None -> sg n = G0 -> n < f -> L < f -> lvl (h L) = 0 -> dl L = false ->
  (forall m L' lo' hi', tp m = Some (L', lo', hi') -> ~ mem L' lo' hi' L) ->
  tp1 n = Some (L, lo, hi) -> (forall m, m <> n -> tp1 m = tp m) -> LInv leb h' f' r nx dl sg tp1.
Proof.
  intros Flo Fhi Flo' Fhi' Fnew Hsame Hfz HfL Hnd Llo Lhi HOn Hlv Hc Hs Tn Gn Fn FL LL DL NL T1 To.
  assert (forall m L' lo' hi', tp1 m = Some (L', lo', hi') -> (m = n /\ L' = L /\ lo' = lo /\ hi' = hi) \/ m <> n /\ tp m = Some (L', lo', hi')) as Inv.
  { intros m L' lo' hi' E. destruct (Nat.eq_dec m n) as [->|N]; [left|right]. { rewrite T1 in E. injection E as <- <- <-. auto. } rewrite To in E; auto. }
  assert (f <= f') as Ff by lia.
  assert (forall y, ~ Live h' r y <-> ~ Live h r y) as HL. { intros y. split; intros N (k & O); apply N; exists k; now apply HOn. }
  assert (forall m L' lo' hi' y, tp m = Some (L', lo', hi') -> mem L' lo' hi' y -> y < f /\ lvl (h y) = 0) as Bm.
  { intros m L' lo' hi' y E M. destruct (q_blk _ _ _ _ _ _ _ _ LI _ _ _ _ E) as [_ B]. destruct (b_lt _ _ _ _ _ _ _ _ _ _ _ B) as (? & ? & ?).
    destruct (b_lv _ _ _ _ _ _ _ _ _ _ _ B) as (? & ? & ?). destruct M as [->|[->| ->]]; auto. }
  assert (forall m L' lo' hi' y, tp m = Some (L', lo', hi') -> mem L' lo' hi' y -> mem L lo hi y -> False) as Disj.
  { intros m L' lo' hi' y E M M2. destruct (Bm _ _ _ _ _ E M) as [Fy _]. destruct M2 as [->|[->| ->]]; try lia. eapply NL; eauto. }
  assert (forall z c, TiInv.Pt tp1 sg z c -> Pt z c) as Fp.
  { intros z c [(m & L' & lo' & T' & M)|[-> N]].
    - apply Inv in T' as [(-> & -> & -> & ->)|[_ T']]; [rewrite Gn in M; destruct M|left; eauto].
    - right. split; auto. intros m L' lo' hi' T'. destruct (Nat.eq_dec m n) as [->|Nm]; [congruence|]. eapply N. rewrite To; eauto. }
  assert (forall y e, y < f -> lvl (h y) = 0 -> dl y = false -> In e (ents (h y)) ->
    exists z, On h r (fst e) z /\ lvl (h z) = 0 /\ In e (ents (h z)) /\ Fm tp y z) as Q8 by exact (q_rz _ _ _ _ _ _ _ _ LI).
  destruct LI as [Q1 Q2 Q3 Q4 Q5 Q6 Q7 _ Q9 Q10 Q11]. constructor; auto.
  - intros a b E. destruct (Q4 a b E) as (A & B & C & D). destruct (Hsame a A) as (-> & _). destruct (Hsame b B) as (-> & _). repeat split; auto; lia.
  - intros y D. apply Q5 in D. lia.
  - intros m m' L1 lo1 hi1 L2 lo2 hi2 y E1 E2 M1 M2.
    apply Inv in E1 as [(-> & -> & -> & ->)|[N1 E1]]; apply Inv in E2 as [(-> & -> & -> & ->)|[N2 E2]]; auto; try (exfalso; eapply Disj; eauto; fail).
    eauto.
  - intros m L' lo' hi' T'. apply Inv in T' as [(-> & -> & -> & ->)|[Nm T']].
    + split; [lia|]. rewrite Gn.
      assert (forall y, f <= y -> unl nx y) as Un.
      { intros y Fy. split.
        - destruct (nx y) as [b|] eqn:E; auto. apply Q4 in E. lia.
        - intros a E. apply Q4 in E. lia. }
      assert (forall y, f <= y -> dl y = false) as Dn. { intros y Fy. destruct (dl y) eqn:E; auto. apply Q5 in E. lia. }
      destruct (Hsame L FL) as (E1 & E2 & _).
      constructor; auto; try lia.
      * split; [congruence|discriminate].
      * intros _. split; apply HL; intros V'; apply Hlv in V'; lia.
      * intros _. rewrite E2. exact Hc.
    + destruct (Q7 _ _ _ _ T') as [Fm' B']. split; [lia|].
      destruct (Bm _ _ _ _ L' T') as [G1 G2]; [unfold mem; auto|]. destruct (Bm _ _ _ _ lo' T') as [G3 G4]; [unfold mem; auto|].
      destruct (Bm _ _ _ _ hi' T') as [G5 G6]; [unfold mem; auto|].
      destruct (Hsame L' G1) as (C1 & C2 & C3). destruct (Hsame lo' G3) as (C4 & C5 & C6). destruct (Hsame hi' G5) as (C7 & C8 & C9).
      destruct B' as [B1 B2 B3 B4 B5 B6 B7 B8 B9 B10 B11 B12]. constructor; auto; try (rewrite C2, C5, C8; auto); try (rewrite C5, C8; auto); try lia.
      * rewrite Hfz; auto. intros ->. eapply NL; eauto. unfold mem; auto.
      * intros G. destruct (B10 G). split; now apply HL.
  - intros y e Hy Ly Dy Ie.
    assert (forall e, In e (ents (h L)) -> On h r (fst e) L) as OL.
    { intros e0 I0. destruct (Q8 L e0 FL LL DL I0) as (z & Oz & Lz & Iz & [->|(m & L' & lo' & hi' & T' & D)]); auto.
      exfalso. eapply NL; eauto. unfold mem. destruct D as [[-> _]|[_ [->| ->]]]; auto. }
    destruct (lt_dec y f) as [Fy|Fy].
    + destruct (Hsame y Fy) as (C1 & C2 & _). rewrite C1 in Ly. rewrite C2 in Ie.
      destruct (Q8 y e Fy Ly Dy Ie) as (z & Oz & Lz & Iz & Fz). assert (z < f) as Hz by (apply Hlv; now exists (fst e)).
      destruct (Hsame z Hz) as (C3 & C4 & _). exists z. rewrite C3, C4. split; [now apply HOn|]. split; auto. split; auto.
      destruct Fz as [->|(m & L' & lo' & hi' & T' & D)]; [now left|]. right. exists m, L', lo', hi'. split; auto. rewrite To; auto. intros ->. congruence.
    + assert (In e (ents (h L))) as IL. { apply Hc. destruct (Fnew y) as [->| ->]; auto; lia. }
      destruct (Hsame L FL) as (C3 & C4 & _). exists L. rewrite C3, C4. split; [apply HOn; auto|]. split; auto. split; auto.
      right. exists n, L, lo, hi. split; auto. right. split; auto. apply Fnew; lia.
  - intros k1 k2 z1 z2 w1 w2 Lt O1 O2 L1 L2 P1 P2. apply HOn in O1. apply HOn in O2.
    assert (z1 < f) as Z1 by (apply Hlv; now exists k1). assert (z2 < f) as Z2 by (apply Hlv; now exists k2).
    destruct (Hsame _ Z1) as (C1 & _). destruct (Hsame _ Z2) as (C2 & _). eapply (Q9 k1 k2 z1 z2); eauto; congruence.
  - intros k y O Ly D. apply HOn in O. assert (y < f) as Hy by auto. destruct (Hsame y Hy) as (C1 & _ & C3). rewrite C3.
    destruct (Q10 k y O) as [(m & lo' & hi' & T' & G')|?]; auto; [congruence|]. left. exists m, lo', hi'. split; auto. rewrite To; auto. intros ->. congruence.
  - intros y D Ly. assert (y < f) as Hy by auto. destruct (Hsame y Hy) as (C1 & _ & C3). rewrite C3.
    rewrite Hfz; auto; [|intros ->; congruence|congruence]. apply Q11; auto. congruence.
Qed.

(** The first leaf of an empty tree. *)
Lemma l_first (h' : heap) f' y0 : f <= y0 -> f <= f' -> (forall y, f <= y -> y < f' -> y = y0) -> ents (h' y0) = [] ->
  (forall y, y < f -> lvl (h' y) = lvl (h y) /\ ents (h' y) = ents (h y) /\ ret (h' y) = ret (h y)) ->
  (forall y, y < f -> lvl (h y) = 0 -> fz (h' y) = fz (h y)) ->
  (forall y, NoDup (map fst (ents (h' y)))) ->
  (forall k y, On h r k y -> lvl (h y) <> 0) -> (forall k y, On h' r k y -> lvl (h' y) = 0 -> y = y0) ->
  LInv leb h' f' r nx dl sg tp.
Proof.
  intros F0 Ff Fnew E0 Hsame Hfz Hnd No No'.
  assert (forall m L' lo' hi' y, tp m = Some (L', lo', hi') -> mem L' lo' hi' y -> y < f /\ lvl (h y) = 0) as Bm.
  { intros m L' lo' hi' y E M. destruct (q_blk _ _ _ _ _ _ _ _ LI _ _ _ _ E) as [_ B]. destruct (b_lt _ _ _ _ _ _ _ _ _ _ _ B) as (? & ? & ?).
    destruct (b_lv _ _ _ _ _ _ _ _ _ _ _ B) as (? & ? & ?). destruct M as [->|[->| ->]]; auto. }
  assert (forall y, y < f -> lvl (h y) = 0 -> ~ Live h' r y) as Nl.
  { intros y Fy Ly (k & O). destruct (Hsame y Fy) as (C & _). apply No' in O; [lia|congruence]. }
  destruct LI as [Q1 Q2 Q3 Q4 Q5 Q6 Q7 Q8 Q9 Q10 Q11]. constructor; auto.
  - intros a b E. destruct (Q4 a b E) as (A & B & C & D). destruct (Hsame a A) as (-> & _). destruct (Hsame b B) as (-> & _). repeat split; auto; lia.
  - intros y D. apply Q5 in D. lia.
  - intros m L' lo' hi' T'. destruct (Q7 _ _ _ _ T') as [Fm' B']. split; [lia|].
    destruct (Bm _ _ _ _ L' T') as [G1 G2]; [unfold mem; auto|]. destruct (Bm _ _ _ _ lo' T') as [G3 G4]; [unfold mem; auto|].
    destruct (Bm _ _ _ _ hi' T') as [G5 G6]; [unfold mem; auto|].
    destruct (Hsame L' G1) as (C1 & C2 & C3). destruct (Hsame lo' G3) as (C4 & C5 & C6). destruct (Hsame hi' G5) as (C7 & C8 & C9).
    destruct B' as [B1 B2 B3 B4 B5 B6 B7 B8 B9 B10 B11 B12]. constructor; auto; try (rewrite C2, C5, C8; auto); try (rewrite C5, C8; auto); try lia.
    rewrite Hfz; auto.
  - intros y e Hy Ly Dy Ie. exfalso. destruct (lt_dec y f) as [Fy|Fy].
    + destruct (Hsame y Fy) as (C1 & C2 & _). rewrite C1 in Ly. rewrite C2 in Ie. destruct (Q8 y e Fy Ly Dy Ie) as (z & Oz & Lz & _). eapply No; eauto.
    + rewrite (Fnew y) in Ie by lia. now rewrite E0 in Ie.
  - intros k1 k2 z1 z2 w1 w2 Lt O1 O2 L1 L2 P1 P2. left. apply No' in O1; auto. apply No' in O2; auto. subst.
    clear - P1 P2 Q6. destruct P1 as [(n & L & lo & T & M)|[-> N]]; destruct P2 as [(n' & L' & lo' & T' & M')|[-> N']]; auto.
    + pose proof (Q6 _ _ _ _ _ _ _ _ _ T T' (lmem_mem _ _ _ _ _ M) (lmem_mem _ _ _ _ _ M')) as <-. congruence.
    + exfalso. eapply N'; eauto.
    + exfalso. eapply N; eauto.
  - intros k y O Ly D. exfalso. assert (y < f) as Hy by auto. destruct (Hsame y Hy) as (C1 & _). apply (Nl y); auto; [congruence|]. now exists k.
  - intros y D Ly. assert (y < f) as Hy by auto. destruct (Hsame y Hy) as (C1 & _ & C3). rewrite C3.
    rewrite Hfz; auto; [|congruence]. apply Q11; auto. congruence.
Qed.

(** An entry is inserted or removed. *)
Lemma l_write (h' : heap) l k0 : On h r k0 l -> lvl (h l) = 0 -> l < f -> fz (h l) = Open -> ret (h l) = false ->
  (forall y, y <> l -> h' y = h y) -> lvl (h' l) = 0 -> fz (h' l) = Open ->
  (forall e, In e (ents (h' l)) -> In e (ents (h l)) \/ fst e = k0) ->
  NoDup (map fst (ents (h' l))) -> (forall k y, On h' r k y <-> On h r k y) ->
  (forall n L lo hi, tp n = Some (L, lo, hi) -> mem L lo hi l ->
     sg n = GDel /\ (lo <> hi -> l = lo /\ forall e, In e (ents (h hi)) -> klt k0 (fst e))) ->
  LInv leb h' f r nx dl sg tp.
Proof.
  intros O0 Ll Fl Fzl Rl Ho Ll' Fzl' He Hnd HOn Hb.
  assert (forall y, lvl (h' y) = lvl (h y)) as Hl. { intros y. destruct (Nat.eq_dec y l) as [->|N]; [congruence|now rewrite Ho]. }
  assert (forall y, fz (h' y) = fz (h y)) as Hz. { intros y. destruct (Nat.eq_dec y l) as [->|N]; [congruence|now rewrite Ho]. }
  assert (forall y, ~ Live h' r y <-> ~ Live h r y) as HL. { intros y. split; intros N (k & O); apply N; exists k; now apply HOn. }
  assert (forall n L lo hi, tp n = Some (L, lo, hi) -> L <> l) as NL.
  { intros n L lo hi T ->. destruct (q_blk _ _ _ _ _ _ _ _ LI _ _ _ _ T) as [_ B]. rewrite (b_fz _ _ _ _ _ _ _ _ _ _ _ B) in Fzl. discriminate. }
  destruct LI as [Q1 Q2 Q3 Q4 Q5 Q6 Q7 Q8 Q9 Q10 Q11]. 
  assert (dl l = false) as Dl. { destruct (dl l) eqn:E; auto. destruct (Q11 l E Ll); congruence. }
  constructor; auto.
  - intros y. destruct (Nat.eq_dec y l) as [->|N]; auto. now rewrite Ho.
  - intros a b E. rewrite !Hl. auto.
  - intros n L lo hi T. destruct (Q7 _ _ _ _ T) as [Fn B]. split; auto. pose proof (NL _ _ _ _ T) as NL'.
    destruct B as [B1 B2 B3 B4 B5 B6 B7 B8 B9 B10 B11 B12]. constructor; auto.
    + now rewrite !Hl.
    + now rewrite Hz.
    + intros G. destruct (B10 G). split; now apply HL.
    + intros G. rewrite (Ho L) by auto. destruct (Nat.eq_dec lo l) as [->|N1].
      { exfalso. apply G. apply (Hb _ _ _ _ T). unfold mem; auto. }
      destruct (Nat.eq_dec hi l) as [->|N2]. { exfalso. apply G. apply (Hb _ _ _ _ T). unfold mem; auto. }
      rewrite !Ho by auto. auto.
    + intros Nlh a b Ia Ib. destruct (Nat.eq_dec lo l) as [->|N1].
      * rewrite Ho in Ib by auto. destruct (Hb _ _ _ _ T) as [_ H]; [unfold mem; auto|]. destruct (H Nlh) as [_ H'].
        destruct (He a Ia) as [Ia'| ->]; auto.
      * destruct (Nat.eq_dec hi l) as [->|N2].
        -- exfalso. destruct (Hb _ _ _ _ T) as [_ H]; [unfold mem; auto|]. destruct (H Nlh) as [E _]. congruence.
        -- rewrite Ho in Ia by auto. rewrite Ho in Ib by auto. auto.
  - intros y e Hy Ly Dy Ie. rewrite Hl in Ly.
    destruct (Nat.eq_dec y l) as [->|N].
    + destruct (He e Ie) as [Io|Ek].
      * destruct (Q8 l e Hy Ly Dy Io) as (z & Oz & Lz & Iz & Fz). exists z. rewrite Hl. split; [now apply HOn|]. split; auto. split; auto.
        destruct (Nat.eq_dec z l) as [->|Nz]; auto. now rewrite Ho.
      * exists l. rewrite Ek. split; [now apply HOn|]. split; auto. split; auto. now left.
    + rewrite Ho in Ie by auto. destruct (Q8 y e Hy Ly Dy Ie) as (z & Oz & Lz & Iz & Fz). exists z. rewrite Hl. split; [now apply HOn|]. split; auto. split; auto.
      destruct (Nat.eq_dec z l) as [->|Nz]; [|now rewrite Ho]. exfalso.
      destruct Fz as [?|(n & L & lo & hi & T & D)]; [congruence|]. destruct D as [[-> D]|[-> _]]; [|now apply (NL _ _ _ _ T)].
      destruct (Q7 _ _ _ _ T) as [_ B]. destruct (Hb _ _ _ _ T) as [G _]; [clear - D; unfold mem; tauto|].
      apply (b_dL _ _ _ _ _ _ _ _ _ _ _ B) in G. congruence.
  - intros k1 k2 z1 z2 w1 w2 Lt O1 O2 L1 L2. rewrite Hl in L1, L2. apply HOn in O1. apply HOn in O2. eauto.
  - intros k y O Ly D. rewrite Hl in Ly. apply HOn in O. destruct (Q10 k y O Ly D) as [?|R]; auto. right.
    destruct (Nat.eq_dec y l) as [->|N]; [congruence|now rewrite Ho].
  - intros y D Ly. rewrite Hl in Ly. rewrite Hz. destruct (Nat.eq_dec y l) as [->|N]; [congruence|rewrite Ho; auto].
Qed.
End push.
