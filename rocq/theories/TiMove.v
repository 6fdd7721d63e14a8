(** The order of the leaves is kept when the ways of keys change: redirected keys stay within the split
    that they are redirected by, and keys of retired leaves go to neighbours. *)
From Coq Require Import List Arith Bool Lia.
From Verif Require Import TcModel TcRoute TcSpec TcInv TcTree TcFrame TcJobs TiModel TiInv TiConv TiList.
Import ListNotations.

Section get.
Context {K V : Type} (leb : K -> K -> bool) (HO : tord leb).
Lemma in_get (es : list (K * V)) e : NoDup (map fst es) -> In e es -> get leb es (fst e) = Some (snd e).
Proof.
  induction es as [|[ak av] es IH]; cbn; [tauto|]. intros N [<-|H]; inversion_clear N as [|? ? N1 N2].
  - cbn. now rewrite (keqb_refl leb HO).
  - rewrite (keqb_neq leb HO); auto. intros E. apply N1. cbn. rewrite <- E. now apply in_map.
Qed.
Lemma get_in' (es : list (K * V)) e : get leb es (fst e) = Some (snd e) -> In e es.
Proof. intros H. apply (get_in leb HO) in H. now destruct e. Qed.
Lemma klt_irr k : ~ klt leb k k.
Proof. unfold klt. rewrite (leb_refl leb HO). discriminate. Qed.
Lemma klt_leb a b : klt leb a b -> leb a b = true.
Proof. apply (leb_flip leb HO). Qed.
Lemma klt_dec a b : klt leb a b \/ leb b a = true.
Proof. unfold klt. destruct (leb b a); auto. Qed.
End get.

Section two.
Context {K V : Type} (leb : K -> K -> bool) (HO : tord leb).
Notation heap := (nat -> obj K V).
Notation On := (On leb).
Notation Live := (Live leb).
Notation klt := (klt leb).
(** Leaves hold intervals of keys: disjoint ones are in order. *)
Lemma apart (h : heap) f r lg k1 k1' k2 k2' y z : HInv leb h f r lg ->
  On h r k1 y -> On h r k1' y -> On h r k2 z -> On h r k2' z -> lvl (h y) = 0 -> lvl (h z) = 0 -> y <> z -> klt k1 k2 -> klt k1' k2'.
Proof.
  intros HI O1 O1' O2 O2' Ly Lz N L. destruct (klt_dec leb k1' k2') as [?|D]; auto. exfalso. apply N.
  assert (lvl (h y) = lvl (h z)) as Lv by congruence.
  destruct (leb k1 k2') eqn:E.
  - eapply (on_uniq leb h f r lg HI k2'); eauto. eapply (conv leb HO h f r lg HI k1 k2' k1'); eauto.
  - apply (leb_flip leb HO) in E. apply (klt_leb leb HO) in L.
    eapply (on_uniq leb h f r lg HI k1); eauto. eapply (conv leb HO h f r lg HI k2' k1 k2); eauto.
Qed.

Context (h : heap) (f : nat) (r : option nat) (nx : nat -> option nat) (dl : nat -> bool) (sg : nat -> stg)
  (tp : nat -> option (nat * nat * nat)) (LI : LInv leb h f r nx dl sg tp) (lg : list (ev K V)) (HI : HInv leb h f r lg).
Context (h' : heap) (f' : nat) (r' : option nat) (HI' : HInv leb h' f' r' lg).
Context (Hf : f <= f').
Context (He : forall y, ents (h' y) = ents (h y) \/ ents (h' y) = []).
Context (Hl : forall y, y < f -> lvl (h' y) = lvl (h y) /\ (lvl (h y) = 0 -> ents (h' y) = ents (h y) /\ ret (h' y) = ret (h y))).
Context (Hn : forall y, f <= y -> y < f' -> lvl (h' y) <> 0).
Context (Hfz : forall y, (exists n lo hi, tp n = Some (y, lo, hi)) -> fz (h' y) = fz (h y)).
Context (Hfd : forall y, dl y = true -> fz (h' y) = fz (h y) \/ fz (h' y) <> Open).
Definition pub n : Prop := sg n = GLo \/ sg n = GDel.
Context (Fwd : forall k y, On h r k y -> lvl (h y) = 0 -> On h' r' k y \/ ret (h y) = true
  \/ exists n lo hi om, tp n = Some (y, lo, hi) /\ pub n /\ On h' r' k (sel leb om lo hi k)).
Context (Rev : forall k y, On h' r' k y -> lvl (h' y) = 0 -> (exists k', On h r k' y /\ On h' r' k' y)
  \/ exists n L lo hi om, tp n = Some (L, lo, hi) /\ pub n /\ On h r k L /\ y = sel leb om lo hi k).

Lemma sel_in om lo hi k : sel leb om lo hi k = lo \/ sel leb om lo hi k = hi.
Proof. unfold sel. destruct om as [m|]; auto. destruct (leb k m); auto. Qed.
Lemma pub_mem n L lo hi y : pub n -> mem L lo hi y -> lmem (sg n) L lo hi y.
Proof. intros [->| ->]; auto. Qed.
Lemma sel_mem n L lo hi om k : pub n -> lmem (sg n) L lo hi (sel leb om lo hi k).
Proof. intros P. apply pub_mem; auto. destruct (sel_in om lo hi k) as [->| ->]; unfold mem; auto. Qed.
Lemma l_leaf y : y < f' -> lvl (h' y) = 0 -> y < f /\ lvl (h y) = 0.
Proof. intros H L. destruct (lt_dec y f) as [A|A]; [destruct (Hl y A); split; congruence|]. exfalso. apply (Hn y); auto. lia. Qed.

Lemma l_move : LInv leb h' f' r' nx dl sg tp.
Proof.
  pose proof (q_blk _ _ _ _ _ _ _ _ LI) as QB.
  constructor.
  - intros y. destruct (He y) as [->| ->]; [apply (q_nd _ _ _ _ _ _ _ _ LI)|constructor].
  - exact (q_inj _ _ _ _ _ _ _ _ LI).
  - exact (q_acy _ _ _ _ _ _ _ _ LI).
  - intros a b E. destruct (q_lt _ _ _ _ _ _ _ _ LI a b E) as (A & B & C & D). destruct (Hl a A). destruct (Hl b B).
    repeat split; try lia; congruence.
  - intros y D. apply (q_dlt _ _ _ _ _ _ _ _ LI) in D. lia.
  - exact (q_bd _ _ _ _ _ _ _ _ LI).
  - intros n L lo hi T. destruct (QB _ _ _ _ T) as [Hn' B]. split; [lia|]. destruct B as [(B1 & B2 & B3) (B4 & B5 & B6) Bn Bf Bg Bx Bd1 Bd2 Bd3 Bl Bc Bs].
    destruct (Hl L B1) as [L1 E1]. destruct (Hl lo B2) as [L2 E2]. destruct (Hl hi B3) as [L3 E3].
    destruct (E1 B4) as [F1 _]. destruct (E2 B5) as [F2 _]. destruct (E3 B6) as [F3 _].
    constructor; auto; try (rewrite F1, F2, F3; auto); try (rewrite F2, F3; auto); try lia.
    + rewrite Hfz; eauto 6.
    + intros G. destruct (Bl G) as [N1 N2].
      assert (forall y, y < f -> lvl (h' y) = 0 -> mem L lo hi y -> ~ Live h r y -> ~ Live h' r' y) as A.
      { intros y Hy Ly My Ny (k & Ok). destruct (Rev k y Ok Ly) as [(k' & O1 & _)|(n' & L' & lo' & hi' & om & T' & P' & _ & ->)].
        - apply Ny. now exists k'.
        - destruct (bd leb h f r nx dl sg tp LI n' n L' lo' hi' L lo hi (sel leb om lo' hi' k)) as (<- & _); auto.
          + eapply lmem_mem. eapply sel_mem; eauto.
          + destruct P' as [P'|P']; destruct G as [G|G]; congruence. }
      split; apply A; auto; try congruence; unfold mem; auto.
  - intros y e Hy Ly Dy Ie. destruct (l_leaf y Hy Ly) as [Hy0 Ly0]. destruct (Hl y Hy0) as [_ E]. destruct (E Ly0) as [Ee _]. rewrite Ee in Ie.
    destruct (q_rz _ _ _ _ _ _ _ _ LI y e Hy0 Ly0 Dy Ie) as (z & Oz & Lz & Iz & Fz).
    pose proof (on_lt leb h f r lg HI _ _ Oz) as Hz. destruct (Hl z Hz) as [Lz' Ez]. destruct (Ez Lz) as [Ez' _].
    destruct (Fwd _ _ Oz Lz) as [O'|[R|(n & lo & hi & om & T & P & O')]].
    + exists z. split; auto. split; [congruence|]. split; [now rewrite Ez'|auto].
    + exfalso. rewrite (w_ret _ _ _ _ (h_wf _ _ _ _ _ HI z Hz) R) in Iz. destruct Iz.
    + destruct (QB _ _ _ _ T) as [Hn' B]. destruct (b_lt _ _ _ _ _ _ _ _ _ _ _ B) as (_ & B2 & B3). destruct (b_lv _ _ _ _ _ _ _ _ _ _ _ B) as (_ & B5 & B6).
      set (z' := sel leb om lo hi (fst e)) in *.
      assert (z' < f /\ lvl (h z') = 0) as [Hz' Lz'']. { unfold z'. destruct (sel_in om lo hi (fst e)) as [->| ->]; auto. }
      destruct (Hl z' Hz') as [M1 M2]. destruct (M2 Lz'') as [M3 _].
      assert (lvl (h' z') = 0) as Lz3 by congruence.
      assert (In e (ents (h z'))) as I'.
      { apply (get_in' leb HO). rewrite <- M3. rewrite (h_abs1 _ _ _ _ _ HI' (fst e) z' O' Lz3).
        rewrite <- (h_abs1 _ _ _ _ _ HI (fst e) z Oz Lz). apply (in_get leb HO); auto. apply (q_nd _ _ _ _ _ _ _ _ LI). }
      exists z'. split; auto. split; auto. split; [now rewrite M3|].
      destruct Fz as [->|(n' & L' & lo' & hi' & T' & D)].
      * right. exists n, z, lo, hi. split; auto. left. split; auto. apply sel_in.
      * destruct (bd leb h f r nx dl sg tp LI n n' z lo hi L' lo' hi' z) as (<- & <- & <- & <-); auto.
        { unfold mem. auto. } { unfold mem. destruct D as [[_ [?|?]]|[? _]]; auto. }
        destruct D as [[-> D]|[_ D]].
        { right. exists n, z, lo, hi. split; auto. left. split; auto. apply sel_in. }
        left. destruct (Nat.eq_dec lo hi) as [El|Nl]. { unfold z'. destruct D as [->| ->]; destruct (sel_in om lo hi (fst e)) as [->| ->]; auto. }
        pose proof (b_sep _ _ _ _ _ _ _ _ _ _ _ B Nl) as S.
        unfold z' in *. destruct (sel_in om lo hi (fst e)) as [Es|Es]; rewrite Es in *; destruct D as [->| ->]; auto; exfalso;
          eapply (klt_irr leb HO (fst e)); apply (S e e); auto.
  - intros k1 k2 z1 z2 w1 w2 L O1 O2 L1 L2 P1 P2.
    destruct (Nat.eq_dec z1 z2) as [->|N]. { left. eapply pt_fun; eauto. }
    assert (forall k z w, On h' r' k z -> lvl (h' z) = 0 -> Pt tp sg z w -> exists k' z', On h r k' z' /\ lvl (h z') = 0 /\ Pt tp sg z' w /\ (k' = k \/ On h' r' k' z)) as S.
    { intros k z w O Lz P. destruct (l_leaf z) as [Hz0 Lz0]; auto. { eapply on_lt; eauto. }
      destruct (Rev k z O Lz) as [(k' & A & B)|(n & L0 & lo & hi & om & T & Q & A & ->)].
      - exists k', z. auto.
      - exists k, L0. destruct (QB _ _ _ _ T) as [_ B]. destruct (b_lv _ _ _ _ _ _ _ _ _ _ _ B) as (B4 & _). split; auto. split; auto. split; auto.
        rewrite (pt_fun leb h f r nx dl sg tp LI _ w hi P). { left. exists n, L0, lo. split; auto. apply pub_mem; auto. unfold mem; auto. }
        left. exists n, L0, lo. split; auto. now apply sel_mem. }
    destruct (S _ _ _ O1 L1 P1) as (k1' & y1 & A1 & B1 & C1 & D1). destruct (S _ _ _ O2 L2 P2) as (k2' & y2 & A2 & B2 & C2 & D2).
    apply (q_ord _ _ _ _ _ _ _ _ LI k1' k2' y1 y2); auto.
    assert (On h' r' k1' z1) as D1' by (destruct D1 as [->|?]; auto). assert (On h' r' k2' z2) as D2' by (destruct D2 as [->|?]; auto).
    eapply (apart h' f' r' lg k1 k1' k2 k2' z1 z2); eauto.
  - intros k y O Ly Dy. destruct (l_leaf y) as [Hy0 Ly0]; auto. { eapply on_lt; eauto. }
    destruct (Hl y Hy0) as [_ E]. destruct (E Ly0) as [_ Er]. rewrite Er.
    destruct (Rev k y O Ly) as [(k' & A & _)|(n & L0 & lo & hi & om & T & Q & A & Es)].
    + exact (q_dl _ _ _ _ _ _ _ _ LI k' y A Ly0 Dy).
    + exfalso. destruct (QB _ _ _ _ T) as [_ B].
      assert (sg n <> GRb1 /\ sg n <> GRb2) as [N1 N2] by (destruct Q as [->| ->]; split; discriminate).
      destruct (sel_in om lo hi k) as [E'|E']; rewrite E' in Es; subst y.
      * rewrite (b_dlo _ _ _ _ _ _ _ _ _ _ _ B N2) in Dy. discriminate.
      * rewrite (b_dhi _ _ _ _ _ _ _ _ _ _ _ B N1 N2) in Dy. discriminate.
  - intros y Dy Ly. assert (y < f) as Hy by (now apply (q_dlt _ _ _ _ _ _ _ _ LI)). destruct (Hl y Hy) as [El E].
    assert (lvl (h y) = 0) as Ly0 by congruence. destruct (E Ly0) as [_ ->]. destruct (Hfd y Dy) as [->|?]; auto. now apply (q_dfz _ _ _ _ _ _ _ _ LI).
Qed.
End two.
