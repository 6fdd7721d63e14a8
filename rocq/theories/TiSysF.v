(** New leaves, writes to leaves, and the operations on the list keep the invariant of the list. *)
From Coq Require Import List Arith Bool Lia.
From Verif Require Import TcModel TcRoute TcSpec TcInv TcTree TcFrame TcKeep TcJobs TcSplit TcFrz TcMove TcGrow TcFz TcFzs TcExt TcSys TiModel TiInv TiConv TiList TiMove TiBlk TiPush TiStep TiSysA TiSysB TiSysC TiSysD TiSysE.
Import ListNotations.

Section sysf.
Context {K V : Type} (leb : K -> K -> bool) (HO : tord leb).
Notation heap := (nat -> obj K V).
Notation On := (On leb).
Notation Live := (Live leb).
Notation klt := (klt leb).
Notation HInv := (HInv leb).
Notation SJ := (SJ leb).
Notation nxt := (nxt leb).
Context (h : heap) (f : nat) (r : option nat) (nx : nat -> option nat) (dl : nat -> bool) (sg : nat -> stg) (S : SJ h f r nx dl sg)
  (lg : list (ev K V)) (HI : HInv h f r lg) (FI : FInv h f).
Notation tp := (tpf h sg).
Notation LI := (s_l _ _ _ _ _ _ _ S).

Lemma sj_newleaf x w : Live h r x -> lvl (h x) = 1 -> ub (h x) = UNull ->
  let h1 := upd h f (leaf0 [] Open w) in
  SJ (upd h1 x (set_ub (h1 x) (UTo f))) (Datatypes.S f) r nx dl sg.
Proof.
  intros Lv L1 Hu h1. pose proof (proj1 (ok_newleaf leb h f r lg HI FI x w Lv L1 Hu)) as HI'. cbv zeta in HI'. fold h1 in HI'.
  match goal with |- SJ ?x _ _ _ _ _ => set (h' := x) end. change (HInv h' (Datatypes.S f) r lg) in HI'.
  pose proof (live_lt leb h f r lg HI x Lv) as Hx. assert (x <> f) as Nf by lia.
  pose proof (s_un _ _ _ _ _ _ _ S x Hx L1 Hu) as Hr.
  assert (h' x = set_ub (h x) (UTo f)) as A1 by (unfold h', h1; now rewrite upd_eq, upd_ne).
  assert (h' f = leaf0 [] Open w) as A2 by (unfold h', h1; rewrite upd_ne by auto; apply upd_eq).
  assert (forall y, y <> f -> y <> x -> h' y = h y) as A3 by (intros; unfold h', h1; now rewrite !upd_ne).
  clearbody h'. clear h1.
  assert (h f = blank) as Bf by (apply FI; lia).
  assert (lvl (h' f) = 0 /\ ents (h' f) = [] /\ jb (h' f) = Idle /\ ub (h' f) = UNull /\ cells (h' f) = []) as (F1 & F2 & F3 & F4 & F5) by (rewrite A2; repeat split; auto).
  assert (forall y, y <> f -> lvl (h' y) = lvl (h y) /\ ents (h' y) = ents (h y) /\ ret (h' y) = ret (h y) /\ fz (h' y) = fz (h y) /\ jb (h' y) = jb (h y)) as Q.
  { intros y Ny. destruct (Nat.eq_dec y x) as [->|Nx]; [rewrite A1|rewrite A3 by auto]; repeat split; auto. }
  assert (forall k, nxt h x k = None) as N1.
  { intros k. apply (ub_nil leb h f r lg HI x k Hx). rewrite Hu. discriminate. }
  assert (forall k y, On h r k y -> y = x) as O1.
  { intros k y O. induction O as [q Hq|u z _ IH Hz]; [congruence|]. subst u. rewrite N1 in Hz. discriminate. }
  assert (forall k y, On h' r k y -> y = x \/ y = f) as O2.
  { intros k y O. induction O as [q Hq|u z _ IH Hz]; [left; congruence|]. unfold TcInv.nxt, TcRoute.nx in Hz.
    assert (cells (h x) = []) as Ec by (apply (w_ub _ _ _ _ (h_wf _ _ _ _ _ HI x Hx)); rewrite Hu; discriminate).
    destruct IH as [->| ->].
    - rewrite pos_rts, A1 in Hz. cbn in Hz. rewrite Ec in Hz. cbn in Hz. right. congruence.
    - rewrite pos_rts, F5 in Hz. cbn in Hz. rewrite F4 in Hz. discriminate. }
  assert (forall n, tpf h' sg n = tp n) as To.
  { intros n. destruct (Nat.eq_dec n f) as [->|Ny]; [unfold tpf; now rewrite F1, Bf|]. destruct (Q n Ny) as (B1 & _ & _ & _ & B2). now apply tp_ext. }
  assert (LInv leb h' (Datatypes.S f) r nx dl sg tp) as LI'.
  { apply (l_first leb h f r nx dl sg tp LI h' (Datatypes.S f) f); auto; try lia.
    - intros y Hy. destruct (Q y) as (B1 & B2 & B3 & _); [lia|auto].
    - intros y Hy _. destruct (Q y) as (_ & _ & _ & B & _); [lia|auto].
    - intros y. destruct (Nat.eq_dec y f) as [->|Ny]; [rewrite F2; constructor|]. destruct (Q y Ny) as (_ & -> & _). apply LI.
    - intros k y O. rewrite (O1 k y O). lia.
    - intros k y O Ly. destruct (O2 k y O) as [->|]; auto. destruct (Q x Nf). lia. }
  assert (forall n L lo hi y, tp n = Some (L, lo, hi) -> mem L lo hi y -> y <> f) as Nm.
  { intros n L lo hi y T M. destruct (blk leb h f r nx dl sg S _ _ _ _ T) as [_ B]. destruct (b_lt _ _ _ _ _ _ _ _ _ _ _ B) as (B1 & B2 & B3). destruct M as [->|[->| ->]]; lia. }
  constructor.
  - apply (l_ext leb h' _ r nx dl sg tp LI'); auto.
  - intros n. destruct (Nat.eq_dec n f) as [->|Ny].
    + rewrite F1. cbn. apply (g0_not1 leb h f r nx dl sg S). rewrite Bf. discriminate.
    + destruct (Q n Ny) as (-> & _ & _ & _ & ->). apply S.
  - intros n L lo hi T C. rewrite To in T. assert (n <> f) as Ny. { intros ->. unfold tpf in T. rewrite Bf in T. discriminate. }
    destruct (Q n Ny) as (_ & _ & _ & _ & E). rewrite E in C. 
    assert (lo <> f /\ hi <> f) as [N2 N3] by (split; eapply Nm; eauto; unfold mem; auto).
    destruct (Q lo N2) as (_ & -> & _). destruct (Q hi N3) as (_ & -> & _). now apply (s_ne _ _ _ _ _ _ _ S n L).
  - intros n o c m lo hi b Ln J. assert (n <> f) as Ny by congruence. destruct (Q n Ny) as (E1 & _ & _ & _ & E2). rewrite E1 in Ln. rewrite E2 in J.
    destruct (s_in _ _ _ _ _ _ _ S _ _ _ _ _ _ _ Ln J) as [Hk _].
    assert (tp n = Some (c, lo, hi)) as T by (eapply tp_of; eauto; rewrite J; reflexivity).
    destruct (blk leb h f r nx dl sg S _ _ _ _ T) as [_ B]. destruct (b_lt _ _ _ _ _ _ _ _ _ _ _ B) as (B1 & B2 & B3). destruct (b_lv _ _ _ _ _ _ _ _ _ _ _ B) as (B4 & B5 & B6).
    split.
    + destruct (Nat.eq_dec n x) as [->|Nx]; [|now rewrite A3].
      exfalso. unfold kids in Hk. rewrite Hu in Hk. rewrite (w_ub _ _ _ _ (h_wf _ _ _ _ _ HI x Hx)) in Hk by (rewrite Hu; discriminate). destruct Hk.
    + intros k1 k2 P1 _. exfalso. destruct (O2 _ _ P1) as [->| ->]; lia.
  - intros k y O Ly D. exfalso. pose proof (q_dlt _ _ _ _ _ _ _ _ LI y D). destruct (O2 _ _ O) as [->| ->]; [|lia]. destruct (Q x Nf). lia.
  - intros n L lo hi T. rewrite To in T. now apply (s_rb _ _ _ _ _ _ _ S n L).
  - intros n c lo hi lns i Ln J. assert (n <> f) as Ny by congruence. destruct (Q n Ny) as (E1 & _ & _ & _ & E2). rewrite E1 in Ln. rewrite E2 in J.
    now apply (s_cm _ _ _ _ _ _ _ S n c lo hi lns i).
  - intros z Hz Lz Uz. destruct (Nat.eq_dec z f) as [->|Nz]; [lia|]. destruct (Nat.eq_dec z x) as [->|Nx]; auto.
    rewrite A3 in Lz, Uz by auto. apply (s_un _ _ _ _ _ _ _ S); auto. lia.
Qed.

Lemma sj_write l k0 es b : On h r k0 l -> lvl (h l) = 0 -> fz (h l) = Open -> ret (h l) = false ->
  (forall e, In e es -> In e (ents (h l)) \/ fst e = k0) -> NoDup (map fst es) ->
  SJ (upd h l (set_ents (h l) es b)) f r nx dl sg.
Proof.
  intros O0 L0 Fo Rt He Nd. pose proof (on_lt leb h f r lg HI _ _ O0) as Hl.
  match goal with |- SJ ?x _ _ _ _ _ => set (h' := x) end.
  assert (h' l = set_ents (h l) es b) as A1 by (unfold h'; apply upd_eq).
  assert (forall y, y <> l -> h' y = h y) as A2 by (intros; unfold h'; apply upd_ne; auto). clearbody h'.
  assert (forall y, lvl (h' y) = lvl (h y) /\ jb (h' y) = jb (h y) /\ kids (h' y) = kids (h y) /\ fz (h' y) = fz (h y)
    /\ (forall o, ptr (h' y) o = ptr (h y) o) /\ ub (h' y) = ub (h y) /\ forall k, nxt h' y k = nxt h y k) as Q.
  { intros y. destruct (Nat.eq_dec y l) as [->|Ny]; [unfold TcInv.nxt; rewrite A1|unfold TcInv.nxt; rewrite A2 by auto]; repeat split; auto. }
  assert (forall k y, On h' r k y <-> On h r k y) as Oi.
  { intros k y. split; intros O; induction O as [q Hq|u z Hu IH Hz]; try (now constructor); eapply On_step; eauto;
      destruct (Q u) as (_ & _ & _ & _ & _ & _ & E); rewrite E in *; auto. }
  assert (forall n, tpf h' sg n = tp n) as To.
  { intros n. destruct (Q n) as (B1 & B2 & _). now apply tp_ext. }
  assert (forall n L lo hi, tp n = Some (L, lo, hi) -> mem L lo hi l -> exists o m, jb (h n) = Ins o L m lo hi true /\ l = lo /\ over (h n) = false /\ ~ Live h r hi) as Ol.
  { intros n L lo hi T M. apply (open_live leb HO h f r nx dl sg S lg HI FI n L lo hi l); auto. now exists k0. }
  assert (LInv leb h' f r nx dl sg tp) as LI'.
  { apply (l_write leb h f r nx dl sg tp LI h' l k0); auto.
    - destruct (Q l) as (-> & _). auto.
    - destruct (Q l) as (_ & _ & _ & -> & _). auto.
    - rewrite A1. cbn. auto.
    - rewrite A1. auto.
    - intros n L lo hi T M. destruct (Ol n L lo hi T M) as (o & m & J & -> & On0 & Dh).
      destruct (tp_inv _ _ _ _ _ _ T) as [L1 _].
      assert (sg n = GDel) as G. { pose proof (s_g _ _ _ _ _ _ _ S n) as G. rewrite L1, J in G. exact G. }
      split; auto. intros Nlh. split; auto. intros e Ie.
      destruct (blk leb h f r nx dl sg S _ _ _ _ T) as [_ B]. destruct (b_lt _ _ _ _ _ _ _ _ _ _ _ B) as (B1 & B2 & B3).
      destruct (b_lv _ _ _ _ _ _ _ _ _ _ _ B) as (B4 & B5 & B6). destruct (b_ne _ _ _ _ _ _ _ _ _ _ _ B) as [N1 N2].
      assert (dl hi = false) as Dl by (apply (pub_dl leb h f r nx dl sg S n L lo hi); auto; now right).
      destruct (q_rz _ _ _ _ _ _ _ _ LI hi e B3 B6 Dl Ie) as (z & Oz & Lz & _ & [<-|(n' & L' & lo' & hi' & T' & D)]); [exfalso; apply Dh; now exists (fst e)|].
      assert (mem L' lo' hi' hi) as M' by (unfold mem; intuition).
      destruct (bd leb h f r nx dl sg tp LI n n' L lo hi L' lo' hi' hi) as (<- & <- & <- & <-); auto; [unfold mem; auto|].
      assert (z = L) as -> by (clear -D N2; intuition congruence).
      destruct (s_in _ _ _ _ _ _ _ S _ _ _ _ _ _ _ L1 J) as [_ Sp]. now apply Sp. }
  constructor.
  - apply (l_ext leb h' _ r nx dl sg tp LI'); auto.
  - intros n. destruct (Q n) as (-> & -> & _). apply S.
  - intros n L lo hi T C. rewrite To in T. destruct (Q n) as (_ & E & _). rewrite E in C.
    assert (forall y, mem L lo hi y -> y <> l) as Nl.
    { intros y M ->. destruct (Ol n L lo hi T M) as (o & m & J & _). rewrite J in C. exact C. }
    rewrite (A2 lo), (A2 hi) by (apply Nl; unfold mem; auto). now apply (s_ne _ _ _ _ _ _ _ S n L).
  - intros n o c m lo hi b' Ln J. destruct (Q n) as (E1 & E2 & E3 & _). rewrite E1 in Ln. rewrite E2 in J. rewrite E3.
    destruct (s_in _ _ _ _ _ _ _ S _ _ _ _ _ _ _ Ln J) as [Hk Sp]. split; auto. intros k1 k2 P1 P2. apply Sp; now apply Oi.
  - intros k y O Ly D. apply Oi in O. destruct (Q y) as (E & _). rewrite E in Ly.
    destruct (s_rd _ _ _ _ _ _ _ S k y O Ly D) as [(n & lo & hi & T & G)|(p & o & Hp & G & P)].
    + left. exists n, lo, hi. rewrite To. auto.
    + right. exists p, o. destruct (Q p) as (_ & _ & _ & _ & -> & _). auto.
  - intros n L lo hi T. rewrite To in T. now apply (s_rb _ _ _ _ _ _ _ S n L).
  - intros n c lo hi lns i Ln J. destruct (Q n) as (E1 & E2 & _). rewrite E1 in Ln. rewrite E2 in J. now apply (s_cm _ _ _ _ _ _ _ S n c lo hi lns i).
  - intros z Hz Lz Uz. destruct (Q z) as (E1 & _ & _ & _ & _ & E2 & _). apply (s_un _ _ _ _ _ _ _ S); congruence.
Qed.

(** ** Operations on the list *)
Section lst.
Context (nx' : nat -> option nat) (dl' : nat -> bool) (n : nat) (g : stg).
Notation sg' := (upd sg n g).
Lemma sj_lst : LInv leb h f r nx' dl' sg' (tpf h sg') -> stgok (lvl (h n)) (jb (h n)) g ->
  (tpf h sg' n = tp n \/ tpf h sg' n = None) ->
  (forall y, dl y = true -> dl' y = true) ->
  (forall k y, On h r k y -> lvl (h y) = 0 -> dl' y = true -> dl y = true
    \/ (exists n lo hi, tpf h sg' n = Some (y, lo, hi) /\ sg' n = GDel) \/ exists p o, p < f /\ sg' p = GRet o /\ ptr (h p) o = Some y) ->
  sg n <> GDel -> (forall o, sg n <> GRet o) ->
  (forall L lo hi, tpf h sg' n = Some (L, lo, hi) -> (g = GRb1 -> dl' hi = true) /\ (g = GRb2 -> dl' lo = true /\ dl' hi = true)) ->
  (forall m c lo hi lns i, lvl (h m) = 1 -> jb (h m) = Commit c lo hi lns i ->
    (i = 0 -> dl lo = false -> dl' lo = false) /\ (i <= 1 -> dl hi = false -> dl' hi = false)) ->
  SJ h f r nx' dl' sg'.
Proof.
  intros LI' Ok Tn Dm Rd Nd Nr Rb Cm.
  assert (forall m, m <> n -> sg' m = sg m) as Es by (intros; now apply upd_ne).
  assert (forall m, m <> n -> tpf h sg' m = tp m) as To by (intros; apply tp_ext; auto).
  constructor; auto.
  - intros m. destruct (Nat.eq_dec m n) as [->|Nm]; [now rewrite upd_eq|rewrite Es by auto; apply S].
  - intros m L lo hi T C. apply (s_ne _ _ _ _ _ _ _ S m L); auto. destruct (Nat.eq_dec m n) as [->|Nm]; [destruct Tn; congruence|]. now rewrite <- To.
  - apply S.
  - intros k y O Ly D. destruct (Rd k y O Ly D) as [D'|?]; auto.
    destruct (s_rd _ _ _ _ _ _ _ S k y O Ly D') as [(m & lo & hi & T & G)|(p & o & Hp & G & P)].
    + left. exists m, lo, hi. assert (m <> n) as Nm by congruence. rewrite To, Es; auto.
    + right. exists p, o. assert (p <> n) as Nm by (intros ->; eapply Nr; eauto). rewrite Es; auto.
  - intros m L lo hi T. destruct (Nat.eq_dec m n) as [->|Nm]; [rewrite upd_eq; eauto|].
    rewrite Es by auto. rewrite To in T by auto. destruct (s_rb _ _ _ _ _ _ _ S m L lo hi T) as [A B]. split; auto.
    intros G. destruct (B G). auto.
  - intros m c lo hi lns i Lm J. destruct (s_cm _ _ _ _ _ _ _ S m c lo hi lns i Lm J) as [A B]. destruct (Cm m c lo hi lns i Lm J) as [A' B'].
    split; auto.
  - apply S.
Qed.
End lst.
Lemma cm_hold m c lo hi lns i : lvl (h m) = 1 -> jb (h m) = Commit c lo hi lns i -> (i = 0 -> fz (h lo) = Hold m) /\ (i <= 1 -> fz (h hi) = Hold m).
Proof.
  intros L J. assert (m < f) as Hm by (apply (lvl1_lt h f FI); lia).
  pose proof (h_fz _ _ _ _ _ HI m Hm L) as F. rewrite J in F. tauto.
Qed.
Lemma cm_keep d : (forall m, fz (h d) = Hold m -> forall c lo hi lns i, jb (h m) <> Commit c lo hi lns i) ->
  forall m c lo hi lns i, lvl (h m) = 1 -> jb (h m) = Commit c lo hi lns i ->
    (i = 0 -> dl lo = false -> upd dl d true lo = false) /\ (i <= 1 -> dl hi = false -> upd dl d true hi = false).
Proof.
  intros Hd m c lo hi lns i L J. destruct (cm_hold _ _ _ _ _ _ L J) as [A B].
  split; intros Hi D; rewrite upd_ne; auto; intros <-; eapply Hd; eauto.
Qed.
Lemma tp_full n o c om lo hi g : lvl (h n) = 1 -> jv (jb (h n)) = Some (o, c, om, lo, hi) -> forall m, tpf h (upd sg n g) m = tp m.
Proof.
  intros L J m. destruct (Nat.eq_dec m n) as [->|Nm]; [|apply tp_ext; auto; now apply upd_ne].
  now rewrite (tp_of h sg n _ _ _ _ _ L J), (tp_of h _ n _ _ _ _ _ L J).
Qed.
Lemma tp_lock n g : jv (jb (h n)) = None -> (forall c lo hi lns i, jb (h n) <> Commit c lo hi lns i) -> forall m, tpf h (upd sg n g) m = tp m.
Proof.
  intros J N m. destruct (Nat.eq_dec m n) as [->|Nm]; [|apply tp_ext; auto; now apply upd_ne].
  unfold tpf. destruct (_ =? _); auto. destruct (jb (h n)); cbn in *; try discriminate; auto. exfalso. eapply N; eauto.
Qed.
Lemma sj_push1 n o c om lo hi g : lvl (h n) = 1 -> jv (jb (h n)) = Some (o, c, om, lo, hi) -> sg n = G0 ->
  stgok (lvl (h n)) (jb (h n)) g -> g = GHi /\ lo <> hi \/ g = GLo /\ lo = hi -> SJ h f r (nx' nx c hi) dl (upd sg n g).
Proof.
  intros L J G Ok D. pose proof (tp_full n o c om lo hi g L J) as To.
  pose proof (tp_of h sg n _ _ _ _ _ L J) as T.
  apply sj_lst; auto; try (rewrite G; discriminate).
  - apply (l_ext leb h f r _ dl (upd sg n g) tp); auto. apply (l_push1 leb h f r nx dl sg tp LI n c lo hi T g G D).
  - intros. destruct D as [[-> _]|[-> _]]; split; discriminate.
Qed.
Lemma sj_push2 n o c om lo hi : lvl (h n) = 1 -> jv (jb (h n)) = Some (o, c, om, lo, hi) -> sg n = GHi ->
  stgok (lvl (h n)) (jb (h n)) GLo -> SJ h f r (nx' nx c lo) dl (upd sg n GLo).
Proof.
  intros L J G Ok. pose proof (tp_full n o c om lo hi GLo L J) as To.
  pose proof (tp_of h sg n _ _ _ _ _ L J) as T.
  apply sj_lst; auto; try (rewrite G; discriminate).
  - apply (l_ext leb h f r _ dl (upd sg n GLo) tp); auto. apply (l_push2 leb h f r nx dl sg tp LI n c lo hi T G).
  - intros. split; discriminate.
Qed.
Lemma sj_delo n o c om lo hi : lvl (h n) = 1 -> jv (jb (h n)) = Some (o, c, om, lo, hi) -> sg n = GLo ->
  stgok (lvl (h n)) (jb (h n)) GDel -> SJ h f r nx (upd dl c true) (upd sg n GDel).
Proof.
  intros L J G Ok. pose proof (tp_full n o c om lo hi GDel L J) as To.
  pose proof (tp_of h sg n _ _ _ _ _ L J) as T. destruct (blk leb h f r nx dl sg S _ _ _ _ T) as [_ B].
  pose proof (b_fz _ _ _ _ _ _ _ _ _ _ _ B) as Fc.
  apply sj_lst; auto; try (rewrite G; discriminate).
  - apply (l_ext leb h f r _ (upd dl c true) (upd sg n GDel) tp); auto. apply (l_del leb h f r nx dl sg tp LI n c lo hi T GDel c); [auto|discriminate].
  - intros y D. unfold upd. now destruct (_ =? _).
  - intros k y O Ly. unfold upd at 1. destruct (Nat.eqb_spec y c) as [->|]; auto. intros _. right. left. exists n, lo, hi. rewrite To, upd_eq. auto.
  - intros. split; discriminate.
  - apply cm_keep. congruence.
Qed.
Lemma sj_delc n c lo hi lns : lvl (h n) = 1 -> jb (h n) = Commit c lo hi lns 0 -> sg n = GLo -> SJ h f r nx (upd dl c true) (upd sg n GDel).
Proof.
  intros L J G. assert (tp n = Some (c, lo, hi)) as T by (unfold tpf; now rewrite L, J, G).
  assert (tpf h (upd sg n GDel) n = None) as T'. { unfold tpf. rewrite L, J, upd_eq. reflexivity. }
  destruct (blk leb h f r nx dl sg S _ _ _ _ T) as [Hn B].
  pose proof (b_fz _ _ _ _ _ _ _ _ _ _ _ B) as Fc. destruct (b_lv _ _ _ _ _ _ _ _ _ _ _ B) as (B4 & B5 & B6). destruct (b_lt _ _ _ _ _ _ _ _ _ _ _ B) as (B1 & B2 & B3).
  destruct (cm_hold _ _ _ _ _ _ L J) as [F1 F2]. specialize (F1 eq_refl). specialize (F2 (Nat.le_0_l 1)).
  assert (forall x, x < f -> lvl (h x) = 0 -> fz (h x) = Hold n -> over (h x) = false) as No.
  { intros x Hx Lx Fx. destruct (over (h x)) eqn:E; auto. destruct (w_over0 _ _ _ _ (h_wf _ _ _ _ _ HI x Hx) E Lx). congruence. }
  assert (~ Live h r c) as Dc.
  { apply (over_dead leb h f r lg HI c n); auto; [|now rewrite J].
    destruct (f_orig _ _ FI c n B4 Fc) as [?|(? & ? & ? & ? & J')]; auto. rewrite J in J'. discriminate. }
  apply sj_lst; auto; try (rewrite G; discriminate).
  - assert (LInv leb h f r nx (upd dl c true) (upd sg n GDel) tp) as LD by (apply (l_del leb h f r nx dl sg tp LI n c lo hi T GDel c); [auto|discriminate]).
    apply (l_end leb HO h f r nx _ _ tp LD n c lo hi T); auto.
    + left. rewrite upd_eq. split; auto. split; auto. intros k1 k2 O1 O2 Nlh.
      destruct (s_ne _ _ _ _ _ _ _ S n c lo hi T) as (E1 & E2 & _); [now rewrite J|].
      destruct (ents (h lo)) as [|e1 es1] eqn:El; [tauto|]. destruct (ents (h hi)) as [|e2 es2] eqn:Eh; [tauto|].
      assert (On h r (fst e1) lo) as P1.
      { apply (h_ent _ _ _ _ _ HI); [now exists k1|rewrite El; now left|]. rewrite (w_wlo _ _ _ _ (h_wf _ _ _ _ _ HI lo B2)); [exact Logic.I|auto]. }
      assert (On h r (fst e2) hi) as P2.
      { apply (h_ent _ _ _ _ _ HI); [now exists k2|rewrite Eh; now left|]. rewrite (w_wlo _ _ _ _ (h_wf _ _ _ _ _ HI hi B3)); [exact Logic.I|auto]. }
      apply (apart leb HO h f r lg (fst e1) k1 (fst e2) k2 lo hi HI); auto.
      apply (b_sep _ _ _ _ _ _ _ _ _ _ _ B Nlh); [rewrite El|rewrite Eh]; now left.
    + intros m Nm. apply tp_ext; auto. now apply upd_ne.
  - rewrite L, J. cbn. auto.
  - intros y D. unfold upd. now destruct (_ =? _).
  - intros k y O Ly. unfold upd at 1. destruct (Nat.eqb_spec y c) as [->|]; auto. intros _. exfalso. apply Dc. now exists k.
  - intros. split; discriminate.
  - apply cm_keep. congruence.
Qed.
Lemma sj_rbhi n o c m lo hi lns : lvl (h n) = 1 -> jb (h n) = Full o c m lo hi None lns -> sg n = GLo -> SJ h f r nx (upd dl hi true) (upd sg n GRb1).
Proof.
  intros L J G. assert (jv (jb (h n)) = Some (o, c, Some m, lo, hi)) as Jv by now rewrite J.
  pose proof (tp_full n o c (Some m) lo hi GRb1 L Jv) as To. pose proof (tp_of h sg n _ _ _ _ _ L Jv) as T.
  destruct (blk leb h f r nx dl sg S _ _ _ _ T) as [Hn B]. assert (lvl (h n) <> 0) as Ln by lia.
  pose proof (h_fz _ _ _ _ _ HI n Hn L) as F. rewrite J in F. destruct F as [F1 F2].
  assert (over (h n) = false) as On0.
  { destruct (over (h n)) eqn:E; auto. destruct (w_over1 _ _ _ _ (h_wf _ _ _ _ _ HI n Hn) E Ln) as [_ X]. now rewrite J in X. }
  destruct (half_dead leb HO h f r lg HI FI n o c m lo hi Ln Jv) as [D1 D2]; [now rewrite J|auto|].
  assert (lo <> hi) as Nlh by (apply (h_hld _ _ _ _ _ HI _ _ _ _ _ _ Hn Jv); discriminate).
  apply sj_lst; auto; try (rewrite G; discriminate).
  - apply (l_ext leb h f r _ (upd dl hi true) (upd sg n GRb1) tp); auto. apply (l_del leb h f r nx dl sg tp LI n c lo hi T GRb1 hi); auto.
    right. left. repeat split; auto. congruence.
  - rewrite L, J. cbn. auto.
  - intros y D. unfold upd. now destruct (_ =? _).
  - intros k y O Ly. unfold upd at 1. destruct (Nat.eqb_spec y hi) as [->|]; auto. intros _. exfalso. apply D2. now exists k.
  - intros L' lo' hi' T'. rewrite To, T in T'. injection T' as <- <- <-. rewrite upd_eq. split; [auto|discriminate].
  - apply cm_keep. congruence.
Qed.
Lemma sj_rblo n o c m lo hi lns : lvl (h n) = 1 -> jb (h n) = Full o c m lo hi None lns -> sg n = GRb1 -> SJ h f r nx (upd dl lo true) (upd sg n GRb2).
Proof.
  intros L J G. assert (jv (jb (h n)) = Some (o, c, Some m, lo, hi)) as Jv by now rewrite J.
  pose proof (tp_full n o c (Some m) lo hi GRb2 L Jv) as To. pose proof (tp_of h sg n _ _ _ _ _ L Jv) as T.
  destruct (blk leb h f r nx dl sg S _ _ _ _ T) as [Hn B]. assert (lvl (h n) <> 0) as Ln by lia.
  pose proof (h_fz _ _ _ _ _ HI n Hn L) as F. rewrite J in F. destruct F as [F1 F2].
  assert (over (h n) = false) as On0.
  { destruct (over (h n)) eqn:E; auto. destruct (w_over1 _ _ _ _ (h_wf _ _ _ _ _ HI n Hn) E Ln) as [_ X]. now rewrite J in X. }
  destruct (half_dead leb HO h f r lg HI FI n o c m lo hi Ln Jv) as [D1 D2]; [now rewrite J|auto|].
  apply sj_lst; auto; try (rewrite G; discriminate).
  - apply (l_ext leb h f r _ (upd dl lo true) (upd sg n GRb2) tp); auto. apply (l_del leb h f r nx dl sg tp LI n c lo hi T GRb2 lo); auto; try discriminate.
    right. right. repeat split; auto. congruence.
  - rewrite L, J. cbn. auto.
  - intros y D. unfold upd. now destruct (_ =? _).
  - intros k y O Ly. unfold upd at 1. destruct (Nat.eqb_spec y lo) as [->|]; auto. intros _. exfalso. apply D1. now exists k.
  - intros L' lo' hi' T'. rewrite To, T in T'. injection T' as <- <- <-. rewrite upd_eq. split; [discriminate|]. intros _. split; auto.
    unfold upd. destruct (_ =? _); auto. destruct (s_rb _ _ _ _ _ _ _ S n _ _ _ T) as [X _]. auto.
  - apply cm_keep. congruence.
Qed.
Lemma gum_1 n c : sg n = GUm c -> lvl (h n) = 1 /\ jb (h n) = Locked.
Proof.
  intros G. pose proof (s_g _ _ _ _ _ _ _ S n) as G'. rewrite G in G'. unfold stgok in G'.
  destruct (lvl (h n)) as [|[|]]; try discriminate. split; auto.
  destruct (jb (h n)) as [| | | | | |? ? ? ? ? [|]|? ? ? ? ? [|] ?|? ? ? ? [|]|]; auto; repeat (destruct G' as [G'|G']; try discriminate); try discriminate; contradiction.
Qed.
Lemma sj_unm n c : sg n = GUm c -> SJ h f r nx dl (upd sg n G0).
Proof.
  intros G. destruct (gum_1 n c G) as [L J].
  assert (forall m, tpf h (upd sg n G0) m = tp m) as To by (apply tp_lock; rewrite J; [reflexivity|discriminate]).
  apply sj_lst; auto; try (rewrite G; discriminate).
  - apply (l_ext leb h f r _ dl sg tp); auto; [apply S|]. intros m. destruct (Nat.eq_dec m n) as [->|Nm]; [left|right; now apply upd_ne].
    unfold tpf. now rewrite L, J.
  - rewrite L, J. cbn. auto.
  - intros. split; discriminate.
Qed.
Lemma sj_delr n o c : lvl (h n) = 1 -> jb (h n) = Locked -> sg n = G0 -> ptr (h n) o = Some c -> ret (h c) = true ->
  SJ h f r nx (upd dl c true) (upd sg n (GRet o)).
Proof.
  intros L J G P R.
  assert (forall m, tpf h (upd sg n (GRet o)) m = tp m) as To by (apply tp_lock; rewrite J; [reflexivity|discriminate]).
  destruct (lk_free leb HO h f r nx dl sg S lg HI FI n o c J L P) as ((k & Lv) & Fc & Nb).
  assert (n < f) as Hn by (apply (lvl1_lt h f FI); lia).
  apply sj_lst; auto; try (rewrite G; discriminate).
  - apply (l_ext leb h f r _ (upd dl c true) sg tp); auto.
    + apply (l_ret leb h f r nx dl sg tp LI c); auto. eapply on_lt; eauto.
    + intros m. destruct (Nat.eq_dec m n) as [->|Nm]; [left|right; now apply upd_ne]. unfold tpf. now rewrite L, J.
  - rewrite L, J. cbn. eauto.
  - intros y D. unfold upd. now destruct (_ =? _).
  - intros k' y O Ly. unfold upd at 1. destruct (Nat.eqb_spec y c) as [->|]; auto. intros _. right. right. exists n, o. rewrite upd_eq. auto.
  - intros. split; discriminate.
  - apply cm_keep. congruence.
Qed.
End sysf.
