(** Steps that freeze leaves, or make or unlock leaf nodes, keep [FInv]. *)
From Coq Require Import List Arith Bool Lia.
From Verif Require Import TcModel TcRoute TcSpec TcInv TcTree TcFrame TcKeep TcJobs TcSplit TcFrz TcMove TcGrow TcFz.
Import ListNotations.

Section fzs.
Context {K V : Type} (leb : K -> K -> bool) (HO : tord leb).
Notation heap := (nat -> obj K V).
Notation HInv := (HInv leb).
Context (h : heap) (f : nat) (r : option nat) (lg : list (ev K V)) (HI : HInv h f r lg) (FI : FInv h f).

Lemma jb_lt y : jb (h y) <> Idle -> y < f.
Proof. intros N. destruct (Nat.lt_ge_cases y f); auto. destruct N. now rewrite (f_blank _ _ FI). Qed.
Lemma kids_lt y u : In u (kids (h y)) -> y < f /\ u < f.
Proof.
  intros I. assert (y < f) as Hy.
  { destruct (Nat.lt_ge_cases y f); auto. rewrite (f_blank _ _ FI) in I by auto. destruct I. }
  split; auto. now apply (w_kids _ _ _ _ (h_wf _ _ _ _ _ HI y Hy)).
Qed.
Lemma fp_own n u : fp (jb (h n)) u -> own (h u) = n /\ u < f /\ n < f.
Proof.
  intros P. assert (n < f) as Hn by (apply jb_lt; intros E; now rewrite E in P).
  assert (forall o c om lo hi, jv (jb (h n)) = Some (o, c, om, lo, hi) -> u = lo \/ u = hi -> own (h u) = n /\ u < f /\ n < f) as Q.
  { intros o c om lo hi Jv U. pose proof (h_hld _ _ _ _ _ HI _ _ _ _ _ _ Hn Jv) as L.
    destruct U as [-> | ->]; repeat split; auto; apply L. }
  destruct (jb (h n)) as [| | | |o c lo|o c m lo hi|o c m lo hi th|o c m lo hi tk lns| |] eqn:J; cbn in P; try contradiction;
    (eapply Q; [reflexivity|tauto]).
Qed.
Lemma commit_own y c lo hi lns i : lvl (h y) = 1 -> jb (h y) = Commit c lo hi lns i ->
  own (h lo) = y /\ own (h hi) = y.
Proof.
  intros L1 J. assert (y < f) as Hy by (apply jb_lt; congruence).
  pose proof (h_fz _ _ _ _ _ HI y Hy L1) as F. rewrite J in F. tauto.
Qed.
Lemma need_new y a : In a (need (jb (h y))) -> jb (h a) = NewLk /\ a < f.
Proof. intros A. destruct (f_need _ _ FI y a A) as [N _]. split; auto. apply jb_lt. congruence. Qed.

(** A commit unlocks a new leaf node. *)
Lemma fs_free (h' : heap) n c lo hi a b i z : jb (h n) = Commit c lo hi (Some (a, b)) i -> lvl (h n) = 1 ->
  (i = 2 /\ z = a \/ i = 3 /\ z = b) ->
  h' n = set_jb (Commit c lo hi (Some (a, b)) (S i)) (h n) -> h' z = set_jb Idle (h z) ->
  (forall y, y <> n -> y <> z -> h' y = h y) -> FInv h' f.
Proof.
  intros J L1 Hi En Ez Eo.
  assert (In z (need (jb (h n)))) as Iz. { rewrite J. destruct Hi as [[-> ->]|[-> ->]]; cbn; auto. }
  destruct (f_need _ _ FI n z Iz) as [Nz Kz]. destruct (need_new n z Iz) as [_ Hz].
  assert (n < f) as Hn by (apply jb_lt; congruence).
  assert (z <> n) as Ne by congruence.
  pose proof (f_nd _ _ FI n) as Nd.
  assert (forall y, lvl (h' y) = lvl (h y) /\ fz (h' y) = fz (h y) /\ kids (h' y) = kids (h y) /\ ub (h' y) = ub (h y)
    /\ over (h' y) = over (h y) /\ jv (jb (h' y)) = jv (jb (h y))) as S0.
  { intros y. destruct (Nat.eq_dec y n) as [->|A]; [rewrite En; cbn; rewrite J; repeat split; auto|].
    destruct (Nat.eq_dec y z) as [->|B]; [rewrite Ez; cbn; rewrite Nz; repeat split; auto|].
    rewrite Eo; repeat split; auto. }
  assert (forall y, y <> n -> y <> z -> jb (h' y) = jb (h y)) as Sj by (intros; now rewrite Eo).
  assert (jb (h' z) = Idle) as Jz by now rewrite Ez.
  assert (jb (h' n) = Commit c lo hi (Some (a, b)) (S i)) as Jn by now rewrite En.
  assert (forall L, In L (kids (h z)) -> ~ bad (fz (h L)) /\ forall m, lvl (h m) = 1 -> ~ fp (jb (h m)) L) as Q.
  { intros L I. destruct (commit_own n _ _ _ _ _ L1 J) as [O1 O2].
    destruct (f_stage _ _ FI n _ _ _ _ _ L1 J) as [S1 S2]. specialize (S1 ltac:(lia)). specialize (S2 ltac:(lia)).
    destruct (Kz L I) as [E|E].
    - rewrite J in E. assert (own (h L) = n) as Ol by (destruct E as [-> | ->]; auto). split.
      + destruct E as [-> | ->]; auto.
      + intros m Lm P. destruct (fp_own m L P) as (Pm & _). rewrite Ol in Pm. rewrite <- Pm, J in P. destruct P.
    - split.
      + intros B. destruct (f_hold _ _ FI n L L1 E B) as [X|(? & ? & ? & ? & X)]; congruence.
      + intros m Lm P. destruct (f_priv _ _ FI m L n Lm P E) as [X _]. congruence. }
  assert (forall y d, In d (need (jb (h' y))) -> In d (need (jb (h y))) /\ d <> z) as Hd.
  { intros y d I. destruct (Nat.eq_dec y n) as [->|A].
    - rewrite Jn in I. rewrite J in *. destruct Hi as [[-> ->]|[-> ->]]; cbn in *; [|destruct I].
      inversion Nd; subst. cbn in *. destruct I as [<-|[]]. split; auto; intros ->; tauto.
    - destruct (Nat.eq_dec y z) as [->|B]; [rewrite Jz in I; destruct I|].
      rewrite Sj in I by auto. split; auto. intros ->. apply A. eapply (f_disj _ _ FI); eauto. }
  assert (forall y u, jh (jb (h y)) u -> jh (jb (h' y)) u) as Hj.
  { intros y u. destruct (Nat.eq_dec y n) as [->|A]; [rewrite Jn, J; auto|].
    destruct (Nat.eq_dec y z) as [->|B]; [rewrite Nz; intros []|]. rewrite Sj; auto. }
  constructor.
  - intros y Hy. rewrite Eo by lia. now apply (f_blank _ _ FI).
  - intros L m. destruct (S0 L) as (-> & -> & _ & _ & -> & _). destruct (S0 m) as (_ & _ & _ & _ & _ & ->).
    apply (f_orig _ _ FI).
  - intros m L. destruct (S0 m) as (-> & _ & -> & _). destruct (S0 L) as (_ & -> & _). intros Lm I B.
    destruct (Nat.eq_dec m z) as [->|A]; [destruct (Q L I); tauto|].
    destruct (f_hold _ _ FI m L Lm I B) as [X|(o1 & c1 & m1 & h1 & X)];
      (destruct (Nat.eq_dec m n) as [->|A']; [congruence|]); rewrite Sj; eauto 10.
  - intros m u y. destruct (S0 m) as (-> & _). destruct (S0 y) as (_ & _ & -> & _). intros Lm P I.
    assert (m <> n) as Mn by (intros ->; rewrite Jn in P; destruct P).
    assert (m <> z) as Mz by (intros ->; rewrite Jz in P; destruct P).
    rewrite (Sj m) in P |- * by auto. destruct (Nat.eq_dec y z) as [->|A].
    { exfalso. destruct (Q u I) as [_ X]. eapply X; eauto. }
    destruct (f_priv _ _ FI m u y Lm P I). split; auto. rewrite Sj; auto. congruence.
  - intros y d I. destruct (Hd y d I) as [I0 N]. destruct (f_need _ _ FI y d I0) as [X Y]. split.
    + rewrite Sj; auto. congruence.
    + intros u. destruct (S0 d) as (_ & _ & -> & _). destruct (S0 y) as (_ & _ & -> & _). intros U.
      destruct (Y u U); auto.
  - intros y1 y2 d A B. apply Hd in A as [A _]. apply Hd in B as [B _]. eapply (f_disj _ _ FI); eauto.
  - intros y. destruct (Nat.eq_dec y n) as [->|A].
    + rewrite Jn. destruct Hi as [[-> _]|[-> _]]; cbn; repeat constructor. intros [].
    + destruct (Nat.eq_dec y z) as [->|B]; [rewrite Jz; constructor|]. rewrite Sj by auto. apply (f_nd _ _ FI).
  - intros y c1 lo1 hi1 lns1 i1. destruct (S0 y) as (-> & _). intros Ly Jy.
    destruct (S0 lo1) as (_ & -> & _). destruct (S0 hi1) as (_ & -> & _).
    destruct (Nat.eq_dec y n) as [->|A].
    + rewrite Jn in Jy. injection Jy as <- <- <- <- <-. destruct (f_stage _ _ FI n _ _ _ _ _ L1 J) as [S1 S2].
      split; intros _; [apply S1|apply S2]; lia.
    + destruct (Nat.eq_dec y z) as [->|B]; [congruence|]. rewrite Sj in Jy by auto. eapply (f_stage _ _ FI); eauto.
  - intros m o1 c1 m1 lo1 hi1 Jm. destruct (S0 m) as (-> & _). destruct (Nat.eq_dec m n) as [->|A]; [congruence|].
    destruct (Nat.eq_dec m z) as [->|B]; [congruence|]. rewrite Sj in Jm by auto. eapply (f_thaw _ _ FI); eauto.
  - intros m Jm. destruct (S0 m) as (_ & _ & _ & -> & _). destruct (Nat.eq_dec m n) as [->|A]; [congruence|].
    destruct (Nat.eq_dec m z) as [->|B]; [congruence|]. rewrite Sj in Jm by auto. eapply (f_new _ _ FI); eauto.
Qed.

(** The list of children is full. *)
Lemma fs_full (h' : heap) n o c m lo hi : jb (h n) = Split o c m lo hi ->
  h' n = set_jb (Full o c m lo hi None None) (h n) ->
  (forall y, y <> n -> y <> hi -> h' y = h y) ->
  (lvl (h n) = 1 -> h' hi = set_fz (Hold n) (h hi)) -> (lvl (h n) <> 1 -> h' hi = h hi) -> FInv h' f.
Proof.
  intros J En Eo E1 E2. assert (n < f) as Hn by (apply jb_lt; congruence).
  assert (jv (jb (h n)) = Some (o, c, Some m, lo, hi)) as Jv by now rewrite J.
  pose proof (h_hld _ _ _ _ _ HI _ _ _ _ _ _ Hn Jv) as L0.
  destruct (jv_c_lt leb h f r lg HI _ _ _ _ _ _ Hn Jv) as [_ Lc].
  pose proof (l_hi _ _ _ _ _ _ _ _ _ L0) as Hhi. pose proof (l_lvhi _ _ _ _ _ _ _ _ _ L0) as Lhi.
  assert (hi <> n) as Nhi by (intros ->; lia).
  assert (own (h hi) = n) as Ohi by apply L0.
  assert (forall y, lvl (h' y) = lvl (h y) /\ kids (h' y) = kids (h y) /\ ub (h' y) = ub (h y)
    /\ over (h' y) = over (h y) /\ jv (jb (h' y)) = jv (jb (h y)) /\ (y <> n -> jb (h' y) = jb (h y))) as S0.
  { intros y. destruct (Nat.eq_dec y n) as [->|A]; [rewrite En; cbn; rewrite J; repeat split; auto; tauto|].
    destruct (Nat.eq_dec y hi) as [->|B]; [|rewrite Eo; repeat split; auto].
    destruct (Nat.eq_dec (lvl (h n)) 1) as [X|X]; [rewrite E1|rewrite E2]; repeat split; auto. }
  assert (forall y, fz (h' y) = fz (h y) \/ y = hi /\ lvl (h n) = 1 /\ fz (h' y) = Hold n) as Sf.
  { intros y. destruct (Nat.eq_dec y n) as [->|A]; [rewrite En; auto|].
    destruct (Nat.eq_dec y hi) as [->|B]; [|rewrite Eo; auto].
    destruct (Nat.eq_dec (lvl (h n)) 1) as [X|X]; [rewrite E1|rewrite E2]; auto. }
  assert (jb (h' n) = Full o c m lo hi None None) as Jn by now rewrite En.
  assert (forall y, need (jb (h' y)) = need (jb (h y))) as Sn.
  { intros y. destruct (Nat.eq_dec y n) as [->|A]; [now rewrite Jn, J|]. now rewrite (proj2 (proj2 (proj2 (proj2 (proj2 (S0 y)))))). }
  constructor.
  - intros y Hy. rewrite Eo by lia. now apply (f_blank _ _ FI).
  - intros L q. destruct (S0 L) as (-> & _ & _ & -> & _). destruct (S0 q) as (_ & _ & _ & _ & -> & _).
    intros L1 F. apply (f_orig _ _ FI); auto. destruct (Sf L) as [E|(_ & _ & E)]; congruence.
  - intros q L. destruct (S0 q) as (-> & -> & _ & _ & _ & Sq). intros Lq I B.
    destruct (Sf L) as [E|(-> & X & _)].
    + rewrite E in B. destruct (f_hold _ _ FI q L Lq I B) as [X|(o1 & c1 & m1 & h1 & X)];
        rewrite Sq by congruence; eauto 10.
    + exfalso. destruct (f_priv _ _ FI n hi q X) as [_ Y]; auto; rewrite J in *; cbn; auto.
  - intros q u y. destruct (S0 q) as (-> & _ & _ & _ & _ & Sq). destruct (S0 y) as (_ & -> & _ & _ & _ & Sy).
    intros Lq P I. destruct (Nat.eq_dec q n) as [->|A].
    + exfalso. destruct (f_priv _ _ FI n u y Lq) as [_ Y]; auto; [rewrite Jn in P; rewrite J; exact P|].
      rewrite J in Y. exact Y.
    + rewrite Sq in * by auto. destruct (f_priv _ _ FI q u y Lq P I) as [X Y]. split; auto. rewrite Sy; congruence.
  - intros y d. rewrite Sn. intros I. destruct (f_need _ _ FI y d I) as [X Y].
    destruct (S0 d) as (_ & -> & _ & _ & _ & Sd). destruct (S0 y) as (_ & -> & _ & _ & _ & Sy).
    split; [rewrite Sd; congruence|]. intros u U. destruct (Y u U) as [Z|Z]; auto.
    left. destruct (Nat.eq_dec y n) as [->|A]; [rewrite J in Z; destruct Z|]. now rewrite Sy.
  - intros y1 y2 d. rewrite !Sn. apply (f_disj _ _ FI).
  - intros y. rewrite Sn. apply (f_nd _ _ FI).
  - intros y c1 lo1 hi1 lns1 i1. destruct (S0 y) as (-> & _ & _ & _ & _ & Sy). intros Ly Jy.
    assert (y <> n) as Ne by (intros ->; congruence). rewrite Sy in Jy by auto.
    destruct (commit_own y _ _ _ _ _ Ly Jy) as [O1 O2].
    destruct (f_stage _ _ FI y _ _ _ _ _ Ly Jy) as [S1 S2].
    destruct (Sf lo1) as [->|(-> & _)]; [|congruence]. destruct (Sf hi1) as [->|(-> & _)]; [|congruence]. auto.
  - intros q o1 c1 m1 lo1 hi1 Jq. destruct (S0 q) as (-> & _ & _ & _ & _ & Sq).
    rewrite Sq in Jq by congruence. eapply (f_thaw _ _ FI); eauto.
  - intros q Jq. destruct (S0 q) as (_ & _ & -> & _ & _ & Sq). rewrite Sq in Jq by congruence. now apply (f_new _ _ FI).
Qed.

(** A rollback. *)
Lemma fs_roll (h' : heap) n o c m lo hi lns : jb (h n) = Full o c m lo hi None lns ->
  h' n = set_jb Locked (h n) ->
  (lvl (h n) = 1 -> (forall y, y <> n -> y <> c -> y <> lo -> y <> hi -> h' y = h y)
    /\ h' c = set_fz Open (h c) /\ h' lo = set_fz Gone (h lo) /\ h' hi = set_fz Gone (h hi)) ->
  (lvl (h n) <> 1 -> (forall y, y <> n -> y <> c -> h' y = h y)
    /\ exists o' c' m' low' high' lns', jb (h c) = Full o' c' m' low' high' (Some n) lns'
       /\ h' c = set_jb (Full o' c' m' low' high' None lns') (h c)) ->
  FInv h' f.
Proof.
  intros J En E1 E2. assert (n < f) as Hn by (apply jb_lt; congruence).
  assert (jv (jb (h n)) = Some (o, c, Some m, lo, hi)) as Jv by now rewrite J.
  pose proof (h_hld _ _ _ _ _ HI _ _ _ _ _ _ Hn Jv) as L0.
  destruct (jv_c_lt leb h f r lg HI _ _ _ _ _ _ Hn Jv) as [Hc Lc].
  pose proof (l_hi _ _ _ _ _ _ _ _ _ L0) as Hhi. pose proof (l_lvhi _ _ _ _ _ _ _ _ _ L0) as Lhi.
  pose proof (l_lo _ _ _ _ _ _ _ _ _ L0) as Hlo. pose proof (l_lvlo _ _ _ _ _ _ _ _ _ L0) as Llo.
  assert (own (h hi) = n) as Ohi by apply L0. assert (own (h lo) = n) as Olo by apply L0.
  assert (hi <> n) as Nhi by (intros ->; lia). assert (lo <> n) as Nlo by (intros ->; lia).
  assert (c <> n) as Nc by (intros ->; lia).
  assert (jb (h' n) = Locked) as Jn by now rewrite En.
  assert (forall y, lvl (h' y) = lvl (h y) /\ kids (h' y) = kids (h y) /\ ub (h' y) = ub (h y)
    /\ over (h' y) = over (h y) /\ (f <= y -> h' y = h y)
    /\ (y <> n -> (jv (jb (h' y)) = jv (jb (h y))) /\ (fp (jb (h' y)) = fp (jb (h y)))
         /\ (isFull (jb (h y)) -> isFull (jb (h' y)))
         /\ (jb (h' y) = jb (h y) \/ need (jb (h' y)) = [] /\ isFull (jb (h y)) /\ isFull (jb (h' y))))) as S0.
  { intros y. destruct (Nat.eq_dec (lvl (h n)) 1) as [X|X].
    - destruct (E1 X) as (Eo & Ec & El & Eh). destruct (Nat.eq_dec y n) as [->|A]; [rewrite En; cbn; repeat split; auto; lia|].
      destruct (Nat.eq_dec y c) as [->|B]; [rewrite Ec; cbn; repeat split; auto; lia|].
      destruct (Nat.eq_dec y lo) as [->|C]; [rewrite El; cbn; repeat split; auto; lia|].
      destruct (Nat.eq_dec y hi) as [->|D]; [rewrite Eh; cbn; repeat split; auto; lia|].
      rewrite Eo; repeat split; auto.
    - destruct (E2 X) as (Eo & o' & c' & m' & l' & h1 & lns' & Jc & Ec).
      destruct (Nat.eq_dec y n) as [->|A]; [rewrite En; cbn; repeat split; auto; lia|].
      destruct (Nat.eq_dec y c) as [->|B]; [rewrite Ec, Jc; cbn; repeat split; auto; lia|].
      rewrite Eo; repeat split; auto. }
  assert (forall y, fz (h' y) = fz (h y) \/ lvl (h n) = 1 /\ (y = c /\ fz (h' y) = Open \/ (y = lo \/ y = hi) /\ fz (h' y) = Gone)) as Sf.
  { intros y. destruct (Nat.eq_dec (lvl (h n)) 1) as [X|X].
    - destruct (E1 X) as (Eo & Ec & El & Eh). destruct (Nat.eq_dec y n) as [->|A]; [rewrite En; auto|].
      destruct (Nat.eq_dec y c) as [->|B]; [rewrite Ec; cbn; auto 10|].
      destruct (Nat.eq_dec y lo) as [->|C]; [rewrite El; cbn; auto 10|].
      destruct (Nat.eq_dec y hi) as [->|D]; [rewrite Eh; cbn; auto 10|].
      rewrite Eo; auto.
    - destruct (E2 X) as (Eo & o' & c' & m' & l' & h1 & lns' & Jc & Ec).
      destruct (Nat.eq_dec y n) as [->|A]; [rewrite En; auto|].
      destruct (Nat.eq_dec y c) as [->|B]; [rewrite Ec; auto|]. rewrite Eo; auto. }
  assert (forall y, y <> n -> ~ isFull (jb (h' y)) -> jb (h' y) = jb (h y)) as Sj.
  { intros y A F. destruct (S0 y) as (_ & _ & _ & _ & _ & X). destruct (X A) as (_ & _ & _ & [Y|Y]); tauto. }
  assert (forall y, y <> n -> ~ isFull (jb (h y)) -> jb (h' y) = jb (h y)) as Sj2.
  { intros y A F. destruct (S0 y) as (_ & _ & _ & _ & _ & X). destruct (X A) as (_ & _ & _ & [Y|Y]); tauto. }
  assert (forall y, need (jb (h' y)) = [] \/ y <> n /\ jb (h' y) = jb (h y)) as Sn.
  { intros y. destruct (Nat.eq_dec y n) as [->|A]; [rewrite Jn; auto|].
    destruct (S0 y) as (_ & _ & _ & _ & _ & X). destruct (X A) as (_ & _ & _ & [Y|Y]); tauto. }
  constructor.
  - intros y Hy. destruct (S0 y) as (_ & _ & _ & _ & E & _). rewrite E by auto. now apply (f_blank _ _ FI).
  - intros L q. destruct (S0 L) as (-> & _ & _ & -> & _). intros L1 F.
    assert (fz (h L) = Orig q) as F0 by (destruct (Sf L) as [E|(_ & [[_ E]|[_ E]])]; congruence).
    destruct (f_orig _ _ FI L q L1 F0) as [X|(o1 & om1 & lo1 & hi1 & X)]; auto.
    destruct (Nat.eq_dec q n) as [->|A].
    + rewrite Jv in X. injection X as <- <- <- <- <-. exfalso.
      destruct (Nat.eq_dec (lvl (h n)) 1) as [Y|Y]; [|lia]. destruct (E1 Y) as (_ & Ec & _).
      rewrite Ec in F. discriminate.
    + right. destruct (S0 q) as (_ & _ & _ & _ & _ & Y). destruct (Y A) as (-> & _). eauto.
  - intros q L. destruct (S0 q) as (-> & -> & _). intros Lq I B.
    destruct (Sf L) as [E|(X & [[_ E]|[H _]])].
    + rewrite E in B. destruct (f_hold _ _ FI q L Lq I B) as [X|(o1 & c1 & m1 & h1 & X)];
        (rewrite Sj2; [eauto 10|congruence|rewrite X; auto]).
    + rewrite E in B. destruct B.
    + left. destruct (f_priv _ _ FI n L q X) as [Y _]; auto; [rewrite J; exact H|].
      rewrite Sj2; auto; [congruence|rewrite Y; auto].
  - intros q u y. destruct (S0 q) as (-> & _ & _ & _ & _ & Y). destruct (S0 y) as (_ & -> & _).
    intros Lq P I. assert (q <> n) as A by (intros ->; rewrite Jn in P; destruct P).
    destruct (Y A) as (_ & Ef & Fu & _). rewrite Ef in P. destruct (f_priv _ _ FI q u y Lq P I) as [X Z].
    split; [|now apply Fu]. rewrite Sj2; auto; [congruence|rewrite X; auto].
  - intros y d I. destruct (Sn y) as [E|[A E]]; [rewrite E in I; destruct I|]. rewrite E in *.
    destruct (f_need _ _ FI y d I) as [X Y]. destruct (S0 d) as (_ & -> & _). destruct (S0 y) as (_ & -> & _).
    split; auto. rewrite Sj2; auto; [congruence|rewrite X; auto].
  - intros y1 y2 d I1 I2. destruct (Sn y1) as [E|[A E]]; [rewrite E in I1; destruct I1|].
    destruct (Sn y2) as [E'|[A' E']]; [rewrite E' in I2; destruct I2|]. rewrite E in I1. rewrite E' in I2.
    eapply (f_disj _ _ FI); eauto.
  - intros y. destruct (Sn y) as [E|[A E]]; rewrite E; [constructor|]. apply (f_nd _ _ FI).
  - intros y c1 lo1 hi1 lns1 i1. destruct (S0 y) as (-> & _). intros Ly Jy.
    assert (y <> n) as Ne by (intros ->; congruence). rewrite Sj in Jy; auto; [|rewrite Jy; auto].
    destruct (commit_own y _ _ _ _ _ Ly Jy) as [O1 O2].
    destruct (f_stage _ _ FI y _ _ _ _ _ Ly Jy) as [S1 S2].
    assert (forall z, own (h z) = y -> ~ bad (fz (h z)) -> ~ bad (fz (h' z))) as Q.
    { intros z Oz Bz. destruct (Sf z) as [->|(_ & [[_ E]|[[-> | ->] _]])]; auto; [rewrite E; auto|congruence|congruence]. }
    split; auto.
  - intros q o1 c1 m1 lo1 hi1 Jq. destruct (S0 q) as (-> & _).
    rewrite Sj in Jq; [|congruence|rewrite Jq; auto]. eapply (f_thaw _ _ FI); eauto.
  - intros q Jq. destruct (S0 q) as (_ & _ & -> & _). rewrite Sj in Jq; [|congruence|rewrite Jq; auto].
    now apply (f_new _ _ FI).
Qed.

(** A leaf is frozen and its halves are made. *)
Lemma fs_frz (h' : heap) f' n c o j : jb (h n) = Locked -> lvl (h n) = 1 -> ptr (h n) o = Some c ->
  fz (h c) = Open -> c <> n ->
  h' n = set_jb j (h n) -> h' c = set_fz (Orig n) (h c) ->
  (forall y, y < f -> y <> n -> y <> c -> h' y = h y) ->
  (forall y, f' <= y -> h' y = blank) -> f <= f' ->
  (forall y, f <= y < f' -> exists es z, h' y = leaf0 es z n /\ forall q, z <> Orig q) ->
  (exists om lo hi, jv j = Some (o, c, om, lo, hi) /\ isIns j = false) -> (forall u, fp j u -> f <= u) ->
  ~ isFull j -> FInv h' f'.
Proof.
  intros J L1 Hp Fc Nc En Ec Eo Eb Hf Enew (om & lo & hi & Jv & Is) Hfp Nfu.
  assert (n < f) as Hn by (apply jb_lt; congruence).
  assert (In c (kids (h n))) as Ic by (eapply in_kids; eauto). destruct (kids_lt n c Ic) as [_ Hc].
  assert (forall y, y < f -> lvl (h' y) = lvl (h y) /\ kids (h' y) = kids (h y) /\ ub (h' y) = ub (h y)
    /\ over (h' y) = over (h y) /\ (y <> n -> jb (h' y) = jb (h y)) /\ (y <> c -> fz (h' y) = fz (h y))) as S0.
  { intros y Hy. destruct (Nat.eq_dec y n) as [->|A]; [rewrite En; repeat split; auto; tauto|].
    destruct (Nat.eq_dec y c) as [->|B]; [rewrite Ec; repeat split; auto; tauto|]. rewrite Eo; repeat split; auto. }
  assert (forall y, f <= y -> kids (h' y) = [] /\ jb (h' y) = Idle /\ lvl (h' y) = 0 /\ forall q, fz (h' y) <> Orig q) as Sn.
  { intros y Hy. destruct (Nat.lt_ge_cases y f') as [A|A].
    - destruct (Enew y) as (es & z & -> & Q); auto.
    - rewrite Eb; auto. repeat split; auto. discriminate. }
  assert (jb (h' n) = j) as Jn by now rewrite En.
  assert (forall y u, In u (kids (h' y)) -> In u (kids (h y)) /\ y < f /\ u < f) as Sk.
  { intros y u I. destruct (Nat.lt_ge_cases y f) as [A|A].
    - destruct (S0 y A) as (_ & E & _). rewrite E in I. destruct (kids_lt _ _ I). auto.
    - destruct (Sn y A) as (E & _). rewrite E in I. destruct I. }
  assert (forall y, y <> n -> jb (h' y) = jb (h y)) as Sj.
  { intros y A. destruct (Nat.lt_ge_cases y f) as [B|B]; [now apply S0|].
    destruct (Sn y B) as (_ & -> & _). now rewrite (f_blank _ _ FI). }
  assert (need j = [] /\ j <> NewLk /\ (forall o1 c1 m1 lo1 hi1 th, j <> Ins o1 c1 m1 lo1 hi1 th)
    /\ forall c1 lo1 hi1 lns i, j <> Commit c1 lo1 hi1 lns i) as (Nj1 & Nj2 & Nj3 & Nj4).
  { destruct j; try discriminate; repeat split; auto; try discriminate. destruct Nfu. exact Logic.I. }
  assert (forall y, need (jb (h' y)) = need (jb (h y))) as Sne.
  { intros y. destruct (Nat.eq_dec y n) as [->|A]; [now rewrite Jn, J|]. now rewrite Sj. }
  constructor.
  - exact Eb.
  - intros L q Ll F. destruct (Nat.lt_ge_cases L f) as [A|A].
    + destruct (S0 L A) as (E & _ & _ & Eov & _ & Ef). rewrite E in Ll. rewrite Eov.
      destruct (Nat.eq_dec L c) as [->|B].
      * rewrite Ec in F. injection F as <-. right. rewrite Jn. eauto.
      * rewrite Ef in F by auto. destruct (f_orig _ _ FI L q Ll F) as [X|(o1 & om1 & lo1 & hi1 & X)]; auto.
        right. rewrite Sj; eauto. intros ->. rewrite J in X. discriminate.
    + destruct (Sn L A) as (_ & _ & _ & E). now apply E in F.
  - intros q L Lq I B. destruct (Sk q L I) as (I0 & Hq & HL). destruct (S0 q Hq) as (E & _). rewrite E in Lq.
    assert (L <> c) as NL by (intros ->; rewrite Ec in B; destruct B).
    destruct (S0 L HL) as (_ & _ & _ & _ & _ & Ef). rewrite Ef in B by auto.
    destruct (f_hold _ _ FI q L Lq I0 B) as [X|(o1 & c1 & m1 & h1 & X)]; rewrite Sj by congruence; eauto 10.
  - intros q u y Lq P I. destruct (Sk y u I) as (I0 & Hy & Hu). destruct (Nat.eq_dec q n) as [->|A].
    + rewrite Jn in P. apply Hfp in P. lia.
    + rewrite (Sj q) in * by auto.
      assert (q < f) as Hq by (apply jb_lt; intros E; rewrite E in P; destruct P).
      destruct (S0 q Hq) as (E & _). rewrite E in Lq.
      destruct (f_priv _ _ FI q u y Lq P I0). split; auto. rewrite Sj; congruence.
  - intros y d. rewrite Sne. intros I. destruct (f_need _ _ FI y d I) as [X Y].
    split; [rewrite Sj; congruence|]. intros u U. apply Sk in U as (U & Hd & _). destruct (Y u U) as [Z|Z].
    + left. rewrite Sj; auto. intros ->. rewrite J in Z. destruct Z.
    + right. destruct (kids_lt y u Z) as [Hy _]. destruct (S0 y Hy) as (_ & -> & _). auto.
  - intros y1 y2 d. rewrite !Sne. apply (f_disj _ _ FI).
  - intros y. rewrite Sne. apply (f_nd _ _ FI).
  - intros y c1 lo1 hi1 lns1 i1 Ly Jy. assert (y <> n) as Ne by (intros ->; rewrite Jn in Jy; now apply Nj4 in Jy).
    rewrite Sj in Jy by auto. assert (y < f) as Hy by (apply jb_lt; congruence).
    destruct (S0 y Hy) as (E & _). rewrite E in Ly. destruct (f_stage _ _ FI y _ _ _ _ _ Ly Jy) as [S1 S2].
    pose proof (w_commit _ _ _ _ (h_wf _ _ _ _ _ HI y Hy)) as W. rewrite Jy in W. destruct W as ((_ & Hlo & Hhi) & _).
    assert (forall z, z < f -> ~ bad (fz (h z)) -> ~ bad (fz (h' z))) as Q.
    { intros z Hz Bz. destruct (Nat.eq_dec z c) as [->|B]; [rewrite Ec; auto|].
      destruct (S0 z Hz) as (_ & _ & _ & _ & _ & Ef). now rewrite Ef. }
    split; auto.
  - intros q o1 c1 m1 lo1 hi1 Jq. assert (q <> n) as Ne by (intros ->; rewrite Jn in Jq; now apply Nj3 in Jq).
    rewrite Sj in Jq by auto. assert (q < f) as Hq by (apply jb_lt; congruence).
    destruct (S0 q Hq) as (-> & _). eapply (f_thaw _ _ FI); eauto.
  - intros q Jq. assert (q <> n) as Ne by (intros ->; congruence). rewrite Sj in Jq by auto.
    assert (q < f) as Hq by (apply jb_lt; congruence). destruct (S0 q Hq) as (_ & _ & -> & _). now apply (f_new _ _ FI).
Qed.

(** A full child is taken up. *)
Lemma fs_take (h' : heap) n c o o1 c1 m1 lo1 hi1 lns1 lns2 b mid xl xh :
  jb (h n) = Locked -> ptr (h n) o = Some c -> lvl (h c) <> 0 ->
  jb (h c) = Full o1 c1 m1 lo1 hi1 None lns1 ->
  build (h c) o1 m1 lo1 hi1 b n = Some (mid, xl, xh) ->
  lns2 = match lvl (h c) with 1 => Some (f, S f) | _ => None end ->
  h' c = set_jb (Full o1 c1 m1 lo1 hi1 (Some n) lns2) (h c) ->
  h' n = set_jb (Split o c mid f (S f)) (h n) ->
  h' f = xl -> h' (S f) = xh ->
  (forall y, y <> f -> y <> S f -> y <> n -> y <> c -> h' y = h y) ->
  FInv h' (S (S f)).
Proof.
  intros Jn Hp Lc Jc Hb El2 Ec En Ef Eg Eo.
  assert (n < f) as Hn by (apply jb_lt; congruence).
  pose proof (lk_c leb h f r lg HI n c o Hn Hp) as [Hc Lnc]. assert (lvl (h n) <> 0) as Ln by lia.
  pose proof (lk_cover leb HO h f r lg HI n c o Hn Jn Ln Hp) as Oc.
  assert (c <> n) as Ncn by (intros ->; lia).
  assert (jv (jb (h c)) = Some (o1, c1, Some m1, lo1, hi1)) as Jv by now rewrite Jc.
  pose proof (h_hld _ _ _ _ _ HI _ _ _ _ _ _ Hc Jv) as L.
  assert (isIns (jb (h c)) = false) as Is by now rewrite Jc.
  pose proof (h_wf _ _ _ _ _ HI c Hc) as W.
  pose proof (l_ptr _ _ _ _ _ _ _ _ _ L) as Hp1.
  destruct (build_spec leb HO (h c) o1 m1 lo1 hi1 b n c1 mid xl xh) as
    ((es1 & d1 & Exl) & (es2 & d2 & Exh) & _ & _ & _ & _ & Hk & _); auto.
  { apply W. } { eapply (kid_ub leb h f r lg HI c c1 Hc), in_kids; eauto. }
  { apply (l_pos _ _ _ _ _ _ _ _ _ L Is). auto. }
  { eapply mid_notkey; eauto. } { eapply (jv_nd leb h f r lg HI c); eauto. }
  { apply (l_lok _ _ _ _ _ _ _ _ _ L Is). } { apply L. } { apply L. congruence. }
  assert (forall y, y < f -> lvl (h' y) = lvl (h y) /\ kids (h' y) = kids (h y) /\ ub (h' y) = ub (h y)
    /\ over (h' y) = over (h y) /\ fz (h' y) = fz (h y) /\ (y <> n -> y <> c -> jb (h' y) = jb (h y))) as S0.
  { intros y Hy. destruct (Nat.eq_dec y n) as [->|A]; [rewrite En; repeat split; auto; tauto|].
    destruct (Nat.eq_dec y c) as [->|B]; [rewrite Ec; repeat split; auto; tauto|]. rewrite Eo by lia; repeat split; auto. }
  set (j := match lvl (h c) with 1 => NewLk | _ => Idle end : job K) in *.
  assert (forall y, y = f \/ y = S f -> lvl (h' y) = lvl (h c) /\ fz (h' y) = Open /\ jb (h' y) = j
    /\ (exists u, ub (h' y) = UTo u) /\ forall u, In u (kids (h' y)) -> (u = lo1 \/ u = hi1) \/ In u (kids (h c))) as Sw.
  { intros y [-> | ->]; [rewrite Ef|rewrite Eg].
    - assert (forall u, In u (kids xl) -> (u = lo1 \/ u = hi1) \/ In u (kids (h c))) as Q.
      { intros u I. destruct (Hk u (or_introl I)); tauto. }
      rewrite Exl in *. cbn. repeat split; eauto.
    - assert (forall u, In u (kids xh) -> (u = lo1 \/ u = hi1) \/ In u (kids (h c))) as Q.
      { intros u I. destruct (Hk u (or_intror I)); tauto. }
      rewrite Exh in *. cbn. repeat split; eauto. }
  assert (forall y, S (S f) <= y -> h' y = blank) as Sb by (intros; rewrite Eo by lia; apply (f_blank _ _ FI); lia).
  assert (jb (h' n) = Split o c mid f (S f)) as Jn' by now rewrite En.
  assert (jb (h' c) = Full o1 c1 m1 lo1 hi1 (Some n) lns2) as Jc' by now rewrite Ec.
  assert (own (h lo1) = c) as Ol by apply L. assert (own (h hi1) = c) as Oh by apply L.
  assert (forall y, y < f \/ (y = f \/ y = S f) \/ S (S f) <= y) as D3 by lia.
  assert (forall y, y < f -> y <> n -> y <> c -> jb (h' y) = jb (h y)) as Sj by (intros; now apply S0).
  assert (forall y, jb (h' y) = j -> ~ jb (h' y) = j -> False) as _ by auto.
  assert (forall y d, In d (need (jb (h' y))) -> y = c /\ lvl (h c) = 1 /\ (d = f \/ d = S f)
      \/ y <> c /\ y <> n /\ y < f /\ In d (need (jb (h y)))) as Sn.
  { intros y d I. destruct (D3 y) as [A|[A|A]].
    - destruct (Nat.eq_dec y n) as [->|B]; [rewrite Jn' in I; destruct I|].
      destruct (Nat.eq_dec y c) as [->|C]; [|rewrite Sj in I by auto; auto].
      left. rewrite Jc', El2 in I. destruct (lvl (h c)) as [|[|]]; cbn in I; try tauto.
      split; auto. split; auto. destruct I as [<-|[<-|[]]]; auto.
    - destruct (Sw y A) as (_ & _ & E & _). rewrite E in I. unfold j in I. destruct (lvl (h c)) as [|[|]]; destruct I.
    - rewrite Sb in I by auto. destruct I. }
  constructor.
  - exact Sb.
  - intros M q M0 F. destruct (D3 M) as [A|[A|A]].
    + destruct (S0 M A) as (E1 & _ & _ & E2 & E3 & _). rewrite E1 in M0. rewrite E3 in F. rewrite E2.
      destruct (f_orig _ _ FI M q M0 F) as [X|(p1 & p2 & p3 & p4 & X)]; auto. right.
      destruct (Nat.eq_dec q n) as [->|B]; [rewrite Jn in X; discriminate|].
      destruct (Nat.eq_dec q c) as [->|C]; [rewrite Jc'; rewrite Jc in X; eauto|].
      assert (q < f) as Hq by (apply jb_lt; intros E; rewrite E in X; discriminate). rewrite Sj; eauto.
    + destruct (Sw M A) as (_ & E & _). congruence.
    + rewrite Sb in F by auto. discriminate.
  - intros q M Lq I B. destruct (D3 q) as [A|[A|A]].
    + destruct (S0 q A) as (E1 & E2 & _). rewrite E1 in Lq. rewrite E2 in I. destruct (kids_lt q M I) as [_ HM].
      destruct (S0 M HM) as (_ & _ & _ & _ & E3 & _). rewrite E3 in B.
      destruct (f_hold _ _ FI q M Lq I B) as [X|(p1 & p2 & p3 & p4 & X)]; rewrite Sj by congruence; eauto 10.
    + left. destruct (Sw q A) as (E1 & _ & -> & _). unfold j. rewrite E1 in Lq. now rewrite Lq.
    + rewrite Sb in I by auto. destruct I.
  - intros q u y Lq P I.
    assert (q <> n) as Qn. { intros ->. destruct (S0 n Hn) as (E & _). lia. }
    assert (q < f) as Hq.
    { destruct (D3 q) as [A|[A|A]]; auto.
      - destruct (Sw q A) as (_ & _ & E & _). rewrite E in P. unfold j in P. destruct (lvl (h c)) as [|[|]]; destruct P.
      - rewrite Sb in P by auto. destruct P. }
    destruct (S0 q Hq) as (E & _). rewrite E in Lq.
    assert (fp (jb (h q)) u /\ (isFull (jb (h q)) -> isFull (jb (h' q)))) as [P0 Fu].
    { destruct (Nat.eq_dec q c) as [->|B]; [rewrite Jc' in *; rewrite Jc; auto|]. rewrite (Sj q) in * by auto. auto. }
    destruct (D3 y) as [A|[A|A]].
    + destruct (S0 y A) as (_ & E2 & _). rewrite E2 in I. destruct (f_priv _ _ FI q u y Lq P0 I) as [X Y].
      split; auto. rewrite Sj; auto; congruence.
    + destruct (Sw y A) as (_ & _ & E2 & _ & Q). destruct (fp_own q u P0) as (Ou & _).
      destruct (Q u I) as [U|U].
      * assert (q = c) as -> by (destruct U as [-> | ->]; congruence). rewrite Jc', E2. unfold j. rewrite Lq.
        split; cbn; auto.
      * exfalso. destruct (f_priv _ _ FI q u c Lq P0 U). congruence.
    + rewrite Sb in I by auto. destruct I.
  - intros y d I. destruct (Sn y d I) as [(-> & L1 & D)|(A & B & C & I0)].
    + destruct (Sw d D) as (_ & _ & -> & _ & Q). unfold j. rewrite L1. split; auto.
      destruct (S0 c Hc) as (_ & -> & _). rewrite Jc'. exact Q.
    + destruct (f_need _ _ FI y d I0) as [X Y]. destruct (need_new y d I0) as [_ Hd].
      destruct (S0 d Hd) as (_ & -> & _). destruct (S0 y C) as (_ & -> & _). rewrite !Sj by congruence. auto.
  - intros y1 y2 d I1 I2. destruct (Sn y1 d I1) as [(-> & _ & D)|(A & B & C & I0)];
      destruct (Sn y2 d I2) as [(-> & _ & D')|(A' & B' & C' & I0')]; auto.
    + apply need_new in I0' as [_ Hd]. lia.
    + apply need_new in I0 as [_ Hd]. lia.
    + eapply (f_disj _ _ FI); eauto.
  - intros y. destruct (D3 y) as [A|[A|A]].
    + destruct (Nat.eq_dec y n) as [->|B]; [rewrite Jn'; constructor|].
      destruct (Nat.eq_dec y c) as [->|C]; [|rewrite Sj by auto; apply (f_nd _ _ FI)].
      rewrite Jc', El2. destruct (lvl (h c)) as [|[|]]; cbn; repeat constructor; cbn; [lia|tauto].
    + destruct (Sw y A) as (_ & _ & -> & _). unfold j. destruct (lvl (h c)) as [|[|]]; constructor.
    + rewrite Sb by auto. constructor.
  - intros y c2 lo2 hi2 lns3 i Ly Jy. destruct (D3 y) as [A|[A|A]].
    + destruct (S0 y A) as (E & _). rewrite E in Ly. assert (y <> n) by congruence. assert (y <> c) by congruence.
      rewrite Sj in Jy by auto. destruct (f_stage _ _ FI y _ _ _ _ _ Ly Jy) as [S1 S2].
      pose proof (w_commit _ _ _ _ (h_wf _ _ _ _ _ HI y A)) as W'. rewrite Jy in W'. destruct W' as ((_ & Hlo & Hhi) & _).
      destruct (S0 _ Hlo) as (_ & _ & _ & _ & -> & _). destruct (S0 _ Hhi) as (_ & _ & _ & _ & -> & _). auto.
    + destruct (Sw y A) as (_ & _ & E & _). rewrite E in Jy. unfold j in Jy. destruct (lvl (h c)) as [|[|]]; discriminate.
    + rewrite Sb in Jy by auto. discriminate.
  - intros q p1 p2 p3 p4 p5 Jq. destruct (D3 q) as [A|[A|A]].
    + destruct (S0 q A) as (-> & _). rewrite Sj in Jq by congruence. eapply (f_thaw _ _ FI); eauto.
    + destruct (Sw q A) as (_ & _ & E & _). rewrite E in Jq. unfold j in Jq. destruct (lvl (h c)) as [|[|]]; discriminate.
    + rewrite Sb in Jq by auto. discriminate.
  - intros q Jq. destruct (D3 q) as [A|[A|A]].
    + destruct (S0 q A) as (_ & _ & -> & _). rewrite Sj in Jq by congruence. now apply (f_new _ _ FI).
    + now apply Sw.
    + rewrite Sb in Jq by auto. discriminate.
Qed.

(** The low half is put in. *)
Lemma fs_ins (h' : heap) n o c m lo hi th : jb (h n) = Split o c m lo hi ->
  th = negb (lvl (h n) =? 1) ->
  h' n = set_jb (Ins o c m lo hi th) (put_low leb (h n) m lo) ->
  (forall y, y <> n -> h' y = h y \/ y < f /\ h' y = set_over (Some m) (h y)) -> FInv h' f.
Proof.
  intros J Et En Eo. assert (n < f) as Hn by (apply jb_lt; congruence).
  assert (jv (jb (h n)) = Some (o, c, Some m, lo, hi)) as Jv by now rewrite J.
  pose proof (h_hld _ _ _ _ _ HI _ _ _ _ _ _ Hn Jv) as L0.
  assert (own (h lo) = n) as Olo by apply L0.
  assert (~ In hi (kids (h n))) as Khi by apply L0.
  assert (lo <> hi) as Nlh by (apply L0; congruence).
  assert (jb (h' n) = Ins o c m lo hi th) as Jn by now rewrite En.
  assert (forall y, lvl (h' y) = lvl (h y) /\ fz (h' y) = fz (h y) /\ ub (h' y) = ub (h y)
    /\ (over (h y) = true -> over (h' y) = true) /\ jv (jb (h' y)) = jv (jb (h y))
    /\ (y <> n -> jb (h' y) = jb (h y) /\ kids (h' y) = kids (h y))) as S0.
  { intros y. destruct (Nat.eq_dec y n) as [->|A]; [rewrite En; cbn; rewrite J; repeat split; auto; tauto|].
    destruct (Eo y A) as [E|[_ E]]; rewrite E; repeat split; auto. }
  assert (forall u, In u (kids (h' n)) <-> u = lo \/ In u (kids (h n))) as Sk.
  { intros u. rewrite En. change (In u (kids (put_low leb (h n) m lo)) <-> u = lo \/ In u (kids (h n))). apply put_low_in_kids. }
  assert (forall y, y <> n -> jb (h' y) = jb (h y)) as Sj by (intros; now apply S0).
  assert (forall y, need (jb (h' y)) = need (jb (h y))) as Sn.
  { intros y. destruct (Nat.eq_dec y n) as [->|A]; [now rewrite Jn, J|]. now rewrite Sj. }
  constructor.
  - intros y Hy. destruct (Eo y) as [->|[A _]]; [lia| |lia]. now apply (f_blank _ _ FI).
  - intros L q. destruct (S0 L) as (-> & -> & _ & Ov & _). destruct (S0 q) as (_ & _ & _ & _ & -> & _).
    intros L1 F. destruct (f_orig _ _ FI L q L1 F); auto.
  - intros q L. destruct (S0 q) as (-> & _ & _ & _ & _ & Sq). destruct (S0 L) as (_ & -> & _). intros Lq I B.
    destruct (Nat.eq_dec q n) as [->|A].
    + rewrite Jn. apply Sk in I as [->|I].
      * right. exists o, c, m, hi. rewrite Et, Lq. reflexivity.
      * exfalso. destruct (f_hold _ _ FI n L Lq I B) as [X|(? & ? & ? & ? & X)]; congruence.
    + destruct (Sq A) as [-> E]. rewrite E in I. now apply (f_hold _ _ FI).
  - intros q u y. destruct (S0 q) as (-> & _). intros Lq P I. destruct (Nat.eq_dec q n) as [->|A].
    + exfalso. rewrite Jn in P. cbn in P. subst u.
      assert (In hi (kids (h y))) as I0.
      { destruct (Nat.eq_dec y n) as [->|B]; [apply Sk in I as [?|I]; [congruence|auto]|].
        destruct (S0 y) as (_ & _ & _ & _ & _ & Sy). destruct (Sy B) as [_ E]. now rewrite E in I. }
      destruct (f_priv _ _ FI n hi y Lq) as [_ X]; auto; [rewrite J; cbn; auto|]. rewrite J in X. exact X.
    + rewrite (Sj q) in * by auto.
      assert (In u (kids (h y))) as I0.
      { destruct (Nat.eq_dec y n) as [->|B].
        - apply Sk in I as [->|I]; auto. exfalso. apply fp_own in P as (P & _). congruence.
        - destruct (S0 y) as (_ & _ & _ & _ & _ & Sy). destruct (Sy B) as [_ E]. now rewrite E in I. }
      destruct (f_priv _ _ FI q u y Lq P I0) as [X Y]. split; auto. rewrite Sj; congruence.
  - intros y d. rewrite Sn. intros I. destruct (f_need _ _ FI y d I) as [X Y].
    assert (y <> n) as Ny by (intros ->; rewrite J in I; destruct I). assert (d <> n) as Nd by congruence.
    rewrite !Sj by auto. destruct (S0 y) as (_ & _ & _ & _ & _ & Sy). destruct (Sy Ny) as [_ ->].
    destruct (S0 d) as (_ & _ & _ & _ & _ & Sd). destruct (Sd Nd) as [_ ->]. auto.
  - intros y1 y2 d. rewrite !Sn. apply (f_disj _ _ FI).
  - intros y. rewrite Sn. apply (f_nd _ _ FI).
  - intros y c1 lo1 hi1 lns1 i1. destruct (S0 y) as (-> & _). destruct (S0 lo1) as (_ & -> & _).
    destruct (S0 hi1) as (_ & -> & _). intros Ly Jy. rewrite Sj in Jy by congruence. eapply (f_stage _ _ FI); eauto.
  - intros q o1 c1 m1 lo1 hi1 Jq. destruct (S0 q) as (-> & _). destruct (Nat.eq_dec q n) as [->|A].
    + rewrite Jn in Jq. assert (th = false) as T by congruence. rewrite T in Et. destruct (lvl (h n) =? 1) eqn:E; [|discriminate].
      now apply Nat.eqb_eq.
    + rewrite Sj in Jq by auto. eapply (f_thaw _ _ FI); eauto.
  - intros q Jq. destruct (S0 q) as (_ & _ & -> & _). rewrite Sj in Jq by congruence. now apply (f_new _ _ FI).
Qed.

(** A leaf in a leaf node with a lock but no split is open. *)
Lemma locked_open n o c : jb (h n) = Locked -> lvl (h n) = 1 -> ptr (h n) o = Some c -> fz (h c) = Open.
Proof.
  intros J L1 Hp. assert (n < f) as Hn by (apply jb_lt; congruence).
  assert (In c (kids (h n))) as Ic by (eapply in_kids; eauto).
  pose proof (lk_c leb h f r lg HI n c o Hn Hp) as [Hc Lnc]. assert (lvl (h n) <> 0) as Ln by lia.
  pose proof (lk_cover leb HO h f r lg HI n c o Hn J Ln Hp) as Oc.
  destruct (lk_clive leb HO h f r lg HI n c o Hn J Ln Hp) as [k Hk].
  destruct (lk_up leb HO h f r lg HI n c o Hn J Ln Hp k Hk) as (Kn & _ & Nn).
  destruct (fz (h c)) as [|q|q|] eqn:F; auto; exfalso.
  - destruct (f_orig _ _ FI c q) as [X|(o1 & om & lo & hi & X)]; auto; [lia|congruence|].
    assert (q < f) as Hq by (apply jb_lt; intros E; rewrite E in X; discriminate).
    pose proof (h_hld _ _ _ _ _ HI _ _ _ _ _ _ Hq X) as L.
    assert (over (h q) = false) as Oq.
    { destruct (over (h q)) eqn:E; auto. pose proof (l_over _ _ _ _ _ _ _ _ _ L E). congruence. }
    destruct (up leb HO h f r lg HI k q _ _ _ _ _ Hq X (or_introl Oq) Hk) as (Kq & _ & Nq).
    assert (q = n) as -> by (eapply (h_tree _ _ _ _ _ HI); eauto). rewrite J in X. discriminate.
  - destruct (f_hold _ _ FI n c L1 Ic) as [X|(? & ? & ? & ? & X)]; try congruence. now rewrite F.
  - destruct (f_hold _ _ FI n c L1 Ic) as [X|(? & ? & ? & ? & X)]; try congruence. now rewrite F.
Qed.
End fzs.
