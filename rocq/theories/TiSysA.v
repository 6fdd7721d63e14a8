(** Steps of the tree that keep all ways keep the invariant of the list. *)
From Coq Require Import List Arith Bool Lia.
From Verif Require Import TcModel TcRoute TcSpec TcInv TcTree TcFrame TcKeep TcJobs TcSplit TcFrz TcMove TcGrow TcFz TcFzs TcExt TcSys TiModel TiInv TiConv TiList TiMove TiBlk TiPush TiStep.
Import ListNotations.

Section sysa.
Context {K V : Type} (leb : K -> K -> bool) (HO : tord leb).
Notation heap := (nat -> obj K V).
Notation On := (On leb).
Notation Live := (Live leb).
Notation klt := (klt leb).
Notation HInv := (HInv leb).
Notation SJ := (SJ leb).
Context (h : heap) (f : nat) (r : option nat) (nx : nat -> option nat) (dl : nat -> bool) (sg : nat -> stg) (S : SJ h f r nx dl sg)
  (lg : list (ev K V)) (HI : HInv h f r lg) (FI : FInv h f).
Notation tp := (tpf h sg).
Notation LI := (s_l _ _ _ _ _ _ _ S).
Ltac us := repeat match goal with |- context [upd _ ?x _ ?y] => first [rewrite (upd_eq _ x)|rewrite (upd_ne _ x _ y) by (auto; congruence)] end.

Ltac sp := unfold upd; repeat match goal with |- context [Nat.eqb ?a ?b] =>
  let E := fresh in destruct (Nat.eqb_spec a b) as [E|E]; [first [exfalso; congruence|subst a]|] end; repeat split; auto; try congruence.

Lemma g1 n : lvl (h n) = 1 -> stgok 1 (jb (h n)) (sg n).
Proof. intros E. pose proof (s_g _ _ _ _ _ _ _ S n) as G. now rewrite E in G. Qed.

(** The job of one node changes. *)
Lemma sj_jb n j sg' : HInv (upd h n (set_jb j (h n))) f r lg -> n < f -> jstep h (upd h n (set_jb j (h n))) sg sg' dl n ->
  (forall m, m <> n -> sg' m = sg m) -> SJ (upd h n (set_jb j (h n))) f r nx dl sg'.
Proof.
  intros HI' Hn J Hs.
  assert (forall y, fz (upd h n (set_jb j (h n)) y) = fz (h y)) as Ef by (intros y; unfold upd; destruct (Nat.eqb_spec y n) as [->|]; auto).
  apply (sj_same leb HO h f r nx dl sg S lg HI FI); auto; try lia.
  - intros y Hy. unfold upd. destruct (Nat.eqb_spec y n) as [->|]; repeat split; auto.
  - intros y Hy. apply upd_ne. lia.
  - intros m. destruct (Nat.eq_dec m n) as [->|Nm]; auto. apply (j_same leb h f r nx dl sg S); auto; now rewrite upd_ne.
Qed.

Lemma sj_lock n sg' : n < f -> lvl (h n) <> 0 -> jb (h n) = Idle -> Live h r n \/ ub (h n) = URet -> (forall m, sg' m = sg m) ->
  SJ (upd h n (set_jb Locked (h n))) f r nx dl sg'.
Proof.
  intros Hn L J Lv Es. apply sj_jb; auto.
  - now apply (ok_lock leb HO h f r lg HI FI n Hn L J Lv).
  - pose proof (s_g _ _ _ _ _ _ _ S n) as G.
    constructor; unfold tpf; rewrite ?upd_eq, ?Es; cbn [set_jb jb lvl]; rewrite ?J; try discriminate; auto.
    + destruct (lvl (h n)) as [|[|]]; cbn in *; rewrite ?J in G; auto.
Qed.
Lemma sj_unlock n sg' : jb (h n) = Locked -> (lvl (h n) = 1 -> sg n = G0) -> (forall m, m <> n -> sg' m = sg m) -> sg' n = G0 ->
  SJ (upd h n (set_jb Idle (h n))) f r nx dl sg'.
Proof.
  intros J G0n Es En. destruct (locked_lt leb h f r lg HI FI n) as [Hn L]; [congruence|]. apply sj_jb; auto.
  - now apply (ok_unlock leb HO h f r lg HI FI n J).
  - assert (sg n = G0) as Sn. { destruct (Nat.eq_dec (lvl (h n)) 1); auto. eapply g0_not1; eauto. }
    constructor; unfold tpf; rewrite ?upd_eq, ?En, ?Sn; cbn [set_jb jb lvl]; rewrite ?J; try discriminate; auto.
    + destruct (lvl (h n)) as [|[|]]; reflexivity.
Qed.
Lemma sj_cend n c lo hi lns i sg' : lvl (h n) = 1 -> jb (h n) = Commit c lo hi lns i -> 2 <= i -> (forall m, sg' m = sg m) ->
  SJ (upd h n (set_jb Poison (h n))) f r nx dl sg'.
Proof.
  intros L J Hi Es. destruct (locked_lt leb h f r lg HI FI n) as [Hn _]; [congruence|]. apply sj_jb; auto.
  - eapply (ok_cend leb HO h f r lg HI FI n); eauto.
  - pose proof (g1 n L) as G. rewrite J in G. destruct i as [|i]; [lia|].
    constructor; unfold tpf; rewrite ?upd_eq, ?Es; cbn [set_jb jb lvl]; rewrite ?J; try discriminate; auto.
    + rewrite L. cbn in *. auto.
    + cbn. tauto.
Qed.

Lemma fz_ne y n q : fz (h y) = Open \/ (exists x, fz (h y) = Hold x) -> tp n = Some (y, fst q, snd q) -> False.
Proof.
  intros F T. destruct (blk leb h f r nx dl sg S _ _ _ _ T) as [_ B]. pose proof (b_fz _ _ _ _ _ _ _ _ _ _ _ B) as E.
  destruct F as [F|[x F]]; congruence.
Qed.
Lemma fz_origin (h' : heap) z : (fz (h z) = Open \/ exists x, fz (h z) = Hold x) -> (forall y, y <> z -> fz (h' y) = fz (h y)) ->
  forall y, (exists n lo hi, tp n = Some (y, lo, hi)) -> fz (h' y) = fz (h y).
Proof.
  intros F E y (n & lo & hi & T). destruct (Nat.eq_dec y z) as [->|N]; auto. exfalso. apply (fz_ne z n (lo, hi)); auto.
Qed.

Lemma sj_full n o c m lo hi sg' : jb (h n) = Split o c m lo hi -> (lvl (h n) = 1 -> sg n = GLo) -> (forall m, sg' m = sg m) ->
  let h1 := if lvl (h n) =? 1 then upd h hi (set_fz (Hold n) (h hi)) else h in
  SJ (upd h1 n (set_jb (Full o c m lo hi None None) (h1 n))) f r nx dl sg'.
Proof.
  intros J Gn Es h1. destruct (locked_lt leb h f r lg HI FI n) as [Hn Ln]; [congruence|].
  pose proof (ok_full leb HO h f r lg HI FI n o c m lo hi J) as (HI' & _). fold h1 in HI'.
  assert (jv (jb (h n)) = Some (o, c, Some m, lo, hi)) as Jv by now rewrite J.
  pose proof (h_hld _ _ _ _ _ HI _ _ _ _ _ _ Hn Jv) as Hl. pose proof (l_hi _ _ _ _ _ _ _ _ _ Hl) as Hh.
  destruct (jv_c_lt leb h f r lg HI _ _ _ _ _ _ Hn Jv) as [Hc Lc]. pose proof (l_lvhi _ _ _ _ _ _ _ _ _ Hl) as Lh.
  assert (hi <> n) as Nh by (intros ->; lia).
  assert (forall y, same (upd h1 n (set_jb (Full o c m lo hi None None) (h1 n)) y) (h y) /\ ret (upd h1 n (set_jb (Full o c m lo hi None None) (h1 n)) y) = ret (h y)
    /\ (y <> hi \/ lvl (h n) <> 1 -> fz (upd h1 n (set_jb (Full o c m lo hi None None) (h1 n)) y) = fz (h y))) as Sm.
  { intros y. unfold h1. destruct (Nat.eqb_spec (lvl (h n)) 1) as [L1|L1]; unfold upd; destruct (Nat.eqb_spec y n) as [->|]; 
      try (destruct (Nat.eqb_spec n hi); [congruence|]); try (destruct (Nat.eqb_spec y hi) as [->|]); repeat split; auto; tauto. }
  apply (sj_same leb HO h f r nx dl sg S lg HI FI); auto; try lia.
  - intros y Hy. destruct (Sm y) as (A & B & _). auto.
  - intros y Hy. rewrite upd_ne by lia. unfold h1. destruct (lvl (h n) =? 1); auto. apply upd_ne. lia.
  - destruct (Nat.eq_dec (lvl (h n)) 1) as [L1|L1].
    + pose proof (h_fz _ _ _ _ _ HI n Hn L1) as F. rewrite J in F. destruct F as [_ F]. apply (fz_origin _ hi); auto.
      intros y N. apply (Sm y). auto.
    + intros y _. apply (Sm y). auto.
  - intros y D. destruct (Nat.eq_dec y hi) as [->|N]; [|left; apply (Sm y); auto].
    destruct (Nat.eq_dec (lvl (h n)) 1) as [L1|L1]; [|left; apply (Sm hi); auto]. right. rewrite upd_ne by auto. unfold h1. rewrite L1. cbn. rewrite upd_eq. discriminate.
  - assert (h1 n = h n) as E1. { unfold h1. destruct (lvl (h n) =? 1); auto. apply upd_ne; auto. }
    intros y. destruct (Nat.eq_dec y n) as [->|Ny].
    + constructor; unfold tpf; rewrite ?upd_eq, ?Es, ?E1; cbn [set_jb jb lvl]; rewrite ?J; try discriminate; auto.
      * pose proof (s_g _ _ _ _ _ _ _ S n) as G. destruct (lvl (h n)) as [|[|]]; auto. cbn. auto.
    + destruct (Nat.eq_dec y hi) as [->|Nyh].
      * apply (j_same leb h f r nx dl sg S); auto; rewrite upd_ne by auto; unfold h1; destruct (lvl (h n) =? 1); rewrite ?upd_eq; auto.
      * apply (j_same leb h f r nx dl sg S); auto; rewrite upd_ne by auto; unfold h1; destruct (lvl (h n) =? 1); rewrite ?upd_ne by auto; auto.
Qed.
Lemma sj_thaw n o c m lo hi sg' : jb (h n) = Ins o c m lo hi false -> sg n = GDel -> (forall m, sg' m = sg m) ->
  let h1 := upd h lo (set_fz Open (h lo)) in SJ (upd h1 n (set_jb (Ins o c m lo hi true) (h1 n))) f r nx dl sg'.
Proof.
  intros J Gn Es h1. destruct (locked_lt leb h f r lg HI FI n) as [Hn Ln]; [congruence|].
  pose proof (f_thaw _ _ FI _ _ _ _ _ _ J) as L1.
  pose proof (ok_thaw leb HO h f r lg HI FI n o c m lo hi J) as (HI' & _). fold h1 in HI'.
  assert (jv (jb (h n)) = Some (o, c, Some m, lo, hi)) as Jv by now rewrite J.
  pose proof (h_hld _ _ _ _ _ HI _ _ _ _ _ _ Hn Jv) as Hl. pose proof (l_lo _ _ _ _ _ _ _ _ _ Hl) as Hh.
  destruct (jv_c_lt leb h f r lg HI _ _ _ _ _ _ Hn Jv) as [Hc Lc]. pose proof (l_lvlo _ _ _ _ _ _ _ _ _ Hl) as Lh.
  assert (lo <> n) as Nh by (intros ->; lia). pose proof (tp_of h sg n _ _ _ _ _ L1 Jv) as T.
  assert (dl lo = false) as Dl. { apply (pub_dl leb h f r nx dl sg S n c lo hi); auto. now right. }
  apply (sj_same leb HO h f r nx dl sg S lg HI FI); auto; try lia.
  - intros y Hy. unfold h1. sp.
  - intros y Hy. unfold h1. rewrite !upd_ne by lia. auto.
  - pose proof (h_fz _ _ _ _ _ HI n Hn L1) as F. rewrite J in F. destruct F as [F _]. apply (fz_origin _ lo); auto. { right. exists n. auto. }
    intros y N. unfold h1. sp.
  - intros y D. left. assert (y <> lo) as N by congruence. unfold h1. sp.
  - assert (h1 n = h n) as E1 by (apply upd_ne; auto).
    intros y. destruct (Nat.eq_dec y n) as [->|Ny].
    + constructor; unfold tpf; rewrite ?upd_eq, ?Es, ?E1; cbn [set_jb jb lvl]; rewrite ?J; try discriminate; auto.
      * rewrite L1. cbn. auto.
      * intros ? ? ? ? ? ? _ [= <- <- <- <- <- <-]. eauto.
    + apply (j_same leb h f r nx dl sg S); auto; rewrite upd_ne by auto; unfold h1; unfold upd; destruct (Nat.eqb_spec y lo) as [->|]; auto.
Qed.
Lemma sj_cthaw n c lo hi lns i z sg' : lvl (h n) = 1 -> jb (h n) = Commit c lo hi lns i ->
  i = 0 /\ z = lo /\ sg n = GDel \/ i = 1 /\ z = hi -> (forall m, sg' m = sg m) ->
  let h1 := upd h z (set_fz Open (h z)) in SJ (upd h1 n (set_jb (Commit c lo hi lns (Datatypes.S i)) (h1 n))) f r nx dl sg'.
Proof.
  intros L1 J Hz Es h1. destruct (locked_lt leb h f r lg HI FI n) as [Hn Ln]; [congruence|].
  assert (i = 0 /\ z = lo \/ i = 1 /\ z = hi) as Hz' by tauto.
  pose proof (ok_cthaw leb HO h f r lg HI FI n c lo hi lns i z L1 J Hz') as (HI' & _). fold h1 in HI'.
  pose proof (h_fz _ _ _ _ _ HI n Hn L1) as F. rewrite J in F. destruct F as (_ & _ & _ & F1 & F2).
  destruct (s_cm _ _ _ _ _ _ _ S _ _ _ _ _ _ L1 J) as [C1 C2].
  assert (fz (h z) = Hold n /\ dl z = false) as [Fz Dz].
  { destruct Hz as [(-> & -> & _)|(-> & ->)]; auto. }
  assert (sg n = GDel) as Gn. { destruct Hz as [(_ & _ & G)|(-> & _)]; auto. pose proof (g1 n L1) as G. rewrite J in G. exact G. }
  assert (z < f) as Hzf. { pose proof (w_commit _ _ _ _ (h_wf _ _ _ _ _ HI n Hn)) as W. rewrite J in W. destruct W as ((_ & W1 & W2) & _). destruct Hz' as [[_ ->]|[_ ->]]; auto. }
  apply (sj_same leb HO h f r nx dl sg S lg HI FI); auto; try lia.
  - intros y Hy. unfold h1, upd. destruct (Nat.eqb_spec y n) as [->|]; [destruct (Nat.eqb_spec n z) as [<-|]; repeat split; auto|].
    destruct (Nat.eqb_spec y z) as [->|]; repeat split; auto.
  - intros y Hy. unfold h1. rewrite !upd_ne by lia. auto.
  - apply (fz_origin _ z); auto. { right. exists n. auto. }
    intros y N. unfold h1, upd. destruct (Nat.eqb_spec y n) as [->|]; [destruct (Nat.eqb_spec n z) as [<-|]; auto; congruence|]. destruct (Nat.eqb_spec y z) as [->|]; try congruence; auto.
  - intros y D. left. assert (y <> z) as N by congruence. unfold h1, upd. destruct (Nat.eqb_spec y n) as [->|]; [destruct (Nat.eqb_spec n z) as [<-|]; auto; congruence|]. destruct (Nat.eqb_spec y z) as [->|]; try congruence; auto.
  - assert (lvl (h1 n) = lvl (h n)) as E1. { unfold h1, upd. destruct (Nat.eqb_spec n z) as [<-|]; auto. }
    intros y. destruct (Nat.eq_dec y n) as [->|Ny].
    + constructor; unfold tpf; rewrite ?upd_eq, ?Es; cbn [set_jb jb lvl]; rewrite ?E1, ?L1, ?J, ?Gn; try discriminate; auto.
      * cbn. destruct i; auto.
      * cbn. auto.
      * intros ? ? ? ? ? _ [= <- <- <- <- <-]. left. exists i. auto.
    + apply (j_same leb h f r nx dl sg S); auto; rewrite upd_ne by auto; unfold h1, upd; destruct (Nat.eqb_spec y z) as [->|]; auto.
Qed.
Lemma sj_cfree n c lo hi a b i z sg' : lvl (h n) = 1 -> jb (h n) = Commit c lo hi (Some (a, b)) i ->
  i = 2 /\ z = a \/ i = 3 /\ z = b -> (forall m, sg' m = sg m) ->
  let h1 := upd h z (set_jb Idle (h z)) in SJ (upd h1 n (set_jb (Commit c lo hi (Some (a, b)) (Datatypes.S i)) (h1 n))) f r nx dl sg'.
Proof.
  intros L1 J Hz Es h1. destruct (locked_lt leb h f r lg HI FI n) as [Hn Ln]; [congruence|].
  pose proof (ok_cfree leb HO h f r lg HI FI n c lo hi a b i z L1 J Hz) as (HI' & _). fold h1 in HI'.
  assert (In z (TcFz.need (jb (h n)))) as Hi by (rewrite J; destruct Hz as [[-> ->]|[-> ->]]; cbn; auto).
  destruct (need_new h f FI n z Hi) as [Jz Hzf]. assert (n <> z) as Nz by (intros ->; congruence).
  assert (h1 n = h n) as E1 by (apply upd_ne; auto).
  assert (forall y, same (upd h1 n (set_jb (Commit c lo hi (Some (a, b)) (Datatypes.S i)) (h1 n)) y) (h y) /\ ret (upd h1 n (set_jb (Commit c lo hi (Some (a, b)) (Datatypes.S i)) (h1 n)) y) = ret (h y)
    /\ fz (upd h1 n (set_jb (Commit c lo hi (Some (a, b)) (Datatypes.S i)) (h1 n)) y) = fz (h y)) as Sm.
  { intros y. rewrite E1. unfold h1, upd. destruct (Nat.eqb_spec y n) as [->|]; [repeat split; auto|]. destruct (Nat.eqb_spec y z) as [->|]; repeat split; auto. }
  pose proof (g1 n L1) as G. rewrite J in G. destruct i as [|i]; [lia|]. cbn in G.
  apply (sj_same leb HO h f r nx dl sg S lg HI FI); auto; try lia.
  - intros y Hy. destruct (Sm y) as (A & B & _). auto.
  - intros y Hy. unfold h1. rewrite !upd_ne by lia. auto.
  - intros y _. apply Sm.
  - intros y _. left. apply Sm.
  - intros y. destruct (Nat.eq_dec y n) as [->|Ny].
    + constructor; unfold tpf; rewrite ?upd_eq, ?Es, ?E1; cbn [set_jb jb lvl]; rewrite ?J, ?G; try discriminate; auto.
      * now rewrite L1.
      * intros ? ? ? ? ? _ [= <- <- <- <- <-]. left. exists (Datatypes.S i). auto.
    + destruct (Nat.eq_dec y z) as [->|Nyz].
      * pose proof (s_g _ _ _ _ _ _ _ S z) as Gz. rewrite Jz in Gz.
        constructor; unfold tpf; rewrite ?upd_ne by auto; unfold h1; rewrite ?upd_eq, ?Es; cbn [set_jb jb lvl]; rewrite ?Jz; try discriminate; auto.
      * apply (j_same leb h f r nx dl sg S); auto; unfold h1; rewrite !upd_ne by auto; auto.
Qed.
End sysa.
