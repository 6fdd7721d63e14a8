(** The rollback of a split, and its beginning, keep the invariant of the list. *)
From Coq Require Import List Arith Bool Lia.
From Verif Require Import TcModel TcRoute TcSpec TcInv TcTree TcFrame TcKeep TcJobs TcSplit TcFrz TcMove TcGrow TcFz TcFzs TcExt TcSys TiModel TiInv TiConv TiList TiMove TiBlk TiPush TiStep TiSysA TiSysB.
Import ListNotations.

Section sysc.
Context {K V : Type} (leb : K -> K -> bool) (HO : tord leb).
Notation heap := (nat -> obj K V).
Notation On := (On leb).
Notation Live := (Live leb).
Notation klt := (klt leb).
Notation HInv := (HInv leb).
Notation SJ := (SJ leb).
Context (h : heap) (f : nat) (r : option nat) (nx : nat -> option nat) (dl : nat -> bool) (sg : nat -> stg) (S : SJ h f r nx dl sg)
  (lg : list (ev K V)) (HI : HInv h f r lg) (FI : FInv h f).
Notation tp := (tpf h sg).
Notation LI := (s_l _ _ _ _ _ _ _ S).

Lemma sj_roll1 n o c m low high lns sg' : lvl (h n) = 1 -> jb (h n) = Full o c m low high None lns -> sg n = GRb2 ->
  sg' n = GUm c -> (forall m, m <> n -> sg' m = sg m) ->
  let h1 := upd h n (set_jb Locked (h n)) in
  SJ (if lvl (h1 n) =? 1 then
        let h2 := upd h1 c (set_fz Open (h1 c)) in
        let h3 := upd h2 low (set_fz Gone (h2 low)) in upd h3 high (set_fz Gone (h3 high))
      else match jb (h1 c) with
           | Full o' c' m' low' high' _ lns' => upd h1 c (set_jb (Full o' c' m' low' high' None lns') (h1 c))
           | _ => h1 end) f r nx dl sg'.
Proof.
  intros L1 J G Gn' Es h1. destruct (locked_lt leb h f r lg HI FI n) as [Hn Ln]; [congruence|].
  pose proof (ok_roll leb HO h f r lg HI FI n o c m low high lns J) as (HI' & _). fold h1 in HI'. revert HI'.
  assert (jv (jb (h n)) = Some (o, c, Some m, low, high)) as Jv by now rewrite J.
  pose proof (h_hld _ _ _ _ _ HI _ _ _ _ _ _ Hn Jv) as Hl.
  destruct (jv_c_lt leb h f r lg HI _ _ _ _ _ _ Hn Jv) as [Hc Lc].
  pose proof (l_lvlo _ _ _ _ _ _ _ _ _ Hl) as Llo. pose proof (l_lvhi _ _ _ _ _ _ _ _ _ Hl) as Lhi. 
  assert (low <> high) as Nlh by (apply Hl; congruence).
  assert (lvl (h1 n) = lvl (h n)) as El by (unfold h1; sp). rewrite El, L1. cbn [Nat.eqb].
  set (h2 := upd h1 c (set_fz Open (h1 c))). set (h3 := upd h2 low (set_fz Gone (h2 low))). set (h' := upd h3 high (set_fz Gone (h3 high))). cbn zeta. intros HI'.
  assert (lvl (h c) = 0) as Lc0 by lia.
  assert (c <> n /\ low <> n /\ high <> n) as (N1 & N2 & N3) by (repeat split; intros ->; lia).
  pose proof (tp_of h sg n _ _ _ _ _ L1 Jv) as T.
  destruct (blk leb h f r nx dl sg S _ _ _ _ T) as [_ B]. destruct (b_ne _ _ _ _ _ _ _ _ _ _ _ B) as [N4 N5].
  assert (h' n = set_jb Locked (h n)) as E1 by (unfold h', h3, h2, h1; rewrite !upd_ne by auto; apply upd_eq).
  assert (h' c = set_fz Open (h c)) as E2 by (unfold h', h3, h2, h1; rewrite !(upd_ne _ high), !(upd_ne _ low), upd_eq, upd_ne by auto; auto).
  assert (h' low = set_fz Gone (h low)) as E3 by (unfold h', h3, h2, h1; rewrite !(upd_ne _ high), upd_eq, !upd_ne by auto; auto).
  assert (h' high = set_fz Gone (h high)) as E4 by (unfold h', h3, h2, h1; rewrite upd_eq, !upd_ne by auto; auto).
  assert (forall y, y <> n -> y <> c -> y <> low -> y <> high -> h' y = h y) as E5.
  { intros y A1 A2 A3 A4. unfold h', h3, h2, h1. rewrite !upd_ne by auto; auto. }
  clearbody h'. clear h1 h2 h3 El.
  assert (forall y, same (h' y) (h y) /\ ret (h' y) = ret (h y)) as Sm.
  { intros y. destruct (Nat.eq_dec y n) as [->|A1]; [rewrite E1; repeat split; auto|]. 
    destruct (Nat.eq_dec y c) as [->|A2]; [rewrite E2; repeat split; auto|].
    destruct (Nat.eq_dec y low) as [->|A3]; [rewrite E3; repeat split; auto|].
    destruct (Nat.eq_dec y high) as [->|A4]; [rewrite E4; repeat split; auto|]. rewrite E5 by auto. repeat split; auto. }
  assert (forall y, y <> n -> jb (h' y) = jb (h y)) as Jo.
  { intros y A1. 
    destruct (Nat.eq_dec y c) as [->|A2]; [rewrite E2; auto|].
    destruct (Nat.eq_dec y low) as [->|A3]; [rewrite E3; auto|].
    destruct (Nat.eq_dec y high) as [->|A4]; [rewrite E4; auto|]. now rewrite E5. }
  assert (forall y, lvl (h' y) = lvl (h y)) as Lo by (intros y; apply (Sm y)).
  assert (forall k y, On h' r k y <-> On h r k y) as Oi by (intros; apply (on_iff leb h f r lg HI); intros; apply Sm).
  assert (over (h n) = false) as On0.
  { destruct (over (h n)) eqn:E; auto. destruct (w_over1 _ _ _ _ (h_wf _ _ _ _ _ HI n Hn) E Ln) as [_ W]. now rewrite J in W. }
  destruct (half_dead leb HO h f r lg HI FI n o c m low high Ln Jv) as [D1 D2]; [now rewrite J|auto|].
  destruct (proj2 (s_rb _ _ _ _ _ _ _ S _ _ _ _ T) G) as [D3 D4].
  assert (tpf h' sg' n = None) as Tn. { unfold tpf. rewrite E1. cbn. now rewrite L1. }
  assert (forall y, y <> n -> tpf h' sg' y = tp y) as To. { intros y Ny. apply tp_ext; auto. }
  assert (LInv leb h f r nx dl sg (tpf h' sg')) as LE.
  { apply (l_end leb HO h f r nx dl sg tp LI n c low high T); auto. right. auto. }
  assert (dl c <> true) as Dc. { rewrite (b_dL _ _ _ _ _ _ _ _ _ _ _ B), G. discriminate. }
  assert (forall y, fz (h' y) = fz (h y) \/ mem c low high y) as Ef.
  { intros y. destruct (Nat.eq_dec y n) as [->|A1]; [rewrite E1; auto|]. 
    destruct (Nat.eq_dec y c) as [->|A2]; [right; unfold mem; auto|].
    destruct (Nat.eq_dec y low) as [->|A3]; [right; unfold mem; auto|].
    destruct (Nat.eq_dec y high) as [->|A4]; [right; unfold mem; auto|]. rewrite E5 by auto. auto. }
  assert (LInv leb h' f r nx dl sg (tpf h' sg')) as LE'.
  { apply (l_move leb HO h f r nx dl sg _ LE lg HI h' f r); auto; try lia.
    - intros y. left. apply (Sm y).
    - intros y Hy. destruct (Sm y) as [(A & B' & _) C]. auto.
    - intros y (n0 & lo & hi & T0). destruct (Nat.eq_dec n0 n) as [->|Nn0]; [congruence|]. rewrite To in T0 by auto.
      destruct (Ef y) as [?|M]; auto. exfalso. apply Nn0. destruct (bd leb h f r nx dl sg tp LI n0 n y lo hi c low high y); auto. unfold mem; auto.
    - intros y D. destruct (Ef y) as [?|[M|[M|M]]]; auto; subst y; [congruence|right..]; rewrite ?E3, ?E4; discriminate.
    - intros k y O _. left. now apply Oi.
    - intros k y O _. left. exists k. split; auto. now apply Oi. }
  apply (sj_rest leb HO h f r nx dl sg S lg h' f r sg'); auto; try lia.
  - intros y Hy. destruct (Sm y) as [(A & B' & _) C]. auto.
  - intros k y O _. left. exists k. split; auto. now apply Oi.
  - intros n0 L lo hi T0. destruct (Nat.eq_dec n0 n) as [->|Nn0]; [right; left; congruence|]. left. rewrite To, Es by auto. auto.
  - intros n0 L lo hi T0. destruct (Nat.eq_dec n0 n) as [->|Nn0]; [congruence|]. rewrite To in T0 by auto. auto.
  - intros n0 L lo hi T0. destruct (Nat.eq_dec n0 n) as [->|Nn0]; [congruence|]. now rewrite Jo.
  - intros y. rewrite Lo. destruct (Nat.eq_dec y n) as [->|Ny]; [rewrite E1, L1, Gn'; cbn; eauto|]. rewrite Jo, Es by auto. apply S.
  - intros n0 o0 c0 m0 lo hi b Ln0 J0. destruct (Nat.eq_dec n0 n) as [->|Nn0]; [rewrite E1 in J0; discriminate|].
    rewrite Jo in J0 by auto. rewrite Lo in Ln0. destruct (Sm n0) as [Sm0 _]. rewrite (same_kids _ _ Sm0).
    split; [exact (proj1 (s_in _ _ _ _ _ _ _ S _ _ _ _ _ _ _ Ln0 J0))|left; eauto].
  - intros p o0 y Hp Gp P. assert (p <> n) as Np by congruence. left. split; [now rewrite Es|]. rewrite <- P. apply same_ptr, Sm.
  - intros n0 c0 lo hi lns0 i Ln0 J0. destruct (Nat.eq_dec n0 n) as [->|Nn0]; [rewrite E1 in J0; discriminate|].
    rewrite Jo in J0 by auto. rewrite Lo in Ln0. left. exists i. auto.
  - intros x Hx Lx U. destruct (Sm x) as [(A & _ & _ & A') _]. apply (s_un _ _ _ _ _ _ _ S); auto; congruence.
  - apply (l_ext leb h' f r nx dl sg _ LE'); auto. intros y. destruct (Nat.eq_dec y n) as [->|Ny]; auto.
Qed.

(** The leaf of a locked leaf node is in no split and not deleted. *)
Lemma lk_free n o c : jb (h n) = Locked -> lvl (h n) = 1 -> ptr (h n) o = Some c ->
  Live h r c /\ fz (h c) = Open /\ (forall m L lo hi, tp m = Some (L, lo, hi) -> ~ mem L lo hi c).
Proof.
  intros J L1 P. destruct (locked_lt leb h f r lg HI FI n) as [Hn Ln]; [congruence|].
  pose proof (locked_open leb HO h f r lg HI FI n o c J L1 P) as Fc.
  pose proof (lk_clive leb HO h f r lg HI n c o Hn J Ln P) as Lv. split; auto. split; auto.
  intros m L lo hi T M. destruct (open_live leb HO h f r nx dl sg S lg HI FI m L lo hi c T M Fc Lv) as (o' & m' & J' & -> & O & _).
  destruct (tp_inv _ _ _ _ _ _ T) as (Lm & _). destruct (blk leb h f r nx dl sg S _ _ _ _ T) as [Hm _].
  destruct (s_in _ _ _ _ _ _ _ S _ _ _ _ _ _ _ Lm J') as [Ik _].
  assert (Live h r m) as Lvm. { apply (act_live leb h f r lg HI m Hm); auto; [now rewrite J'|eauto]. }
  destruct (every_kid leb HO h f r lg HI m lo Lvm O Ik) as (k5 & H5 & N5).
  assert (Live h r n) as Lvn by (apply (lk_live leb h f r lg HI n lo o); auto).
  destruct (every_kid leb HO h f r lg HI n lo Lvn (lk_noover leb h f r lg HI n Hn J Ln) (in_kids _ _ _ P)) as (k6 & H6 & N6).
  assert (m = n) by (eapply (h_tree _ _ _ _ _ HI k5 k6); eauto). subst m. congruence.
Qed.
Lemma lk_ndl n o c : jb (h n) = Locked -> lvl (h n) = 1 -> sg n = G0 -> ptr (h n) o = Some c -> dl c = false.
Proof.
  intros J L1 G P. destruct (locked_lt leb h f r lg HI FI n) as [Hn Ln]; [congruence|].
  destruct (lk_free n o c J L1 P) as ((k & Hk) & Fc & Nb).
  destruct (kid_lvl leb h f r lg HI n c Hn (in_kids _ _ _ P)) as [Lc _].
  destruct (dl c) eqn:D; auto. exfalso.
  destruct (s_rd _ _ _ _ _ _ _ S k c Hk ltac:(lia) D) as [(n0 & lo & hi & T & _)|(p & o0 & Hp & Gp & Pp)].
  - apply (Nb _ _ _ _ T). unfold mem; auto.
  - destruct (gret_1 leb h f r nx dl sg S p o0 Gp) as [L1p Jp].
    assert (lvl (h p) <> 0) as Lp by lia.
    assert (Live h r p) as Lvp by (apply (lk_live leb h f r lg HI p c o0); auto).
    destruct (every_kid leb HO h f r lg HI p c Lvp (lk_noover leb h f r lg HI p Hp Jp Lp) (in_kids _ _ _ Pp)) as (k5 & H5 & N5).
    assert (Live h r n) as Lvn by (apply (lk_live leb h f r lg HI n c o); auto).
    destruct (every_kid leb HO h f r lg HI n c Lvn (lk_noover leb h f r lg HI n Hn J Ln) (in_kids _ _ _ P)) as (k6 & H6 & N6).
    assert (p = n) by (eapply (h_tree _ _ _ _ _ HI k5 k6); eauto). subst p. congruence.
Qed.

Lemma sj_frz (h' : heap) f' n o c j lo hi el eh fl fh sg' : HInv h' f' r lg -> jb (h n) = Locked -> lvl (h n) = 1 -> ptr (h n) o = Some c -> sg n = G0 ->
  (forall m, sg' m = sg m) -> h' n = set_jb j (h n) -> h' c = set_fz (Orig n) (h c) ->
  (forall y, y <> n -> y <> c -> y < f -> h' y = h y) -> (forall y, f' <= y -> h' y = h y) ->
  f <= lo -> f <= hi -> lo < f' -> hi < f' -> (forall y, f <= y -> y < f' -> y = lo \/ y = hi) ->
  h' lo = leaf0 el fl n -> h' hi = leaf0 eh fh n -> NoDup (map fst el) -> NoDup (map fst eh) ->
  (forall e, In e (ents (h c)) <-> In e el \/ In e eh) ->
  (lo <> hi -> forall a b, In a el -> In b eh -> klt (fst a) (fst b)) ->
  (j = Swap0 o c lo /\ hi = lo) \/ (exists m, j = Split o c m lo hi /\ el <> [] /\ eh <> [] /\ lo <> hi) ->
  SJ h' f' r nx dl sg'.
Proof.
  intros HI' J L1 P G Es E1 E2 E3 E4 F1 F2 F3 F4 F5 Elo Ehi Nl Nh Ct Sp Hj.
  destruct (locked_lt leb h f r lg HI FI n) as [Hn Ln]; [congruence|].
  destruct (kid_lvl leb h f r lg HI n c Hn (in_kids _ _ _ P)) as [Lc Hc]. assert (c <> n) as Nc by (intros ->; lia).
  destruct (lk_free n o c J L1 P) as (Lv & Fc & Nb). pose proof (lk_ndl n o c J L1 G P) as Dc.
  assert (forall y, y < f -> same (h' y) (h y) /\ ret (h' y) = ret (h y)) as Sm.
  { intros y Hy. destruct (Nat.eq_dec y n) as [->|A1]; [rewrite E1; repeat split; auto|]. 
    destruct (Nat.eq_dec y c) as [->|A2]; [rewrite E2; repeat split; auto|]. rewrite E3 by auto. repeat split; auto. }
  assert (forall y, y < f -> lvl (h' y) = lvl (h y)) as Lo by (intros y Hy; apply (Sm y Hy)).
  assert (forall k y, On h' r k y <-> On h r k y) as Oi by (intros; apply (on_iff leb h f r lg HI); intros; now apply Sm).
  assert (forall y, f <= y -> h y = blank) as Bl by apply FI.
  assert (forall y, y <> n -> jb (h' y) = jb (h y)) as Jo.
  { intros y Ny. destruct (lt_dec y f) as [A|A].
    - destruct (Nat.eq_dec y c) as [->|A2]; [now rewrite E2|]. now rewrite E3.
    - destruct (lt_dec y f') as [A'|A']; [|rewrite E4 by lia; auto]. rewrite (Bl y) by lia.
      destruct (F5 y) as [->| ->]; try lia; [rewrite Elo|rewrite Ehi]; reflexivity. }
  assert (forall y, f <= y -> lvl (h' y) = 0) as Ln0.
  { intros y A. destruct (lt_dec y f') as [A'|A']; [|rewrite E4, Bl by lia; auto].
    destruct (F5 y) as [->| ->]; try lia; [rewrite Elo|rewrite Ehi]; reflexivity. }
  assert (forall y, lvl (h' y) = lvl (h y)) as Lv'.
  { intros y. destruct (lt_dec y f) as [A|A]; [now apply Lo|]. rewrite Ln0, Bl by lia. reflexivity. }
  assert (tpf h' sg' n = Some (c, lo, hi)) as Tn.
  { unfold tpf. rewrite Lv', L1, E1. cbn. destruct Hj as [[-> ->]|(m & -> & _)]; auto. }
  assert (forall y, y <> n -> tpf h' sg' y = tp y) as To. { intros y Ny. apply tp_ext; auto. }
  assert (tp n = None) as Tn0. { unfold tpf. rewrite L1, J. reflexivity. }
  assert (forall k y, On h r k y -> y < f) as Olt by (intros; eapply on_lt; eauto).
  constructor.
  - apply (l_ext leb h' f' r nx dl sg (tpf h' sg')); auto.
    apply (l_begin leb h f r nx dl sg tp LI h' f' n c lo hi); auto; try lia.
    + intros y Hy. destruct (Sm y Hy) as [(A & B & _) C]. auto.
    + intros y Hy Ny Ly. assert (y <> n) by (intros ->; lia). now rewrite E3.
    + now rewrite E2.
    + intros y. destruct (lt_dec y f) as [A|A].
      * destruct (Sm y A) as [(_ & B & _) _]. rewrite B. apply (q_nd _ _ _ _ _ _ _ _ LI).
      * destruct (lt_dec y f') as [A'|A']; [|rewrite E4, Bl by lia; constructor].
        destruct (F5 y) as [->| ->]; try lia; [rewrite Elo|rewrite Ehi]; cbn; auto.
    + intros y (k & Hk). eauto.
    + intros e. rewrite Elo, Ehi. cbn. apply Ct.
    + rewrite Elo, Ehi. cbn. auto.
  - intros y. rewrite Es, Lv'. destruct (Nat.eq_dec y n) as [->|Ny].
    + rewrite L1, E1, G. destruct Hj as [[-> _]|(m & -> & _)]; cbn; auto.
    + rewrite Jo by auto. apply S.
  - intros n0 L lo0 hi0 T C. destruct (Nat.eq_dec n0 n) as [->|Ny].
    + rewrite Tn in T. injection T as <- <- <-. rewrite E1 in C. rewrite Elo, Ehi. cbn in *.
      destruct Hj as [[-> _]|(m & -> & A)]; [destruct C|tauto].
    + rewrite To in T by auto. rewrite Jo in C by auto. destruct (blk leb h f r nx dl sg S _ _ _ _ T) as [_ B].
      destruct (b_lt _ _ _ _ _ _ _ _ _ _ _ B) as (_ & B2 & B3). destruct (Sm lo0 B2) as [(_ & Q1 & _) _]. destruct (Sm hi0 B3) as [(_ & Q2 & _) _].
      rewrite Q1, Q2. exact (s_ne _ _ _ _ _ _ _ S _ _ _ _ T C).
  - intros n0 o0 c0 m0 lo0 hi0 b L0 J0. destruct (Nat.eq_dec n0 n) as [->|Ny].
    { exfalso. rewrite E1 in J0. cbn in J0. destruct Hj as [[-> _]|(m & -> & _)]; discriminate. }
    rewrite Jo in J0 by auto. rewrite Lv' in L0. destruct (s_in _ _ _ _ _ _ _ S _ _ _ _ _ _ _ L0 J0) as [A B].
    destruct (Sm n0) as [Sm0 _]. { apply (jb_lt h f FI). congruence. } rewrite (same_kids _ _ Sm0). split; auto.
    intros k1 k2 O1 O2. apply B; now apply Oi.
  - intros k y O Ly D. rewrite Lv' in Ly. apply Oi in O. destruct (s_rd _ _ _ _ _ _ _ S k y O Ly D) as [(n0 & lo0 & hi0 & T & G')|(p & o0 & Hp & Gp & Pp)].
    + left. exists n0, lo0, hi0. rewrite Es. split; auto. rewrite To; auto. congruence.
    + right. exists p, o0. rewrite Es. split; [lia|]. split; auto. rewrite <- Pp. now apply same_ptr, Sm.
  - intros n0 L lo0 hi0 T. rewrite Es. destruct (Nat.eq_dec n0 n) as [->|Ny]; [rewrite G; split; discriminate|].
    rewrite To in T by auto. exact (s_rb _ _ _ _ _ _ _ S _ _ _ _ T).
  - intros n0 c0 lo0 hi0 lns i L0 J0. destruct (Nat.eq_dec n0 n) as [->|Ny].
    { exfalso. rewrite E1 in J0. cbn in J0. destruct Hj as [[-> _]|(m & -> & _)]; discriminate. }
    rewrite Jo in J0 by auto. rewrite Lv' in L0. exact (s_cm _ _ _ _ _ _ _ S _ _ _ _ _ _ L0 J0).
  - intros x Hx Lx U. rewrite Lv' in Lx. assert (x < f) as Hx'. { destruct (lt_dec x f); auto. rewrite Bl in Lx by lia. discriminate. }
    destruct (Sm x Hx') as [(_ & _ & _ & A) _]. apply (s_un _ _ _ _ _ _ _ S); auto; congruence.
Qed.
Lemma filter_nd (p : K * V -> bool) l : NoDup (map fst l) -> NoDup (map fst (filter p l)).
Proof.
  induction l as [|a l IH]; cbn; [constructor|]. intros N. apply NoDup_cons_iff in N as [N1 N2]. destruct (p a); cbn; auto.
  constructor; auto. intros C. apply N1. apply in_map_iff in C as (x & <- & C). apply filter_In in C as [C _]. now apply in_map.
Qed.
Lemma sj_frz0 n o c sg' : jb (h n) = Locked -> lvl (h n) = 1 -> ptr (h n) o = Some c -> sg n = G0 -> (forall m, sg' m = sg m) ->
  let h1 := upd h c (set_fz (Orig n) (h c)) in let h2 := upd h1 f (leaf0 (ents (h c)) Open n) in
  SJ (upd h2 n (set_jb (Swap0 o c f) (h2 n))) (Datatypes.S f) r nx dl sg'.
Proof.
  intros J L1 P G Es h1 h2. destruct (locked_lt leb h f r lg HI FI n) as [Hn Ln]; [congruence|].
  destruct (kid_lvl leb h f r lg HI n c Hn (in_kids _ _ _ P)) as [Lc Hc]. assert (c <> n) as Nc by (intros ->; lia).
  destruct (ok_frz0 leb HO h f r lg HI FI n o c J L1 P) as [HI' _]. fold h1 h2 in HI'. assert (f <> n /\ f <> c) as [Nf Nfc] by lia.
  eapply (sj_frz _ (Datatypes.S f) n o c (Swap0 o c f) f f (ents (h c)) (ents (h c)) Open Open); eauto; try lia; unfold h2, h1; intros; rewrite ?(upd_ne _ n), ?upd_eq, ?(upd_ne _ f), ?(upd_ne _ c), ?upd_eq by lia; auto; try lia.
  - apply (q_nd _ _ _ _ _ _ _ _ LI).
  - apply (q_nd _ _ _ _ _ _ _ _ LI).
  - tauto.
Qed.
Lemma sj_frz1 n o c m (v : V) sg' : jb (h n) = Locked -> lvl (h n) = 1 -> ptr (h n) o = Some c -> sg n = G0 -> (forall m, sg' m = sg m) ->
  get leb (ents (h c)) m = Some v -> above leb m (ents (h c)) <> [] ->
  let h1 := upd h c (set_fz (Orig n) (h c)) in
  let h2 := upd h1 f (leaf0 (upto leb m (ents (h c))) (Hold n) n) in
  let h3 := upd h2 (Datatypes.S f) (leaf0 (above leb m (ents (h c))) Open n) in
  SJ (upd h3 n (set_jb (Split o c m f (Datatypes.S f)) (h3 n))) (Datatypes.S (Datatypes.S f)) r nx dl sg'.
Proof.
  intros J L1 P G Es Gm Ha h1 h2 h3. destruct (locked_lt leb h f r lg HI FI n) as [Hn Ln]; [congruence|].
  destruct (kid_lvl leb h f r lg HI n c Hn (in_kids _ _ _ P)) as [Lc Hc]. assert (c <> n) as Nc by (intros ->; lia).
  destruct (ok_frz1 leb HO h f r lg HI FI n o c m v J L1 P Gm Ha) as [HI' _]. fold h1 h2 h3 in HI'. 
  assert (f <> n /\ f <> c /\ Datatypes.S f <> n /\ Datatypes.S f <> c) as (Nf & Nfc & Nf1 & Nfc1) by lia.
  eapply (sj_frz _ (Datatypes.S (Datatypes.S f)) n o c (Split o c m f (Datatypes.S f)) f (Datatypes.S f) (upto leb m (ents (h c))) (above leb m (ents (h c))) (Hold n) Open); eauto; try lia; 
    unfold h3, h2, h1; intros; rewrite ?(upd_ne _ n), ?upd_eq, ?(upd_ne _ (Datatypes.S f)), ?(upd_ne _ f), ?(upd_ne _ c), ?upd_eq by lia; auto; try lia.
  - apply filter_nd, (q_nd _ _ _ _ _ _ _ _ LI).
  - apply filter_nd, (q_nd _ _ _ _ _ _ _ _ LI).
  - unfold upto, above. rewrite !filter_In. unfold ltb. clear. destruct (leb (fst e) m); cbn; intuition.
  - unfold upto, above, ltb in *. apply filter_In in H0 as [_ A1]. apply filter_In in H1 as [_ A2].
    apply negb_true_iff in A2. unfold TiInv.klt. destruct (leb (fst b) (fst a)) eqn:Q; auto.
    rewrite (t_trans _ HO _ _ _ Q A1) in A2. discriminate.
  - right. exists m. repeat split; auto.
    pose proof (get_in leb HO _ _ _ Gm) as Ik. intros C. assert (In (m, v) (upto leb m (ents (h c)))) as Q; [|rewrite C in Q; destruct Q].
    apply filter_In. split; auto. apply (leb_refl leb HO).
Qed.
End sysc.
