(** Coalescing and the changes of the root keep the invariant of the list. *)
From Coq Require Import List Arith Bool Lia.
From Verif Require Import TcModel TcRoute TcSpec TcInv TcTree TcFrame TcKeep TcJobs TcSplit TcFrz TcMove TcGrow TcFz TcFzs TcExt TcSys TiModel TiInv TiConv TiList TiMove TiBlk TiPush TiStep TiSysA TiSysB TiSysC TiSysD.
Import ListNotations.

Section syse.
Context {K V : Type} (leb : K -> K -> bool) (HO : tord leb).
Notation heap := (nat -> obj K V).
Notation On := (On leb).
Notation Live := (Live leb).
Notation klt := (klt leb).
Notation HInv := (HInv leb).
Notation SJ := (SJ leb).
Notation nxt := (nxt leb).
Context (h : heap) (f : nat) (r : option nat) (nx : nat -> option nat) (dl : nat -> bool) (sg : nat -> stg) (S : SJ h f r nx dl sg)
  (lg : list (ev K V)) (HI : HInv h f r lg) (FI : FInv h f).
Notation tp := (tpf h sg).
Notation LI := (s_l _ _ _ _ _ _ _ S).

(** One node loses a retired child. *)
Section drop.
Context (h' : heap) (n : nat) (sg' : nat -> stg) (HI' : HInv h' f r lg) (Mv : MvT leb h r h')
  (Hn : n < f) (Eo : forall y, y <> n -> h' y = h y) (Ln : lvl (h' n) = lvl (h n))
  (Qn : ents (h' n) = ents (h n) /\ ret (h' n) = ret (h n) /\ fz (h' n) = fz (h n)).
Lemma dr_q y : lvl (h' y) = lvl (h y) /\ ents (h' y) = ents (h y) /\ ret (h' y) = ret (h y) /\ fz (h' y) = fz (h y).
Proof. destruct (Nat.eq_dec y n) as [->|Ny]; [tauto|]. rewrite Eo; auto. Qed.
Lemma dr_fwd k y : On h r k y -> lvl (h y) = 0 -> On h' r k y \/ ret (h y) = true
  \/ exists n lo hi om, tp n = Some (y, lo, hi) /\ pub sg n /\ On h' r k (sel leb om lo hi k).
Proof. intros O L. destruct (proj1 Mv k y O) as [?|R]; auto. right. left. unfold retired in R. now rewrite L in R. Qed.
Lemma dr_rev k y : On h' r k y -> lvl (h' y) = 0 -> (exists k', On h r k' y /\ On h' r k' y)
  \/ exists n L lo hi om, tp n = Some (L, lo, hi) /\ pub sg n /\ (isIns (jb (h n)) = true -> isIns (jb (h' n)) = false)
       /\ On h r k L /\ y = sel leb om lo hi k.
Proof. intros O _. left. now apply (proj2 Mv k y). Qed.
Lemma dr_li : LInv leb h' f r nx dl sg tp.
Proof.
  apply (li_move leb HO h f r nx dl sg S lg HI h' f r); auto using dr_fwd, dr_rev; try lia; intros; try left; try apply dr_q.
  split; [|intros _; split]; apply dr_q.
Qed.

Lemma sj_drop2 : lvl (h n) <> 1 -> (forall y, sg' y = sg y) -> SJ h' f r nx dl sg'.
Proof.
  intros L1 Es. apply (sj_move leb HO h f r nx dl sg S lg HI FI h' f r sg'); auto; try lia; auto using dr_fwd, dr_rev.
  - intros y _. destruct (dr_q y) as (A & B & C & _). auto.
  - intros y _. apply dr_q.
  - intros y _. apply dr_q.
  - intros y _. left. apply dr_q.
  - intros y. destruct (Nat.eq_dec y n) as [->|Ny]; [apply (js_not1 leb h f r nx dl sg S); auto|].
    apply (j_same leb h f r nx dl sg S); auto; now rewrite Eo.
  - intros y Ly. assert (y <> n) as Ny by congruence. rewrite Eo by auto. auto.
  - intros x Hx Lx U. assert (x <> n) as Ny by congruence. rewrite Eo in Lx, U by auto. now apply (s_un _ _ _ _ _ _ _ S).
Qed.
Lemma dr_up k y : On h' r k y -> lvl (h n) <= lvl (h y) -> On h r k y.
Proof.
  intros O. induction O as [q Hq|u z Hu IH Hz]; intros L; [now constructor|].
  assert (u < f) as Hu' by (eapply on_lt; eauto).
  destruct (kid_lvl leb h' f r lg HI' u z Hu' (nxt_kid leb h' u k z Hz)) as [Lz _].
  assert (lvl (h' z) = lvl (h z) /\ lvl (h' u) = lvl (h u)) as [E1 E2] by (split; apply dr_q).
  assert (u <> n) as Nu by (intros ->; lia).
  eapply On_step; [apply IH; lia|]. unfold TcInv.nxt in *. rewrite <- Hz. now rewrite Eo.
Qed.
Lemma sj_drop1 o c : lvl (h n) = 1 -> jb (h n) = Locked -> jb (h' n) = Locked -> sg n = GRet o -> ptr (h n) o = Some c ->
  (forall k, nxt h' n k <> Some c) -> (ub (h' n) = UNull -> ub (h n) = UNull) ->
  sg' n = G0 -> (forall y, y <> n -> sg' y = sg y) -> SJ h' f r nx dl sg'.
Proof.
  intros L1 J J' G P Nc U Gn Es.
  assert (~ Live h' r c) as Dc.
  { intros (k & O). destruct (kid_lvl leb h f r lg HI n c Hn (in_kids _ _ _ P)) as [Lc Hc].
    assert (exists u, On h' r k u /\ nxt h' u k = Some c) as (u & Ou & Nu).
    { destruct (dr_q c) as [Ec _]. destruct O as [q Hq|u z Hu Hz]; eauto. destruct (h_root _ _ _ _ _ HI' _ Hq) as (_ & Lr & _). lia. }
    assert (u <> n) as Nun by (intros ->; now apply (Nc k)).
    assert (u < f) as Hu' by (eapply on_lt; eauto).
    destruct (kid_lvl leb h' f r lg HI' u c Hu' (nxt_kid leb h' u k c Nu)) as [Lu _].
    assert (lvl (h' c) = lvl (h c) /\ lvl (h' u) = lvl (h u)) as [E1 E2] by (split; apply dr_q).
    assert (On h r k u) as Ou' by (apply dr_up; auto; lia).
    assert (nxt h u k = Some c) as Nu' by (unfold TcInv.nxt in *; now rewrite <- Eo).
    assert (On h r k c) as Oc by (eapply On_step; eauto).
    destruct (lk_up leb HO h f r lg HI n c o Hn J) with (k := k) as (On1 & _ & Nx1); auto; try lia.
    apply Nun. eapply (h_tree _ _ _ _ _ HI k k u n c); eauto. }
  assert (forall y, tpf h' sg' y = tp y) as To.
  { intros y. destruct (Nat.eq_dec y n) as [->|Ny]; [|apply tp_ext; auto; now rewrite Eo].
    unfold tpf. rewrite Ln, L1, J, J'. reflexivity. }
  apply (sj_rest leb HO h f r nx dl sg S lg h' f r sg'); auto; try lia; auto using dr_rev.
  - intros y _. destruct (dr_q y) as (A & B & _). auto.
  - intros n0 L lo hi T. left. rewrite To. split; auto. apply Es. intros ->. unfold tpf in T. rewrite L1, J in T. discriminate.
  - intros n0 L lo hi T. rewrite To in T. split; auto. apply Es. intros ->. unfold tpf in T. rewrite L1, J in T. discriminate.
  - intros n0 L lo hi T. destruct (Nat.eq_dec n0 n) as [->|Ny]; [rewrite J'; intros []|]. now rewrite Eo.
  - intros y. destruct (Nat.eq_dec y n) as [->|Ny]; [rewrite Ln, L1, J', Gn; cbn; auto|]. rewrite Eo, Es by auto. apply S.
  - intros n0 o0 c0 m0 lo hi b L0 J0. destruct (Nat.eq_dec n0 n) as [->|Ny]; [congruence|].
    rewrite Eo in * by auto. split; [|left; eauto]. exact (proj1 (s_in _ _ _ _ _ _ _ S _ _ _ _ _ _ _ L0 J0)).
  - intros p o0 y Hp Gp Pp. destruct (Nat.eq_dec p n) as [->|Np].
    + right. rewrite G in Gp. injection Gp as <-. congruence.
    + left. rewrite Es, Eo by auto. auto.
  - intros n0 c0 lo hi lns i L0 J0. destruct (Nat.eq_dec n0 n) as [->|Ny]; [congruence|]. rewrite Eo in * by auto. left. eauto.
  - intros x Hx Lx Ux. apply (s_un _ _ _ _ _ _ _ S); auto; destruct (Nat.eq_dec x n) as [->|Ny]; auto; rewrite Eo in * by auto; auto.
  - apply (l_ext leb h' f r nx dl sg tp dr_li); auto. intros y. destruct (Nat.eq_dec y n) as [->|Ny]; auto.
    left. unfold tpf. rewrite L1, J. reflexivity.
Qed.
End drop.

Lemma sj_rem n j c sg' : jb (h n) = Locked -> slot_child (cells (h n)) j = Some c -> retired (h c) = true ->
  (lvl (h n) = 1 -> sg n = GRet (PSlot j)) -> sg' n = G0 -> (forall y, y <> n -> sg' y = sg y) ->
  SJ (upd h n (set_cells (h n) (del_slot j (cells (h n))) (nsl (h n)))) f r nx dl sg'.
Proof.
  intros J Hs Hr G Gn Es. destruct (locked_lt leb h f r lg HI FI n) as [Hn Ln]; [congruence|].
  assert (ptr (h n) (PSlot j) = Some c) as Hp by auto.
  match goal with |- SJ ?x _ _ _ _ _ => set (h' := x) end.
  assert (h' n = drop_low (h n) j) as A1 by (unfold h'; apply upd_eq).
  assert (forall y, y <> n -> h' y = h y) as A2 by (intros; unfold h'; apply upd_ne; auto).
  destruct (step_rem leb HO h f r lg HI h' n j c Hn J Hs Hr A1 A2) as (H1 & _ & H3). clearbody h'.
  destruct (Nat.eq_dec (lvl (h n)) 1) as [L1|L1].
  - apply (sj_drop1 h' n sg' H1 H3 Hn A2) with (o := PSlot j) (c := c); auto; try (rewrite A1; auto; fail).
    intros k. unfold TcInv.nxt. rewrite A1. intros E. pose proof (lk_nd leb h f r lg HI n Hn J) as Nd.
    destruct (drop_nx_moved leb (h n) j k) as (o' & No & Eo' & _). rewrite Eo' in E. apply No. eapply ptr_inj; eauto.
  - apply (sj_drop2 h' n sg' H1 H3 Hn A2); auto; try (rewrite A1; auto; fail).
    intros y. destruct (Nat.eq_dec y n) as [->|]; auto. rewrite Gn. symmetry. now apply (g0_not1 leb h f r nx dl sg S).
Qed.
Lemma sj_ret n c sg' : jb (h n) = Locked -> ub (h n) = UTo c -> cells (h n) = [] -> retired (h c) = true ->
  (lvl (h n) = 1 -> sg n = GRet PUb) -> sg' n = G0 -> (forall y, y <> n -> sg' y = sg y) ->
  SJ (upd h n (set_ub (h n) URet)) f r nx dl sg'.
Proof.
  intros J Hu Hcs Hr G Gn Es. destruct (locked_lt leb h f r lg HI FI n) as [Hn Ln]; [congruence|].
  match goal with |- SJ ?x _ _ _ _ _ => set (h' := x) end.
  assert (h' n = set_ub (h n) URet) as A1 by (unfold h'; apply upd_eq).
  assert (forall y, y <> n -> h' y = h y) as A2 by (intros; unfold h'; apply upd_ne; auto).
  destruct (step_ret leb HO h f r lg HI h' n c Hn J Hu Hcs Hr A1 A2) as (H1 & _ & H3). clearbody h'.
  destruct (Nat.eq_dec (lvl (h n)) 1) as [L1|L1].
  - apply (sj_drop1 h' n sg' H1 H3 Hn A2) with (o := PUb) (c := c); auto; try (rewrite A1; auto; fail).
    + cbn. now rewrite Hu.
    + intros k. unfold TcInv.nxt, TcRoute.nx. rewrite pos_rts, A1. cbn. rewrite Hcs. cbn. discriminate.
    + rewrite A1. discriminate.
  - apply (sj_drop2 h' n sg' H1 H3 Hn A2); auto; try (rewrite A1; auto; fail).
    intros y. destruct (Nat.eq_dec y n) as [->|]; auto. rewrite Gn. symmetry. now apply (g0_not1 leb h f r nx dl sg S).
Qed.
Lemma sj_ub n pre s j c d sg' : jb (h n) = Locked -> ub (h n) = UTo c -> cells (h n) = pre ++ [(s, (j, d))] -> retired (h c) = true ->
  lvl (h n) <> 1 -> (forall y, sg' y = sg y) -> SJ (upd h n (set_jb (CUb j) (set_ub (h n) (UTo d)))) f r nx dl sg'.
Proof.
  intros J Hu Hcs Hr L1 Es. destruct (locked_lt leb h f r lg HI FI n) as [Hn Ln]; [congruence|].
  match goal with |- SJ ?x _ _ _ _ _ => set (h' := x) end.
  assert (h' n = set_jb (CUb j) (set_ub (h n) (UTo d))) as A1 by (unfold h'; apply upd_eq).
  assert (forall y, y <> n -> h' y = h y) as A2 by (intros; unfold h'; apply upd_ne; auto).
  destruct (step_ub leb HO h f r lg HI h' n pre s j c d Hn J Hu Hcs Hr A1 A2) as (H1 & _ & H3). clearbody h'.
  apply (sj_drop2 h' n sg' H1 H3 Hn A2); auto; rewrite A1; auto.
Qed.
Lemma sj_ubrem n j sg' : jb (h n) = CUb j -> (forall y, sg' y = sg y) ->
  SJ (upd h n (set_jb Locked (set_cells (h n) (del_slot j (cells (h n))) (nsl (h n))))) f r nx dl sg'.
Proof.
  intros J Es. destruct (locked_lt leb h f r lg HI FI n) as [Hn Ln]; [congruence|].
  assert (lvl (h n) <> 1) as L1. { intros E. pose proof (s_g _ _ _ _ _ _ _ S n) as G. rewrite E, J in G. exact G. }
  match goal with |- SJ ?x _ _ _ _ _ => set (h' := x) end.
  assert (h' n = set_jb Locked (drop_low (h n) j)) as A1 by (unfold h'; apply upd_eq).
  assert (forall y, y <> n -> h' y = h y) as A2 by (intros; unfold h'; apply upd_ne; auto).
  destruct (step_ubrem leb HO h f r lg HI h' n j Hn J A1 A2) as (H1 & H3). clearbody h'.
  assert (forall k y, On h r k y -> On h' r k y) as O1.
  { intros k y O. induction O as [q Hq|u z Hu IH Hz]; [now constructor|]. eapply On_step; eauto. now rewrite H3. }
  assert (forall k y, On h' r k y -> On h r k y) as O2.
  { intros k y O. induction O as [q Hq|u z Hu IH Hz]; [now constructor|]. eapply On_step; eauto. now rewrite <- H3. }
  apply (sj_drop2 h' n sg' H1); auto; try (rewrite A1; auto; fail).
  split; eauto.
Qed.

(** The root changes; the ways of the leaves do not. *)
Lemma sj_root h' f' r' sg' : HInv h' f' r' lg -> f <= f' ->
  (forall y, y < f -> lvl (h' y) = lvl (h y) /\ ents (h' y) = ents (h y) /\ ret (h' y) = ret (h y) /\ fz (h' y) = fz (h y)
     /\ kids (h' y) = kids (h y) /\ (forall o, ptr (h' y) o = ptr (h y) o) /\ ub (h' y) = ub (h y)) ->
  (forall y, f <= y -> y < f' -> lvl (h' y) <> 0) -> (forall y, f' <= y -> h' y = h y) ->
  (forall k y, On h r k y -> lvl (h y) = 0 -> On h' r' k y) -> (forall k y, On h' r' k y -> lvl (h' y) = 0 -> On h r k y) ->
  (forall n, jstep h h' sg sg' dl n) ->
  (forall y, f <= y -> y < f' -> lvl (h' y) = 1 -> ub (h' y) = UNull -> r' = Some y) ->
  (forall y, y < f -> lvl (h y) = 1 -> ub (h y) = UNull -> r = Some y -> r' = Some y) -> SJ h' f' r' nx dl sg'.
Proof.
  intros HI' Hf Q Hn Hb O1 O2 Js U1 U2.
  assert (forall y, dl y = true -> fz (h' y) = fz (h y) \/ fz (h' y) <> Open) as Fd.
  { intros y D. destruct (lt_dec y f) as [A|A]; [left; now apply Q|]. destruct (lt_dec y f') as [B|B]; [|left; now rewrite Hb by lia].
    exfalso. pose proof (q_dlt _ _ _ _ _ _ _ _ LI y D). lia. }
  apply (sj_move leb HO h f r nx dl sg S lg HI FI h' f' r' sg'); auto.
  - intros y Hy. destruct (Q y Hy) as (A & B & C & _). auto.
  - intros y A. now rewrite Hb.
  - intros y (n & lo & hi & T). destruct (blk leb h f r nx dl sg S _ _ _ _ T) as [_ B]. apply Q. apply (b_lt _ _ _ _ _ _ _ _ _ _ _ B).
  - intros k y O L. left. exists k. auto.
  - intros n L1. assert (n < f) as Hn' by (apply (lvl1_lt h f FI); lia). destruct (Q n Hn') as (_ & _ & _ & _ & A & B & _). rewrite A. auto.
  - intros x Hx Lx U. destruct (lt_dec x f) as [A|A]; [|apply U1; auto; lia].
    destruct (Q x A) as (B & _ & _ & _ & _ & _ & C). apply U2; auto; try congruence. apply (s_un _ _ _ _ _ _ _ S); congruence.
Qed.

Lemma on_none k y : ~ On h None k y.
Proof. intros O. destruct (on_root_ex leb h None k y O). discriminate. Qed.
Lemma ub_nil n k : n < f -> (forall u, ub (h n) <> UTo u) -> nxt h n k = None.
Proof.
  intros Hn U. assert (cells (h n) = []) as Ec by (apply (w_ub _ _ _ _ (h_wf _ _ _ _ _ HI n Hn)); auto).
  unfold TcInv.nxt, TcRoute.nx. rewrite pos_rts, Ec. cbn. destruct (ub (h n)); auto. now destruct (U c).
Qed.
Lemma js_new h' sg' n : f <= n -> sg' n = sg n -> lvl (h' n) <> 1 \/ jb (h' n) = Idle \/ jb (h' n) = NewLk -> jstep h h' sg sg' dl n.
Proof.
  intros Hn G D. assert (h n = blank) as B by (now apply FI).
  assert (sg n = G0) as G0n by (apply (g0_not1 leb h f r nx dl sg S); rewrite B; discriminate).
  assert (tpf h sg n = None) as T. { unfold tpf. rewrite B. reflexivity. }
  assert (tpf h' sg' n = None) as T'.
  { unfold tpf. destruct (Nat.eqb_spec (lvl (h' n)) 1); auto. destruct D as [?|[->| ->]]; [tauto|auto|auto]. }
  constructor; rewrite ?T, ?T', ?G, ?G0n; try tauto; try discriminate.
  - destruct (lvl (h' n)) as [|[|]]; cbn; auto. destruct D as [?|[->| ->]]; [tauto|cbn; auto|cbn; auto].
  - intros. destruct D as [?|[?|?]]; congruence.
  - intros. destruct D as [?|[?|?]]; congruence.
Qed.
Lemma sj_inst w sg' : r = None -> (forall y, sg' y = sg y) ->
  SJ (upd h f (node0 1 [] 0 UNull Idle w)) (Datatypes.S f) (Some f) nx dl sg'.
Proof.
  intros Hr Es. pose proof (proj1 (ok_inst leb h f r lg HI FI w Hr)) as HI'.
  match goal with |- SJ ?x _ _ _ _ _ => set (h' := x) end. change (HInv h' (Datatypes.S f) (Some f) lg) in HI'.
  assert (h' f = node0 1 [] 0 UNull Idle w) as A1 by (unfold h'; apply upd_eq).
  assert (forall y, y <> f -> h' y = h y) as A2 by (intros; unfold h'; apply upd_ne; auto). clearbody h'.
  assert (lvl (h' f) = 1 /\ jb (h' f) = Idle) as [A3 A4] by (rewrite A1; auto).
  apply (sj_root h' (Datatypes.S f) (Some f) sg'); auto; try lia.
  - intros y Hy. rewrite A2 by lia. repeat split; auto.
  - intros y H1 H2. assert (y = f) as -> by lia. lia.
  - intros y Hy. apply A2. lia.
  - intros k y O. exfalso. rewrite Hr in O. eapply on_none; eauto.
  - intros k y O L. exfalso. assert (y = f) as ->; [|congruence]. clear L.
    induction O as [q Hq|u z Hu IH Hz]; [congruence|]. subst u. unfold TcInv.nxt, TcRoute.nx in Hz. rewrite pos_rts, A1 in Hz. discriminate.
  - intros y. destruct (lt_dec y f) as [A|A]; [apply (j_same leb h f r nx dl sg S); auto; rewrite A2 by lia; auto|].
    apply js_new; auto; [lia|]. destruct (Nat.eq_dec y f) as [->|Ny]; auto. left. rewrite A2 by auto. rewrite (f_blank _ _ FI y) by lia. discriminate.
  - intros y H1 H2. assert (y = f) as -> by lia. auto.
  - congruence.
Qed.
Lemma sj_none n j sg' : r = Some n -> jb (h n) = Locked -> ub (h n) = URet -> j = Locked \/ j = Poison ->
  (lvl (h n) = 1 -> sg n = G0) -> (forall y, sg' y = sg y) -> SJ (upd h n (set_jb j (h n))) f None nx dl sg'.
Proof.
  intros Hr J Hu Hj G Es. pose proof (proj1 (ok_none leb h f r lg HI FI n j Hr J Hu Hj)) as HI'.
  destruct (locked_lt leb h f r lg HI FI n) as [Hn Ln]; [congruence|].
  assert (sg n = G0) as G0n. { destruct (Nat.eq_dec (lvl (h n)) 1); auto. now apply (g0_not1 leb h f r nx dl sg S). }
  match goal with |- SJ ?x _ _ _ _ _ => set (h' := x) end. change (HInv h' f None lg) in HI'.
  assert (h' n = set_jb j (h n)) as A1 by (unfold h'; apply upd_eq).
  assert (forall y, y <> n -> h' y = h y) as A2 by (intros; unfold h'; apply upd_ne; auto). clearbody h'.
  apply (sj_root h' f None sg'); auto; try lia.
  - intros y _. destruct (Nat.eq_dec y n) as [->|Ny]; [rewrite A1|rewrite A2 by auto]; repeat split; auto.
  - intros y Hy. apply A2. lia.
  - intros k y O L. exfalso. assert (y = n) as ->; [|congruence]. clear L.
    induction O as [q Hq|u z Hu' IH Hz]; [congruence|]. subst u. rewrite ub_nil in Hz; auto; congruence.
  - intros k y O. exfalso. destruct (on_root_ex leb h' None k y O). discriminate.
  - intros y. destruct (Nat.eq_dec y n) as [->|Ny]; [|apply (j_same leb h f r nx dl sg S); auto; rewrite A2 by auto; auto].
    assert (tpf h sg n = None) as T. { unfold tpf. rewrite J. now destruct (_ =? _). }
    assert (tpf h' sg' n = None) as T'. { unfold tpf. rewrite A1. cbn. destruct Hj as [->| ->]; now destruct (_ =? _). }
    constructor; rewrite ?T, ?T', ?Es, ?G0n; try tauto; try discriminate.
    + rewrite A1. cbn [set_jb lvl jb]. destruct (lvl (h n)) as [|[|]]; cbn; auto. destruct Hj as [->| ->]; auto.
    + rewrite A1. cbn. intros; destruct Hj; congruence.
    + rewrite A1. cbn. intros; destruct Hj; congruence.
  - intros y Hy Ly Uy E. congruence.
Qed.
Lemma sj_pop n c sg' : r = Some n -> jb (h n) = Locked -> cells (h n) = [] -> ub (h n) = UTo c -> lvl (h n) <> 1 ->
  (forall y, sg' y = sg y) -> SJ (upd h n (set_jb Poison (set_over None (h n)))) f (Some c) nx dl sg'.
Proof.
  intros Hr J Hcs Hu L1 Es. pose proof (proj1 (ok_pop leb h f r lg HI FI n c Hr J Hcs Hu L1)) as HI'.
  destruct (locked_lt leb h f r lg HI FI n) as [Hn Ln]; [congruence|].
  match goal with |- SJ ?x _ _ _ _ _ => set (h' := x) end. change (HInv h' f (Some c) lg) in HI'.
  assert (h' n = set_jb Poison (set_over None (h n))) as A1 by (unfold h'; apply upd_eq).
  assert (forall y, y <> n -> h' y = h y) as A2 by (intros; unfold h'; apply upd_ne; auto). clearbody h'.
  assert (forall k, nxt h n k = Some c) as Nx.
  { intros k. unfold TcInv.nxt, TcRoute.nx. rewrite pos_rts, Hcs. cbn. now rewrite Hu. }
  assert (forall k y, nxt h' y k = nxt h y k) as Nx'.
  { intros k y. unfold TcInv.nxt. destruct (Nat.eq_dec y n) as [->|Ny]; [rewrite A1; reflexivity|now rewrite A2]. }
  apply (sj_root h' f (Some c) sg'); auto; try lia.
  - intros y _. destruct (Nat.eq_dec y n) as [->|Ny]; [rewrite A1|rewrite A2 by auto]; repeat split; auto.
  - intros y Hy. apply A2. lia.
  - intros k y O L. assert (y = n \/ On h' (Some c) k y) as [->|]; [|congruence|auto]. clear L.
    induction O as [q Hq|u z Hu' IH Hz]; [left; congruence|]. right. destruct IH as [->|IH].
    + rewrite Nx in Hz. injection Hz as <-. now constructor.
    + eapply On_step; eauto. now rewrite Nx'.
  - intros k y O _. induction O as [q Hq|u z Hu' IH Hz].
    + injection Hq as <-. eapply On_step; [constructor; eauto|]. apply Nx.
    + eapply On_step; eauto. now rewrite <- Nx'.
  - intros y. destruct (Nat.eq_dec y n) as [->|Ny]; [|apply (j_same leb h f r nx dl sg S); auto; rewrite A2 by auto; auto].
    apply (js_not1 leb h f r nx dl sg S); auto. now rewrite A1.
  - intros y Hy Ly Uy E. congruence.
Qed.
Lemma sj_top n w sg' : r = Some n -> Live h r n -> ub (h n) <> UNull -> (forall y, sg' y = sg y) ->
  SJ (upd h f (node0 (Datatypes.S (lvl (h n))) [] 0 (UTo n) Locked w)) (Datatypes.S f) (Some f) nx dl sg'.
Proof.
  intros Hr Lv Un Es. pose proof (proj1 (ok_top leb h f r lg HI FI n w Hr Lv)) as HI'.
  destruct (h_root _ _ _ _ _ HI n Hr) as (Hn & Ln & On0).
  match goal with |- SJ ?x _ _ _ _ _ => set (h' := x) end. change (HInv h' (Datatypes.S f) (Some f) lg) in HI'.
  assert (h' f = node0 (Datatypes.S (lvl (h n))) [] 0 (UTo n) Locked w) as A1 by (unfold h'; apply upd_eq).
  assert (forall y, y <> f -> h' y = h y) as A2 by (intros; unfold h'; apply upd_ne; auto). clearbody h'.
  assert (lvl (h' f) = Datatypes.S (lvl (h n))) as A3 by (rewrite A1; auto).
  assert (forall k, nxt h' f k = Some n) as Nx.
  { intros k. unfold TcInv.nxt, TcRoute.nx. rewrite pos_rts, A1. reflexivity. }
  apply (sj_root h' (Datatypes.S f) (Some f) sg'); auto; try lia.
  - intros y Hy. rewrite A2 by lia. repeat split; auto.
  - intros y H1 H2. assert (y = f) as -> by lia. lia.
  - intros y Hy. apply A2. lia.
  - intros k y O _. induction O as [q Hq|u z Hu IH Hz].
    + eapply On_step; [constructor; eauto|]. rewrite Nx. congruence.
    + eapply On_step; eauto. unfold TcInv.nxt in *. rewrite A2; auto. apply Nat.lt_neq. eapply (on_lt leb h f r lg HI); eauto.
  - intros k y O L. assert (y = f \/ (y <> f /\ On h r k y)) as [->|[_ ?]]; [|lia|auto]. clear L.
    induction O as [q Hq|u z Hu IH Hz]; [left; congruence|]. right.
    assert (On h r k z) as Oz.
    { destruct IH as [->|[Nu IH]]; [rewrite Nx in Hz; injection Hz as <-; now constructor|].
      eapply On_step; eauto. unfold TcInv.nxt in *. rewrite <- Hz. now rewrite A2. }
    split; auto. apply Nat.lt_neq. eapply (on_lt leb h f r lg HI); eauto.
  - intros y. destruct (lt_dec y f) as [A|A]; [apply (j_same leb h f r nx dl sg S); auto; rewrite A2 by lia; auto|].
    apply js_new; auto; [lia|]. left. destruct (Nat.eq_dec y f) as [->|Ny]; [lia|]. rewrite A2 by auto. rewrite (f_blank _ _ FI y) by lia. discriminate.
  - intros y H1 H2 H3. assert (y = f) as -> by lia. lia.
  - congruence.
Qed.
End syse.
