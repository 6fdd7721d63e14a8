(** Commits, rollbacks and takes keep the invariant of the list. *)
From Coq Require Import List Arith Bool Lia.
From Verif Require Import TcModel TcRoute TcSpec TcInv TcTree TcFrame TcKeep TcJobs TcSplit TcFrz TcMove TcGrow TcFz TcFzs TcExt TcSys TiModel TiInv TiConv TiList TiMove TiBlk TiPush TiStep TiSysA.
Import ListNotations.

Ltac sp := unfold upd; rewrite ?Nat.eqb_refl; repeat match goal with |- context [Nat.eqb ?a ?b] =>
  let E := fresh in destruct (Nat.eqb_spec a b) as [E|E]; [first [exfalso; congruence|subst a; rewrite ?Nat.eqb_refl]|] end; repeat split; auto; try congruence.

Section sysb.
Context {K V : Type} (leb : K -> K -> bool) (HO : tord leb).
Notation heap := (nat -> obj K V).
Notation On := (On leb).
Notation Live := (Live leb).
Notation klt := (klt leb).
Notation HInv := (HInv leb).
Notation SJ := (SJ leb).
Context (h : heap) (f : nat) (r : option nat) (nx : nat -> option nat) (dl : nat -> bool) (sg : nat -> stg) (S : SJ h f r nx dl sg)
  (lg : list (ev K V)) (HI : HInv h f r lg) (FI : FInv h f).
Notation tp := (tpf h sg).
Notation LI := (s_l _ _ _ _ _ _ _ S).

(** A child that is taken commits. *)
Lemma js_commit (h' : heap) sg' c o d m lo hi w lns : jb (h c) = Full o d m lo hi (Some w) lns -> lvl (h' c) = lvl (h c) ->
  jb (h' c) = Commit d lo hi lns 0 -> sg' c = sg c -> jstep h h' sg sg' dl c.
Proof.
  intros J L J' G. pose proof (s_g _ _ _ _ _ _ _ S c) as Gc. rewrite J in Gc. 
  constructor; unfold tpf; rewrite ?L, ?J, ?J', ?G; try discriminate; auto.
  - unfold stgok in Gc. destruct (lvl (h c)) as [|[|]]; cbn; auto. now rewrite Gc.
  - unfold stgok in *. destruct (lvl (h c)) as [|[|]]; cbn; auto.
  - intros ? ? ? ? ? L1 [= <- <- <- <- <-]. right. unfold stgok in Gc. rewrite L1 in *. cbn. auto.
Qed.
Lemma js_untake (h' : heap) sg' c o d m lo hi w lns : jb (h c) = Full o d m lo hi (Some w) lns -> lvl (h' c) = lvl (h c) ->
  jb (h' c) = Full o d m lo hi None lns -> sg' c = sg c -> jstep h h' sg sg' dl c.
Proof.
  intros J L J' G. pose proof (s_g _ _ _ _ _ _ _ S c) as Gc. rewrite J in Gc. 
  constructor; unfold tpf; rewrite ?L, ?J, ?J', ?G; try discriminate; auto.
  unfold stgok in *. destruct (lvl (h c)) as [|[|]]; cbn; auto.
Qed.
Lemma js_take (h' : heap) sg' c o d m lo hi w lns lns' : jb (h c) = Full o d m lo hi None lns -> lvl (h' c) = lvl (h c) ->
  (lvl (h c) = 1 -> sg c = GLo) ->
  jb (h' c) = Full o d m lo hi (Some w) lns' -> sg' c = sg c -> jstep h h' sg sg' dl c.
Proof.
  intros J L Gl J' G. pose proof (s_g _ _ _ _ _ _ _ S c) as Gc. rewrite J in Gc. 
  constructor; unfold tpf; rewrite ?L, ?J, ?J', ?G; try discriminate; auto.
  unfold stgok in *. destruct (lvl (h c)) as [|[|]]; cbn; auto.
Qed.
(** A node that is not a leaf node changes its job. *)
Lemma js_not1 (h' : heap) sg' n : lvl (h n) <> 1 -> lvl (h' n) = lvl (h n) -> sg' n = sg n -> jstep h h' sg sg' dl n.
Proof.
  intros L L' G. pose proof (g0_not1 leb h f r nx dl sg S n L) as G0n. apply Nat.eqb_neq in L.
  constructor; unfold tpf; rewrite ?L', ?G, ?L, ?G0n; try discriminate; auto.
  - apply Nat.eqb_neq in L. destruct (lvl (h n)) as [|[|]]; cbn; auto. congruence.
  - tauto.
  - apply Nat.eqb_neq in L. congruence.
  - apply Nat.eqb_neq in L. congruence.
Qed.

Lemma sj_commit2 n c low high lns i sg' : lvl (h n) <> 1 -> jb (h n) = Commit c low high lns i -> (forall m, sg' m = sg m) ->
  let h1 := upd h n (set_jb Poison (h n)) in
  SJ (match jb (h1 c) with
      | Full _ d _ lo hi _ lns' => upd h1 c (set_jb (Commit d lo hi lns' 0) (h1 c))
      | _ => h1 end) f r nx dl sg'.
Proof.
  intros L J Es h1. destruct (locked_lt leb h f r lg HI FI n) as [Hn Ln]; [congruence|].
  pose proof (ok_commit2 leb HO h f r lg HI FI n c low high lns i L J) as (HI' & _). fold h1 in HI'. revert HI'.
  pose proof (w_commit _ _ _ _ (h_wf _ _ _ _ _ HI n Hn)) as W. rewrite J in W. destruct W as (_ & W).
  destruct (W L) as (Hc & Lc & Hh & Oc). unfold held in Hh. destruct (lvl (h c)) as [|lc] eqn:Elc; [tauto|].
  destruct Hh as (o & d & m & lo & hi & lns' & Jc). assert (c <> n) as Nc by (intros ->; congruence).
  assert (h1 c = h c) as E1 by (apply upd_ne; auto). rewrite E1, Jc. intros HI'.
  apply (sj_same leb HO h f r nx dl sg S lg HI FI); auto; try lia.
  - intros y Hy. unfold h1. sp.
  - intros y Hy. unfold h1. sp; lia.
  - intros y _. unfold h1. sp.
  - intros y _. left. unfold h1. sp.
  - intros y. destruct (Nat.eq_dec y n) as [->|Ny]; [|destruct (Nat.eq_dec y c) as [->|Nyc]].
    + apply js_not1; auto. unfold h1. sp.
    + eapply js_commit; eauto; rewrite upd_eq; cbn; auto.
    + apply (j_same leb h f r nx dl sg S); auto; unfold h1; rewrite !upd_ne by auto; auto.
Qed.

Lemma sj_roll2 n o c m low high lns sg' : lvl (h n) <> 1 -> jb (h n) = Full o c m low high None lns -> (forall m, sg' m = sg m) ->
  let h1 := upd h n (set_jb Locked (h n)) in
  SJ (if lvl (h1 n) =? 1 then
        let h2 := upd h1 c (set_fz Open (h1 c)) in
        let h3 := upd h2 low (set_fz Gone (h2 low)) in upd h3 high (set_fz Gone (h3 high))
      else match jb (h1 c) with
           | Full o' c' m' low' high' _ lns' => upd h1 c (set_jb (Full o' c' m' low' high' None lns') (h1 c))
           | _ => h1 end) f r nx dl sg'.
Proof.
  intros L J Es h1. destruct (locked_lt leb h f r lg HI FI n) as [Hn Ln]; [congruence|].
  pose proof (ok_roll leb HO h f r lg HI FI n o c m low high lns J) as (HI' & _). fold h1 in HI'. revert HI'.
  assert (jv (jb (h n)) = Some (o, c, Some m, low, high)) as Jv by now rewrite J.
  pose proof (h_hld _ _ _ _ _ HI _ _ _ _ _ _ Hn Jv) as Hl.
  destruct (jv_c_lt leb h f r lg HI _ _ _ _ _ _ Hn Jv) as [Hc Lc].
  pose proof (l_held _ _ _ _ _ _ _ _ _ Hl) as Hh. assert (c <> n) as Nc by (intros ->; lia).
  assert (lvl (h1 n) = lvl (h n)) as El by (unfold h1; sp). rewrite El. pose proof L as L2. apply Nat.eqb_neq in L2. rewrite L2.
  unfold held in Hh. destruct (lvl (h c)) eqn:Elc; [lia|]. destruct Hh as (o' & c' & m' & low' & high' & lns' & Jc).
  assert (h1 c = h c) as E1 by (apply upd_ne; auto). rewrite E1, Jc. intros HI'.
  apply (sj_same leb HO h f r nx dl sg S lg HI FI); auto; try lia.
  - intros y Hy. unfold h1. sp.
  - intros y Hy. unfold h1. sp; lia.
  - intros y _. unfold h1. sp.
  - intros y _. left. unfold h1. sp.
  - intros y. destruct (Nat.eq_dec y n) as [->|Ny]; [|destruct (Nat.eq_dec y c) as [->|Nyc]].
    + apply js_not1; auto. unfold h1. sp.
    + eapply js_untake; eauto; rewrite upd_eq; cbn; auto.
    + apply (j_same leb h f r nx dl sg S); auto; unfold h1; rewrite !upd_ne by auto; auto.
Qed.

Lemma sj_take n c o o1 c1 m1 lo1 hi1 lns1 lns2 b mid xl xh sg' :
  jb (h n) = Locked -> ptr (h n) o = Some c -> lvl (h c) <> 0 ->
  jb (h c) = Full o1 c1 m1 lo1 hi1 None lns1 ->
  build (h c) o1 m1 lo1 hi1 b n = Some (mid, xl, xh) ->
  lns2 = match lvl (h c) with 1 => Some (f, Datatypes.S f) | _ => None end ->
  (lvl (h c) = 1 -> sg c = GLo) -> (forall m, sg' m = sg m) ->
  let h1 := upd h c (set_jb (Full o1 c1 m1 lo1 hi1 (Some n) lns2) (h c)) in
  let h2 := upd h1 f xl in let h3 := upd h2 (Datatypes.S f) xh in
  SJ (upd h3 n (set_jb (Split o c mid f (Datatypes.S f)) (h3 n))) (Datatypes.S (Datatypes.S f)) r nx dl sg'.
Proof.
  intros J Hp Lc Jc Hb El Gl Es h1 h2 h3. destruct (locked_lt leb h f r lg HI FI n) as [Hn Ln]; [congruence|].
  destruct (ok_take leb HO h f r lg HI FI n c o o1 c1 m1 lo1 hi1 lns1 lns2 b mid xl xh J Hp Lc Jc Hb El) as (HI' & FI' & _). fold h1 h2 h3 in HI', FI'.
  destruct (kid_lvl leb h f r lg HI n c Hn (in_kids _ _ _ Hp)) as [Lc' Hc]. assert (c <> n) as Nc by (intros ->; lia).
  assert (f <> n /\ f <> c /\ Datatypes.S f <> n /\ Datatypes.S f <> c) as (Nf & Nfc & Nf1 & Nfc1) by lia.
  assert (h3 n = h n) as E3 by (unfold h3, h2, h1; rewrite !upd_ne by auto; auto).
  assert (exists es u j, xl = mk_node (lvl (h c)) es u j n /\ (lvl (h c) = 1 -> j = NewLk)) as (es1 & u1 & j1 & X1 & X1').
  { unfold build in Hb. destruct (repl (h c) o1 m1 lo1 hi1) as [es u]. destruct b; [discriminate|]. destruct (nth_error es b) as [[? ?]|]; [|discriminate].
    injection Hb as _ <- _. do 3 eexists. split; [reflexivity|]. now intros ->. }
  assert (exists es u j, xh = mk_node (lvl (h c)) es u j n /\ (lvl (h c) = 1 -> j = NewLk)) as (es2 & u2 & j2 & X2 & X2').
  { unfold build in Hb. destruct (repl (h c) o1 m1 lo1 hi1) as [es u]. destruct b; [discriminate|]. destruct (nth_error es b) as [[? ?]|]; [|discriminate].
    injection Hb as _ _ <-. do 3 eexists. split; [reflexivity|]. now intros ->. }
  assert (forall y, f <= y -> sg y = G0) as Gf.
  { intros y Hy. apply (g0_not1 leb h f r nx dl sg S). rewrite (f_blank _ _ FI y Hy). discriminate. }
  assert (forall y, f <= y -> tp y = None) as Tf.
  { intros y Hy. unfold tpf. now rewrite (f_blank _ _ FI y Hy). }
  assert (forall y x es u j, y = f \/ y = Datatypes.S f -> upd h3 n (set_jb (Split o c mid f (Datatypes.S f)) (h3 n)) y = x -> 
    x = mk_node (lvl (h c)) es u j n -> (lvl (h c) = 1 -> j = NewLk) ->
    jstep h (upd h3 n (set_jb (Split o c mid f (Datatypes.S f)) (h3 n))) sg sg' dl y) as New.
  { intros y x es u j Hy Ex -> Hj. assert (f <= y) as Hy' by lia. 
    assert (lvl (mk_node (V := V) (lvl (h c)) es u j n) = lvl (h c)) as M1 by reflexivity.
    assert (jb (mk_node (V := V) (lvl (h c)) es u j n) = j) as M2 by reflexivity.
    constructor; rewrite ?Ex, ?Es, ?Tf, ?Gf by auto; auto; try discriminate; try tauto.
    - unfold tpf. rewrite Ex, M1, M2. destruct (Nat.eqb_spec (lvl (h c)) 1) as [E|E]; auto. now rewrite Hj.
    - rewrite M1, M2. destruct (lvl (h c)) as [|[|]]; cbn; auto. now rewrite Hj.
    - rewrite M1, M2. intros ? ? ? ? ? ? E. rewrite Hj by auto. discriminate.
    - rewrite M1, M2. intros ? ? ? ? ? E. rewrite Hj by auto. discriminate. }
  apply (sj_same leb HO h f r nx dl sg S lg HI FI); auto; try lia.
  - intros y Hy. rewrite E3. unfold h3, h2, h1. sp; try lia.
  - intros y Hy Hy'. assert (y = f \/ y = Datatypes.S f) as Ey by lia. split.
    + unfold h3, h2, h1. destruct Ey as [->| ->]; rewrite ?(upd_ne _ n), ?upd_eq, ?X2 by auto; auto.
      rewrite upd_ne, upd_eq, X1 by lia. auto.
    + intros E. destruct (f_new _ _ FI' y) as [u Eu]; [|rewrite Eu; discriminate]. revert E. unfold h3, h2, h1.
      destruct Ey as [->| ->]; rewrite ?(upd_ne _ n) by auto; [rewrite upd_ne, upd_eq by lia|rewrite upd_eq]; rewrite ?X1, ?X2; cbn; auto.
  - intros y Hy. unfold h3, h2, h1. rewrite !upd_ne by lia. auto.
  - intros y (n0 & lo & hi & T). destruct (blk leb h f r nx dl sg S _ _ _ _ T) as [_ B]. pose proof (b_lt _ _ _ _ _ _ _ _ _ _ _ B). rewrite E3. unfold h3, h2, h1. sp; lia.
  - intros y D. left. rewrite E3. unfold h3, h2, h1. assert (y < f) as Hy by now apply (q_dlt _ _ _ _ _ _ _ _ LI). sp; lia.
  - intros y. destruct (Nat.eq_dec y n) as [->|Ny]; [|destruct (Nat.eq_dec y c) as [->|Nyc]].
    + apply js_not1; auto; try lia. rewrite upd_eq, E3. auto.
    + eapply js_take; eauto; unfold h3, h2, h1; rewrite !upd_ne by auto; rewrite upd_eq; cbn; auto.
    + destruct (Nat.eq_dec y f) as [->|Nyf]; [|destruct (Nat.eq_dec y (Datatypes.S f)) as [->|Nyf1]].
      * eapply New; [auto| |exact X1|auto]. unfold h3, h2. rewrite !upd_ne by auto. apply upd_eq.
      * eapply New; [auto| |exact X2|auto]. unfold h3. rewrite !upd_ne by auto. apply upd_eq.
      * apply (j_same leb h f r nx dl sg S); auto; unfold h3, h2, h1; rewrite !upd_ne by auto; auto.
Qed.
End sysb.
