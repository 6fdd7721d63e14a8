(** Every step of the holder of a lock keeps the invariants. *)
From Coq Require Import List Arith Bool Lia.
From Verif Require Import TcModel TcRoute TcSpec TcInv TcTree TcFrame TcKeep TcJobs TcSplit TcFrz TcMove TcGrow TcFz TcFzs TcExt.
Import ListNotations.

Section sys.
Context {K V : Type} (leb : K -> K -> bool) (HO : tord leb).
Notation heap := (nat -> obj K V).
Notation nxt := (nxt leb).
Notation On := (On leb).
Notation Live := (Live leb).
Notation HInv := (HInv leb).
Implicit Types (k s m : K) (x y z u v w p a : nat).

Lemma upd_eq {A} (g : nat -> A) x (q : A) : upd g x q x = q.
Proof. unfold upd. now rewrite Nat.eqb_refl. Qed.
Lemma upd_ne {A} (g : nat -> A) x (q : A) y : y <> x -> upd g x q y = g y.
Proof. unfold upd. intros N. now apply Nat.eqb_neq in N as ->. Qed.

Definition OK (h : heap) f r lg (h' : heap) f' r' : Prop :=
  HInv h' f' r' lg /\ FInv h' f' /\ Ext leb h f r h' f' r'.

Context (h : heap) (f : nat) (r : option nat) (lg : list (ev K V)) (HI : HInv h f r lg) (FI : FInv h f).
Notation "'on' k x" := (On h r k x) (at level 10, k at level 9, x at level 9).
Notation live := (Live h r).
Notation ok := (OK h f r lg).

Lemma locked_lt n : jb (h n) <> Idle -> n < f /\ lvl (h n) <> 0.
Proof.
  intros J. assert (n < f) as Hn by (apply (jb_lt h f FI); auto). split; auto.
  intros L. destruct (w_leaf _ _ _ _ (h_wf _ _ _ _ _ HI n Hn) L) as (_ & _ & E). congruence.
Qed.

Lemma ok_lock n : n < f -> lvl (h n) <> 0 -> jb (h n) = Idle -> live n \/ ub (h n) = URet ->
  ok (upd h n (set_jb Locked (h n))) f r.
Proof.
  intros Hn L J Lv. split; [now apply step_lock|split].
  - apply (fs_one h f FI _ n); auto; try (intros; ud; fail).
    + now rewrite J.
    + unfold upd. rewrite Nat.eqb_refl. intros y. auto.
  - apply (ext_same leb h f r lg HI); auto. intros y Hy. ud; repeat split; auto.
Qed.
Lemma ok_unlock n : jb (h n) = Locked -> ok (upd h n (set_jb Idle (h n))) f r.
Proof.
  intros J. destruct (locked_lt n) as [Hn L]; [congruence|]. split; [now apply step_unlock|split].
  - apply (fs_one h f FI _ n); auto; try (intros; ud; fail).
    + now rewrite J.
    + unfold upd. rewrite Nat.eqb_refl. intros y. auto.
  - apply (ext_same leb h f r lg HI); auto. intros y Hy. ud; repeat split; auto.
Qed.

(** Commit. *)
Lemma ok_cthaw n c low high lns i z : lvl (h n) = 1 -> jb (h n) = Commit c low high lns i ->
  i = 0 /\ z = low \/ i = 1 /\ z = high ->
  let h1 := upd h z (set_fz Open (h z)) in
  ok (upd h1 n (set_jb (Commit c low high lns (S i)) (h1 n))) f r.
Proof.
  intros L J Hz h1. destruct (locked_lt n) as [Hn _]; [congruence|].
  pose proof (w_commit _ _ _ _ (h_wf _ _ _ _ _ HI n Hn)) as W. rewrite J in W. destruct W as ((_ & Hlo & Hhi) & _).
  assert (z < f) as Hzf by (destruct Hz as [[_ ->]|[_ ->]]; auto).
  split; [now apply step_cthaw|split].
  - apply (fs_tr h f FI); unfold h1.
    + intros y Hy. ud.
    + intros y. ud; repeat split; auto.
    + intros y. destruct (Nat.eq_dec y n) as [->|Ny].
      * rewrite upd_eq, J. apply (T4 _ _ _ _ c low high lns i); auto; [| |lia]; intros ->;
          destruct Hz as [[E ->]|[E ->]]; try discriminate; ud.
      * apply T0. ud.
  - apply (ext_same leb h f r lg HI); auto. unfold h1. intros y Hy. ud; repeat split; auto.
Qed.
Lemma ok_cfree n c low high a b i z : lvl (h n) = 1 -> jb (h n) = Commit c low high (Some (a, b)) i ->
  i = 2 /\ z = a \/ i = 3 /\ z = b ->
  let h1 := upd h z (set_jb Idle (h z)) in
  ok (upd h1 n (set_jb (Commit c low high (Some (a, b)) (S i)) (h1 n))) f r.
Proof.
  intros L J Hz h1. destruct (locked_lt n) as [Hn _]; [congruence|].
  assert (In z (need (jb (h n)))) as Hi.
  { rewrite J. destruct Hz as [[-> ->]|[-> ->]]; cbn; auto. }
  destruct (need_new h f FI n z Hi) as [Jz Hzf]. assert (n <> z) as Nz by (intros ->; congruence).
  split; [|split].
  - apply (step_cfree leb HO h f r lg HI n c low high (Some (a, b)) i); auto.
    + lia.
    + left. eauto.
    + right. exists (S i). split; auto. lia.
  - apply (fs_free leb h f r lg HI FI _ n c low high a b i z); auto; unfold h1; intros; ud.
  - apply (ext_same leb h f r lg HI); auto. unfold h1. intros y Hy. ud; repeat split; auto.
Qed.
Lemma ok_cend n c low high lns i : lvl (h n) = 1 -> jb (h n) = Commit c low high lns i -> 2 <= i ->
  ok (upd h n (set_jb Poison (h n))) f r.
Proof.
  intros L J Hi. destruct (locked_lt n) as [Hn _]; [congruence|].
  split; [|split].
  - apply (step_cfree leb HO h f r lg HI n c low high lns i); auto.
  - apply (fs_tr h f FI).
    + intros y Hy. ud.
    + intros y. ud; repeat split; auto.
    + intros y. destruct (Nat.eq_dec y n) as [->|Ny]; [|apply T0; ud].
      rewrite upd_eq, J. apply T1; try discriminate; exact I.
  - apply (ext_same leb h f r lg HI); auto. intros y Hy. ud; repeat split; auto.
Qed.
Lemma ok_commit2 n c low high lns i : lvl (h n) <> 1 -> jb (h n) = Commit c low high lns i ->
  let h1 := upd h n (set_jb Poison (h n)) in
  ok (match jb (h1 c) with
      | Full _ d _ lo hi _ lns' => upd h1 c (set_jb (Commit d lo hi lns' 0) (h1 c))
      | _ => h1 end) f r.
Proof.
  intros L J h1. destruct (locked_lt n) as [Hn Ln]; [congruence|].
  pose proof (w_commit _ _ _ _ (h_wf _ _ _ _ _ HI n Hn)) as W. rewrite J in W. destruct W as (_ & W).
  destruct (W L) as (Hc & Lc & Hh & Oc). unfold held in Hh. destruct (lvl (h c)) as [|lc] eqn:Elc; [tauto|].
  destruct Hh as (o & d & m & lo & hi & lns' & Jc). assert (c <> n) as Nc by (intros ->; congruence).
  assert (jb (h1 c) = Full o d m lo hi (Some n) lns') as E1 by (unfold h1; ud). rewrite E1. split; [|split].
  - eapply (step_commit2 leb HO h f r lg HI n); eauto.
  - apply (fs_tr h f FI); unfold h1.
    + intros y Hy. ud.
    + intros y. ud; repeat split; auto.
    + intros y. destruct (Nat.eq_dec y n) as [->|Ny].
      { rewrite (upd_ne _ c _ n), upd_eq, J by auto.
        apply T1; try discriminate; exact I. }
      destruct (Nat.eq_dec y c) as [->|Nyc]; [|apply T0; ud].
      rewrite Jc. apply (T2 _ _ _ _ o d m lo hi n lns'); auto; [ud|]. intros _.
      assert (jv (jb (h c)) = Some (o, d, Some m, lo, hi)) as Jv by now rewrite Jc.
      assert (over (h d) = true) by (apply (l_over _ _ _ _ _ _ _ _ _ (h_hld _ _ _ _ _ HI _ _ _ _ _ _ Hc Jv)); auto).
      ud.
  - apply (ext_same leb h f r lg HI); auto. unfold h1. intros y Hy. ud; repeat split; auto.
Qed.

(** Splits. *)
Lemma ok_full n o c m low high : jb (h n) = Split o c m low high ->
  let h1 := if lvl (h n) =? 1 then upd h high (set_fz (Hold n) (h high)) else h in
  ok (upd h1 n (set_jb (Full o c m low high None None) (h1 n))) f r.
Proof.
  intros J h1. destruct (locked_lt n) as [Hn Ln]; [congruence|].
  assert (jv (jb (h n)) = Some (o, c, Some m, low, high)) as Jv by now rewrite J.
  pose proof (h_hld _ _ _ _ _ HI _ _ _ _ _ _ Hn Jv) as L.
  assert (high <> n) as Nh. { intros ->. pose proof (l_lvhi _ _ _ _ _ _ _ _ _ L).
    destruct (jv_c_lt leb h f r lg HI _ _ _ _ _ _ Hn Jv). lia. }
  split; [now apply step_full|split].
  - apply (fs_full leb h f r lg HI FI _ n o c m low high); auto; unfold h1; destruct (Nat.eqb_spec (lvl (h n)) 1); intros; ud.
  - apply (ext_same leb h f r lg HI); auto. unfold h1. destruct (Nat.eqb_spec (lvl (h n)) 1); intros y Hy; ud; repeat split; auto.
Qed.
Lemma ok_thaw n o c m low high : jb (h n) = Ins o c m low high false ->
  let h1 := upd h low (set_fz Open (h low)) in
  ok (upd h1 n (set_jb (Ins o c m low high true) (h1 n))) f r.
Proof.
  intros J h1. destruct (locked_lt n) as [Hn Ln]; [congruence|]. pose proof (f_thaw _ _ FI _ _ _ _ _ _ J) as L1.
  assert (jv (jb (h n)) = Some (o, c, Some m, low, high)) as Jv by now rewrite J.
  pose proof (h_hld _ _ _ _ _ HI _ _ _ _ _ _ Hn Jv) as L. pose proof (l_lo _ _ _ _ _ _ _ _ _ L) as Hlo.
  split; [now apply step_thaw|split].
  - apply (fs_tr h f FI); unfold h1.
    + intros y Hy. ud.
    + intros y. ud; repeat split; auto.
    + intros y. destruct (Nat.eq_dec y n) as [->|Ny]; [|apply T0; ud].
      rewrite upd_eq, J. apply (T3 _ _ _ _ o c m low high); auto; ud.
  - apply (ext_same leb h f r lg HI); auto. unfold h1. intros y Hy. ud; repeat split; auto.
Qed.
Lemma ok_roll n o c m low high lns : jb (h n) = Full o c m low high None lns ->
  let h1 := upd h n (set_jb Locked (h n)) in
  ok (if lvl (h1 n) =? 1 then
        let h2 := upd h1 c (set_fz Open (h1 c)) in
        let h3 := upd h2 low (set_fz Gone (h2 low)) in upd h3 high (set_fz Gone (h3 high))
      else match jb (h1 c) with
           | Full o' c' m' low' high' _ lns' => upd h1 c (set_jb (Full o' c' m' low' high' None lns') (h1 c))
           | _ => h1 end) f r.
Proof.
  intros J h1. destruct (locked_lt n) as [Hn Ln]; [congruence|].
  assert (jv (jb (h n)) = Some (o, c, Some m, low, high)) as Jv by now rewrite J.
  pose proof (h_hld _ _ _ _ _ HI _ _ _ _ _ _ Hn Jv) as L.
  destruct (jv_c_lt leb h f r lg HI _ _ _ _ _ _ Hn Jv) as [Hc Lc].
  pose proof (l_lvlo _ _ _ _ _ _ _ _ _ L). pose proof (l_lvhi _ _ _ _ _ _ _ _ _ L).
  assert (low <> high) as Nlh by (apply L; congruence).
  pose proof (l_held _ _ _ _ _ _ _ _ _ L) as Hh.
  assert (c <> n /\ low <> n /\ high <> n) as (N1 & N2 & N3) by (repeat split; intros ->; lia).
  assert (lvl (h1 n) = lvl (h n)) as E1 by (unfold h1; ud). rewrite E1.
  match goal with |- OK _ _ _ _ ?x _ _ => set (h' := x) end.
  assert (h' n = set_jb Locked (h n)) as A1.
  { unfold h'. destruct (Nat.eqb_spec (lvl (h n)) 1); [unfold h1; ud|].
    destruct (jb (h1 c)); rewrite ?upd_ne by auto; apply upd_eq. }
  assert (lvl (h n) = 1 -> (forall y, y <> n -> y <> c -> y <> low -> y <> high -> h' y = h y)
    /\ h' c = set_fz Open (h c) /\ h' low = set_fz Gone (h low) /\ h' high = set_fz Gone (h high)) as A2.
  { intros Q. assert (lvl (h c) = 0) as Lc0 by lia. unfold held in Hh. rewrite Lc0 in Hh.
    pose proof (h_fz _ _ _ _ _ HI n Hn Q) as F. rewrite J in F. destruct F as [F1 F2].
    assert (c <> low /\ c <> high) as [M1 M2] by (split; intros ->; congruence).
    unfold h', h1. rewrite Q. cbn [Nat.eqb]. repeat split; intros; ud. }
  assert (lvl (h n) <> 1 -> (forall y, y <> n -> y <> c -> h' y = h y)
    /\ exists o' c' m' low' high' lns', jb (h c) = Full o' c' m' low' high' (Some n) lns'
       /\ h' c = set_jb (Full o' c' m' low' high' None lns') (h c)) as A3.
  { intros Q. unfold held in Hh. destruct (lvl (h c)) eqn:Elc; [lia|].
    destruct Hh as (o' & c' & m' & low' & high' & lns' & Jc). assert (h1 c = h c) as E2 by (unfold h1; ud).
    unfold h'. apply Nat.eqb_neq in Q. rewrite Q, E2, Jc. split.
    - intros y Ny Nc. unfold h1. ud.
    - exists o', c', m', low', high', lns'. split; auto. ud. }
  split; [|split].
  - eapply (step_roll leb HO h f r lg HI h' n); eauto.
  - eapply (fs_roll leb h f r lg HI FI h' n); eauto.
  - apply (ext_same leb h f r lg HI); auto. intros y Hy.
    destruct (Nat.eq_dec y n) as [->|Ny]; [rewrite A1; repeat split; auto|].
    destruct (Nat.eq_dec (lvl (h n)) 1) as [Q|Q].
    + destruct (A2 Q) as (B1 & B2 & B3 & B4).
      destruct (Nat.eq_dec y c) as [->|Y1]; [rewrite B2; repeat split; auto|].
      destruct (Nat.eq_dec y low) as [->|Y2]; [rewrite B3; repeat split; auto|].
      destruct (Nat.eq_dec y high) as [->|Y3]; [rewrite B4; repeat split; auto|].
      rewrite B1 by auto. repeat split; auto.
    + destruct (A3 Q) as (B1 & o' & c' & m' & low' & high' & lns' & _ & B2).
      destruct (Nat.eq_dec y c) as [->|Y1]; [rewrite B2; repeat split; auto|].
      rewrite B1 by auto. repeat split; auto.
Qed.
Lemma ok_frz0 n o c : jb (h n) = Locked -> lvl (h n) = 1 -> ptr (h n) o = Some c ->
  let h1 := upd h c (set_fz (Orig n) (h c)) in let h2 := upd h1 f (leaf0 (ents (h c)) Open n) in
  ok (upd h2 n (set_jb (Swap0 o c f) (h2 n))) (S f) r.
Proof.
  intros J L1 Hp h1 h2. destruct (locked_lt n) as [Hn Ln]; [congruence|].
  destruct (kid_lvl leb h f r lg HI n c Hn (in_kids _ _ _ Hp)) as [Lc Hc]. assert (c <> n) as Nc by (intros ->; lia).
  pose proof (locked_open leb HO h f r lg HI FI n o c J L1 Hp) as Fc.
  assert (forall y, f <= y -> h y = blank) as Bl by apply FI.
  assert (f <> n /\ f <> c) as [Nf Nfc] by lia.
  split; [|split].
  - apply (step_frz0 leb HO h f r lg HI _ n c o); auto; try lia; unfold h2, h1; intros; ud.
  - apply (fs_frz leb h f r lg HI FI _ (S f) n c o (Swap0 o c f)); auto; unfold h2, h1; try (intros; ud; fail).
    + intros y Hy. rewrite <- (Bl y) by lia. ud.
    + intros y Hy. assert (y = f) by lia. subst y. exists (ents (h c)), Open. split; [ud|discriminate].
    + cbn. eauto 8.
    + cbn. intros u ->. lia.
  - apply (ext_same leb h f r lg HI); auto. unfold h2, h1. intros y Hy. ud; repeat split; auto.
Qed.
Lemma ok_frz1 n o c m (v : V) : jb (h n) = Locked -> lvl (h n) = 1 -> ptr (h n) o = Some c ->
  get leb (ents (h c)) m = Some v -> above leb m (ents (h c)) <> [] ->
  let h1 := upd h c (set_fz (Orig n) (h c)) in
  let h2 := upd h1 f (leaf0 (upto leb m (ents (h c))) (Hold n) n) in
  let h3 := upd h2 (S f) (leaf0 (above leb m (ents (h c))) Open n) in
  ok (upd h3 n (set_jb (Split o c m f (S f)) (h3 n))) (S (S f)) r.
Proof.
  intros J L1 Hp Hm Ha h1 h2 h3. destruct (locked_lt n) as [Hn Ln]; [congruence|].
  destruct (kid_lvl leb h f r lg HI n c Hn (in_kids _ _ _ Hp)) as [Lc Hc]. assert (c <> n) as Nc by (intros ->; lia).
  pose proof (locked_open leb HO h f r lg HI FI n o c J L1 Hp) as Fc.
  assert (forall y, f <= y -> h y = blank) as Bl by apply FI.
  assert (f <> n /\ f <> c /\ S f <> n /\ S f <> c) as (Nf & Nfc & Nf1 & Nfc1) by lia.
  split; [|split].
  - apply (step_frz1 leb HO h f r lg HI _ n c o) with (m := m) (v := v); auto; try lia; unfold h3, h2, h1; intros; ud.
  - apply (fs_frz leb h f r lg HI FI _ (S (S f)) n c o (Split o c m f (S f))); auto; unfold h3, h2, h1; try (intros; ud; fail).
    + intros y Hy. rewrite <- (Bl y) by lia. ud.
    + intros y Hy. destruct (Nat.eq_dec y f) as [->|N].
      * exists (upto leb m (ents (h c))), (Hold n). split; [ud|discriminate].
      * assert (y = S f) by lia. subst y. exists (above leb m (ents (h c))), Open. split; [ud|discriminate].
    + cbn. eauto 8.
    + cbn. intros u [->| ->]; lia.
  - apply (ext_same leb h f r lg HI); auto. unfold h3, h2, h1. intros y Hy. ud; repeat split; auto.
Qed.
Lemma ok_take n c o o1 c1 m1 lo1 hi1 lns1 lns2 b mid xl xh :
  jb (h n) = Locked -> ptr (h n) o = Some c -> lvl (h c) <> 0 ->
  jb (h c) = Full o1 c1 m1 lo1 hi1 None lns1 ->
  build (h c) o1 m1 lo1 hi1 b n = Some (mid, xl, xh) ->
  lns2 = match lvl (h c) with 1 => Some (f, S f) | _ => None end ->
  let h1 := upd h c (set_jb (Full o1 c1 m1 lo1 hi1 (Some n) lns2) (h c)) in
  let h2 := upd h1 f xl in let h3 := upd h2 (S f) xh in
  ok (upd h3 n (set_jb (Split o c mid f (S f)) (h3 n))) (S (S f)) r.
Proof.
  intros J Hp Lc Jc Hb El h1 h2 h3. destruct (locked_lt n) as [Hn Ln]; [congruence|].
  destruct (kid_lvl leb h f r lg HI n c Hn (in_kids _ _ _ Hp)) as [Lc' Hc]. assert (c <> n) as Nc by (intros ->; lia).
  assert (f <> n /\ f <> c /\ S f <> n /\ S f <> c) as (Nf & Nfc & Nf1 & Nfc1) by lia.
  split; [|split].
  - apply (step_take leb HO h f r lg HI _ n c o o1 c1 m1 lo1 hi1 lns1 lns2 b mid xl xh); auto; unfold h3, h2, h1; intros; ud.
  - apply (fs_take leb HO h f r lg HI FI _ n c o o1 c1 m1 lo1 hi1 lns1 lns2 b mid xl xh); auto; unfold h3, h2, h1; intros; ud.
  - apply (ext_same leb h f r lg HI); auto. unfold h3, h2, h1. intros y Hy. ud; repeat split; auto.
Qed.

Lemma chain_sub x a o c om lo hi : jv (jb (h x)) = Some (o, c, om, lo, hi) -> (Chain h x a <-> a = c \/ Chain h c a).
Proof.
  intros J. split.
  - induction 1 as [o1 c1 om1 lo1 hi1 J1|b o1 c1 om1 lo1 hi1 Hb IH J1]; [left; congruence|].
    right. destruct IH as [->|IH]; [eapply C1; eauto|eapply C2; eauto].
  - intros [->|C]; [eapply C1; eauto|].
    induction C as [o1 c1 om1 lo1 hi1 J1|b o1 c1 om1 lo1 hi1 Hb IH J1]; [|eapply C2; eauto].
    eapply C2; [eapply C1; eauto|eauto].
Qed.
Lemma inch_chain d : forall c y, c < f -> lvl (h c) = d -> (d <> 0 -> isFull (jb (h c))) ->
  (inch h d c y = true <-> y = c \/ Chain h c y).
Proof.
  induction d as [|d IH]; intros c y Hc Lc Fc; cbn [inch].
  - rewrite orb_false_r, Nat.eqb_eq. split; [auto|]. intros [->|C]; auto. exfalso.
    destruct (w_leaf _ _ _ _ (h_wf _ _ _ _ _ HI c Hc) Lc) as (_ & _ & Jc).
    clear -C Jc. induction C; [rewrite Jc in H; discriminate|auto].
  - rewrite orb_true_iff, Nat.eqb_eq. specialize (Fc ltac:(discriminate)).
    destruct (jb (h c)) as [| | | | | | |o1 c1 m1 lo1 hi1 tk lns| |] eqn:J; try destruct Fc.
    assert (jv (jb (h c)) = Some (o1, c1, Some m1, lo1, hi1)) as Jv by now rewrite J.
    destruct (jv_c_lt leb h f r lg HI _ _ _ _ _ _ Hc Jv) as [Hc1 Lc1].
    pose proof (l_held _ _ _ _ _ _ _ _ _ (h_hld _ _ _ _ _ HI _ _ _ _ _ _ Hc Jv)) as Hh.
    rewrite IH, (chain_sub c y _ _ _ _ _ Jv); auto; try lia.
    + intuition.
    + intros Nd. unfold held in Hh. destruct (lvl (h c1)) eqn:E1; [lia|].
      destruct Hh as (? & ? & ? & ? & ? & ? & ->). exact I.
Qed.
Lemma ok_ins n o c m low high : jb (h n) = Split o c m low high ->
  let h1 := fun y => if inch h (lvl (h c)) c y then set_over (Some m) (h y) else h y in
  let h2 := upd h1 n (set_cells (h1 n) (ins_cell leb (m, (nsl (h1 n), low)) (cells (h1 n))) (S (nsl (h1 n)))) in
  ok (upd h2 n (set_jb (Ins o c m low high (negb (lvl (h n) =? 1))) (h2 n))) f r
  /\ has_key leb m (cells (h n)) = false.
Proof.
  intros J h1 h2. destruct (locked_lt n) as [Hn Ln]; [congruence|].
  assert (jv (jb (h n)) = Some (o, c, Some m, low, high)) as Jv by now rewrite J.
  assert (nofull h n) as Nf by (unfold nofull; now rewrite J).
  pose proof (job_over leb h f r lg HI n _ Hn Jv Nf) as On0.
  assert (isIns (jb (h n)) = false) as Is by now rewrite J.
  pose proof (mid_notkey leb HO h f r lg HI n _ _ _ _ _ Hn Jv On0 Is) as Nk.
  pose proof (h_hld _ _ _ _ _ HI _ _ _ _ _ _ Hn Jv) as L.
  destruct (jv_c_lt leb h f r lg HI _ _ _ _ _ _ Hn Jv) as [Hc Lc].
  pose proof (h_wf _ _ _ _ _ HI n Hn) as W.
  assert (In c (kids (h n))) as Hk by (eapply in_kids; apply L).
  assert (forall y, inch h (lvl (h c)) c y = true <-> Chain h n y) as Ic.
  { intros y. rewrite (chain_sub n y _ _ _ _ _ Jv). apply inch_chain; auto. intros Nl.
    pose proof (l_held _ _ _ _ _ _ _ _ _ L) as Hh. unfold held in Hh. destruct (lvl (h c)) eqn:E1; [lia|].
    destruct Hh as (? & ? & ? & ? & ? & ? & ->). exact I. }
  assert (~ Chain h n n) as Nc. { intros C. destruct (chain_full leb h f r lg HI n n Hn C) as (_ & _ & ?). lia. }
  assert (h1 n = h n) as E1. { unfold h1. destruct (inch _ _ _ n) eqn:E; auto. apply Ic in E. tauto. }
  match goal with |- OK _ _ _ _ ?x _ _ /\ _ => set (h' := x) end.
  assert (h' n = set_jb (Ins o c m low high (negb (lvl (h n) =? 1))) (put_low leb (h n) m low)) as A1.
  { unfold h', h2. rewrite !upd_eq, E1. reflexivity. }
  assert (forall y, y <> n -> h' y = h1 y) as A2.
  { intros y Ny. unfold h', h2. now rewrite !upd_ne. }
  assert (forall y, y <> n -> Chain h n y -> h' y = set_over (Some m) (h y)) as A3.
  { intros y Ny C. rewrite A2 by auto. unfold h1. apply Ic in C. now rewrite C. }
  assert (forall y, y <> n -> ~ Chain h n y -> h' y = h y) as A4.
  { intros y Ny C. rewrite A2 by auto. unfold h1. destruct (inch _ _ _ y) eqn:E; auto. apply Ic in E. tauto. }
  assert (forall y, Chain h n y \/ ~ Chain h n y) as Dec.
  { intros y. destruct (inch h (lvl (h c)) c y) eqn:E; [left; now apply Ic|].
    right. intros C. apply Ic in C. congruence. }
  destruct (step_ins leb HO h f r lg HI h' n o c m low high _ Hn J A1 A3 A4 Dec) as [H1 [H2 _]].
  split; [split; [auto|split]|].
  - eapply (fs_ins leb h f r lg HI FI h' n); eauto. intros y Ny. destruct (Dec y) as [C|C]; auto.
    right. split; auto. destruct (chain_full leb h f r lg HI n y Hn C); auto.
  - apply (ext_one leb h f r h' f n); auto.
    + apply (not_closed leb h f r lg HI n c); auto.
    + now rewrite A1.
    + intros y Hy Ny. destruct (Dec y) as [C|C]; [rewrite A3|rewrite A4]; auto; repeat split; auto.
    + right. rewrite A1. unfold ver. cbn. rewrite !map_length, ins_len. lia.
  - destruct (has_key leb m (cells (h n))) eqn:E; auto. apply (has_key_in leb HO) in E. tauto.
Qed.

Lemma set_ptr_meta (x : obj K V) o u : meta_of (set_ptr x o u) = meta_of x.
Proof. unfold meta_of. pose proof (set_ptr_rts x o u) as E. unfold rts in E. rewrite E. destruct o; reflexivity. Qed.
Lemma ok_swap0 n o c low : jb (h n) = Swap0 o c low ->
  let h1 := upd h c (set_over None (h c)) in
  ok (upd h1 n (set_jb Locked (set_ptr (h1 n) o low))) f r.
Proof.
  intros J h1. destruct (locked_lt n) as [Hn Ln]; [congruence|].
  assert (jv (jb (h n)) = Some (o, c, None, low, low)) as Jv by now rewrite J.
  assert (nofull h n) as Nf by (unfold nofull; now rewrite J).
  pose proof (job_over leb h f r lg HI n _ Hn Jv Nf) as On0.
  pose proof (h_hld _ _ _ _ _ HI _ _ _ _ _ _ Hn Jv) as L.
  destruct (jv_c_lt leb h f r lg HI _ _ _ _ _ _ Hn Jv) as [Hc Lc]. assert (c <> n) as Ncn by (intros ->; lia).
  assert (In c (kids (h n))) as Hk by (eapply in_kids; apply L).
  match goal with |- OK _ _ _ _ ?x _ _ => set (h' := x) end.
  assert (h1 n = h n) as E1 by (unfold h1; apply upd_ne; auto).
  assert (h' n = set_jb Locked (set_ptr (h n) o low)) as A1 by (unfold h'; now rewrite upd_eq, E1).
  assert (h' c = set_over None (h c)) as A2 by (unfold h', h1; now rewrite upd_ne, upd_eq).
  assert (forall y, y <> n -> y <> c -> h' y = h y) as A3 by (intros; unfold h', h1; now rewrite !upd_ne).
  destruct (step_swap0 leb HO h f r lg HI h' n o c low Hn J A1 A2 A3) as [H1 [H2 _]].
  assert (lvl (h' n) = lvl (h n) /\ over (h' n) = over (h n) /\ fz (h' n) = fz (h n) /\ nsl (h' n) = nsl (h n)) as (B1 & B2 & B3 & B4).
  { rewrite A1. destruct o; auto. }
  split; [auto|split].
  - pose proof (l_none _ _ _ _ _ _ _ _ _ L eq_refl) as Lc0. assert (lvl (h n) = 1) as L1 by lia.
    pose proof (h_fz _ _ _ _ _ HI n Hn L1) as F. rewrite J in F.
    assert (jb (h' n) = Locked) as Jn by now rewrite A1.
    assert (low <> n) as Nl. { intros ->. pose proof (l_lvlo _ _ _ _ _ _ _ _ _ L). lia. }
    assert (forall y, y <> n -> jb (h' y) = jb (h y) /\ kids (h' y) = kids (h y) /\ ub (h' y) = ub (h y)) as Aj.
    { intros y Ny. destruct (Nat.eq_dec y c) as [->|Nc]; [rewrite A2; auto|rewrite A3; auto]. }
    assert (forall y, fz (h' y) = fz (h y) /\ lvl (h' y) = lvl (h y)) as Al.
    { intros y. destruct (Nat.eq_dec y n) as [->|Ny]; auto.
      destruct (Nat.eq_dec y c) as [->|Nc]; [rewrite A2; auto|rewrite A3; auto]. }
    apply (f_frame h h' f f FI).
    + intros y Hy. rewrite A3 by lia. now apply (f_blank _ _ FI).
    + intros y. left. apply Al.
    + intros y _. apply Al.
    + intros y O. destruct (Nat.eq_dec y n) as [->|Ny]; [congruence|].
      destruct (Nat.eq_dec y c) as [->|Nc]; [rewrite A2; auto|rewrite A3; auto].
    + intros y. destruct (Nat.eq_dec y n) as [->|Ny].
      * rewrite Jn, J. apply T1; try discriminate; [exact I|]. intros ? ? ? ? ? E _. injection E as <- <- <- <- <-. now rewrite A2.
      * apply T0. now apply Aj.
    + intros y u Hu. destruct (Nat.eq_dec y n) as [->|Ny]; [|left; destruct (Aj y Ny) as (_ & E & _); congruence].
      rewrite A1 in Hu. apply set_ptr_in_kids in Hu as [->|Hu]; auto. right.
      rewrite Jn. split; [exact I|]. split; [intros _; destruct (Al low) as [-> _]; auto|].
      intros n2 _ P. destruct (Nat.eq_dec n2 n) as [->|N2]; [rewrite Jn in P; destruct P|].
      destruct (Aj n2 N2) as (E & _). rewrite E in P. destruct (fp_own leb h f r lg HI FI n2 low P) as [O _].
      rewrite (l_ownlo _ _ _ _ _ _ _ _ _ L) in O. congruence.
    + intros y Nd. destruct (Nat.eq_dec y n) as [->|Ny]; [rewrite J in Nd; now destruct Nd|].
      destruct (Aj y Ny) as (_ & -> & _). apply incl_refl.
    + intros y Jy. destruct (Nat.eq_dec y n) as [->|Ny]; [congruence|]. now apply Aj.
  - apply (ext_one leb h f r h' f n); auto.
    + apply (not_closed leb h f r lg HI n c); auto.
    + intros y Hy Ny. destruct (Nat.eq_dec y c) as [->|Nc]; [rewrite A2; repeat split; auto|rewrite A3; repeat split; auto].
    + left. rewrite A1. apply set_ptr_meta.
Qed.
Lemma ok_swap n o c m low high : jb (h n) = Ins o c m low high true ->
  let h1 := match jb (h c) with Full _ d _ lo hi _ lns => upd h c (set_jb (Commit d lo hi lns 0) (h c)) | _ => h end in
  ok (upd h1 n (set_jb Locked (set_ptr (h1 n) o high))) f r.
Proof.
  intros J h1. destruct (locked_lt n) as [Hn Ln]; [congruence|].
  assert (jv (jb (h n)) = Some (o, c, Some m, low, high)) as Jv by now rewrite J.
  assert (nofull h n) as Nf by (unfold nofull; now rewrite J).
  assert (isIns (jb (h n)) = true) as Is by now rewrite J.
  pose proof (job_over leb h f r lg HI n _ Hn Jv Nf) as On0.
  pose proof (h_hld _ _ _ _ _ HI _ _ _ _ _ _ Hn Jv) as L.
  pose proof (h_job _ _ _ _ _ HI _ _ _ _ _ _ Hn Jv On0) as Jb.
  destruct (j_ins _ _ _ _ _ _ _ _ _ Jb Is) as (_ & Oc & _).
  destruct (jv_c_lt leb h f r lg HI _ _ _ _ _ _ Hn Jv) as [Hc Lc]. assert (c <> n) as Ncn by (intros ->; lia).
  assert (In c (kids (h n))) as Hk by (eapply in_kids; apply L).
  match goal with |- OK _ _ _ _ ?x _ _ => set (h' := x) end.
  assert (h1 n = h n) as E1 by (unfold h1; destruct (jb (h c)); auto; apply upd_ne; auto).
  assert (h' n = set_jb Locked (set_ptr (h n) o high)) as A1 by (unfold h'; now rewrite upd_eq, E1).
  assert (h' c = match jb (h c) with Full _ d _ lo hi _ lns => set_jb (Commit d lo hi lns 0) (h c) | _ => h c end) as A2.
  { unfold h'. rewrite upd_ne by auto. unfold h1. destruct (jb (h c)); auto. apply upd_eq. }
  assert (forall y, y <> n -> y <> c -> h' y = h y) as A3.
  { intros. unfold h'. rewrite upd_ne by auto. unfold h1. destruct (jb (h c)); auto. apply upd_ne; auto. }
  destruct (step_swap leb HO h f r lg HI h' n o c m low high Hn J A1 A2 A3) as [H1 [H2 _]].
  assert (lvl (h' n) = lvl (h n) /\ over (h' n) = over (h n) /\ fz (h' n) = fz (h n) /\ nsl (h' n) = nsl (h n)) as (B1 & B2 & B3 & B4).
  { rewrite A1. destruct o; auto. }
  assert (forall y, y <> n -> same (h' y) (h y) /\ ret (h' y) = ret (h y) /\ nsl (h' y) = nsl (h y) /\ fz (h' y) = fz (h y)
    /\ over (h' y) = over (h y)) as As.
  { intros y Ny. destruct (Nat.eq_dec y c) as [->|Nc]; [rewrite A2; destruct (jb (h c)); repeat split; auto|].
    rewrite A3 by auto. repeat split; auto. }
  split; [auto|split].
  - assert (jb (h' n) = Locked) as Jn by now rewrite A1.
    assert (high <> n) as Nh. { intros ->. pose proof (l_lvhi _ _ _ _ _ _ _ _ _ L). lia. }
    assert (forall y, fz (h' y) = fz (h y) /\ lvl (h' y) = lvl (h y) /\ over (h' y) = over (h y)) as Al.
    { intros y. destruct (Nat.eq_dec y n) as [->|Ny]; auto. destruct (As y Ny) as ((? & _) & _ & _ & ? & ?). auto. }
    assert (forall y, y <> n -> kids (h' y) = kids (h y) /\ ub (h' y) = ub (h y)) as Ak.
    { intros y Ny. destruct (As y Ny) as (S & _). split; [now apply same_kids|]. apply S. }
    apply (f_frame h h' f f FI).
    + intros y Hy. rewrite A3 by lia. now apply (f_blank _ _ FI).
    + intros y. left. apply Al.
    + intros y _. apply Al.
    + intros y O. destruct (Al y) as (_ & _ & ->). auto.
    + intros y. destruct (Nat.eq_dec y n) as [->|Ny].
      { rewrite Jn, J. apply T1; try discriminate; [exact I|]. intros ? ? ? ? ? E _. injection E as <- <- <- <- <-.
        destruct (Al c) as (_ & _ & ->). auto. }
      destruct (Nat.eq_dec y c) as [->|Nc]; [|apply T0; now rewrite A3].
      pose proof (l_held _ _ _ _ _ _ _ _ _ L) as Hh. unfold held in Hh. destruct (lvl (h c)) eqn:Elc.
      { apply T0. rewrite A2. destruct (w_leaf _ _ _ _ (h_wf _ _ _ _ _ HI c Hc) Elc) as (_ & _ & E). now rewrite E. }
      destruct Hh as (o' & d & m' & lo & hi & lns & Jc). rewrite A2, Jc. apply (T2 _ _ _ _ o' d m' lo hi n lns); auto.
      intros _. destruct (Al d) as (_ & _ & ->). assert (jv (jb (h c)) = Some (o', d, Some m', lo, hi)) as Jvc by now rewrite Jc.
      apply (l_over _ _ _ _ _ _ _ _ _ (h_hld _ _ _ _ _ HI _ _ _ _ _ _ Hc Jvc)). auto.
    + intros y u Hu. destruct (Nat.eq_dec y n) as [->|Ny]; [|left; destruct (Ak y Ny) as (E & _); congruence].
      rewrite A1 in Hu. apply set_ptr_in_kids in Hu as [->|Hu]; auto. right.
      rewrite Jn. split; [exact I|]. split.
      { intros L1. rewrite B1 in L1. pose proof (h_fz _ _ _ _ _ HI n Hn L1) as F. rewrite J in F. destruct (Al high) as [-> _]. tauto. }
      intros n2 _ P. destruct (Nat.eq_dec n2 n) as [->|N2]; [rewrite Jn in P; destruct P|].
      assert (fp (jb (h n2)) high) as P'.
      { destruct (Nat.eq_dec n2 c) as [->|Nc]; [|now rewrite A3 in P]. rewrite A2 in P.
        destruct (jb (h c)) eqn:Ec; cbn in P; rewrite ?Ec in P; tauto. }
      destruct (fp_own leb h f r lg HI FI n2 high P') as [O _].
      rewrite (l_ownhi _ _ _ _ _ _ _ _ _ L) in O. congruence.
    + intros y Nd. destruct (Nat.eq_dec y n) as [->|Ny]; [rewrite J in Nd; now destruct Nd|].
      destruct (Ak y Ny) as (-> & _). apply incl_refl.
    + intros y Jy. destruct (Nat.eq_dec y n) as [->|Ny]; [congruence|]. now apply Ak.
  - apply (ext_one leb h f r h' f n); auto.
    + apply (not_closed leb h f r lg HI n c); auto.
    + intros y Hy Ny. destruct (As y Ny) as (S & R & N & _ & O). repeat split; auto; try apply S. now rewrite O.
    + left. rewrite A1. apply set_ptr_meta.
Qed.

(** Coalescing. *)
Lemma ok_rem n j c : jb (h n) = Locked -> slot_child (cells (h n)) j = Some c -> retired (h c) = true ->
  ok (upd h n (set_cells (h n) (del_slot j (cells (h n))) (nsl (h n)))) f r.
Proof.
  intros J Hs Hr. destruct (locked_lt n) as [Hn Ln]; [congruence|].
  assert (ptr (h n) (PSlot j) = Some c) as Hp by auto.
  match goal with |- OK _ _ _ _ ?x _ _ => set (h' := x) end.
  assert (h' n = drop_low (h n) j) as A1 by (unfold h'; apply upd_eq).
  assert (forall y, y <> n -> h' y = h y) as A2 by (intros; unfold h'; apply upd_ne; auto).
  destruct (step_rem leb HO h f r lg HI h' n j c Hn J Hs Hr A1 A2) as [H1 [H2 _]].
  split; [auto|split].
  - apply (fs_one h f FI h' n); auto; try (rewrite A1; auto; fail).
    + now rewrite J.
    + rewrite A1. cbn. now rewrite J.
    + rewrite A1. intros y. apply drop_kids.
  - apply (ext_one leb h f r h' f n); auto.
    + apply (not_closed leb h f r lg HI n c); auto; [eapply in_kids; eauto|eapply lk_noover; eauto].
    + now rewrite A1.
    + intros y Hy Ny. rewrite A2 by auto. repeat split; auto.
    + right. rewrite A1. unfold ver. cbn. rewrite !map_length.
      destruct (w_wfc _ _ _ _ (h_wf _ _ _ _ _ HI n Hn)) as (W1 & W2 & W3).
      pose proof (del_len (cells (h n)) j c Hs W2). pose proof (wfc_len leb (cells (h n)) (nsl (h n)) (conj W1 (conj W2 W3))). lia.
Qed.
Lemma ok_ub n pre s j c d : jb (h n) = Locked -> ub (h n) = UTo c ->
  cells (h n) = pre ++ [(s, (j, d))] -> retired (h c) = true ->
  ok (upd h n (set_jb (CUb j) (set_ub (h n) (UTo d)))) f r.
Proof.
  intros J Hu Hcs Hr. destruct (locked_lt n) as [Hn Ln]; [congruence|].
  match goal with |- OK _ _ _ _ ?x _ _ => set (h' := x) end.
  assert (h' n = set_jb (CUb j) (set_ub (h n) (UTo d))) as A1 by (unfold h'; apply upd_eq).
  assert (forall y, y <> n -> h' y = h y) as A2 by (intros; unfold h'; apply upd_ne; auto).
  destruct (step_ub leb HO h f r lg HI h' n pre s j c d Hn J Hu Hcs Hr A1 A2) as [H1 [H2 _]].
  split; [auto|split].
  - apply (fs_one h f FI h' n); auto; try (rewrite A1; auto; fail).
    + now rewrite J.
    + rewrite A1. exact I.
    + rewrite A1. intros y. unfold kids. cbn. rewrite !in_app_iff. intros [Hy|[<-|[]]]; auto. left.
      rewrite Hcs. unfold childs. rewrite map_app, in_app_iff. right. now left.
  - apply (ext_one leb h f r h' f n); auto.
    + apply (not_closed leb h f r lg HI n c); auto; [now apply kids_look_ub|eapply lk_noover; eauto].
    + now rewrite A1.
    + intros y Hy Ny. rewrite A2 by auto. repeat split; auto.
    + left. now rewrite A1.
Qed.
Lemma ok_ret n c : jb (h n) = Locked -> ub (h n) = UTo c -> cells (h n) = [] -> retired (h c) = true ->
  ok (upd h n (set_ub (h n) URet)) f r.
Proof.
  intros J Hu Hcs Hr. destruct (locked_lt n) as [Hn Ln]; [congruence|].
  match goal with |- OK _ _ _ _ ?x _ _ => set (h' := x) end.
  assert (h' n = set_ub (h n) URet) as A1 by (unfold h'; apply upd_eq).
  assert (forall y, y <> n -> h' y = h y) as A2 by (intros; unfold h'; apply upd_ne; auto).
  destruct (step_ret leb HO h f r lg HI h' n c Hn J Hu Hcs Hr A1 A2) as [H1 [H2 _]].
  split; [auto|split].
  - apply (fs_one h f FI h' n); auto; try (rewrite A1; auto; fail).
    + now rewrite J.
    + rewrite A1. cbn. now rewrite J.
    + rewrite A1. intros y. unfold kids. cbn. rewrite Hcs. intros [].
  - apply (ext_one leb h f r h' f n); auto.
    + apply (not_closed leb h f r lg HI n c); auto; [now apply kids_look_ub|eapply lk_noover; eauto].
    + now rewrite A1.
    + intros y Hy Ny. rewrite A2 by auto. repeat split; auto.
    + left. now rewrite A1.
Qed.
Lemma ok_ubrem n j : jb (h n) = CUb j ->
  ok (upd h n (set_jb Locked (set_cells (h n) (del_slot j (cells (h n))) (nsl (h n))))) f r.
Proof.
  intros J. destruct (locked_lt n) as [Hn Ln]; [congruence|]. pose proof (h_wf _ _ _ _ _ HI n Hn) as W.
  pose proof (w_nd _ _ _ _ W) as Wn. rewrite J in Wn. destruct Wn as (Nd & pre & s & d & Hcs & Hu).
  match goal with |- OK _ _ _ _ ?x _ _ => set (h' := x) end.
  assert (h' n = set_jb Locked (drop_low (h n) j)) as A1 by (unfold h'; apply upd_eq).
  assert (forall y, y <> n -> h' y = h y) as A2 by (intros; unfold h'; apply upd_ne; auto).
  destruct (step_ubrem leb HO h f r lg HI h' n j Hn J A1 A2) as [H1 H2].
  assert (forall k y, on k y -> On h' r k y) as Hon.
  { intros k y H. induction H as [q Hq|u z Hu' IH Hz]; [now constructor|]. eapply On_step; eauto. now rewrite H2. }
  assert (In (s, (j, d)) (cells (h n))) as Hi by (rewrite Hcs, in_app_iff; right; now left).
  destruct (w_wfc _ _ _ _ W) as (W1 & W2 & W3).
  pose proof (sc_of _ (s, (j, d)) W2 Hi) as Hs. cbn in Hs.
  split; [auto|split].
  - apply (fs_one h f FI h' n); auto; try (rewrite A1; auto; fail).
    + now rewrite J.
    + rewrite A1. exact I.
    + rewrite A1. intros y. apply drop_kids.
  - apply (ext_one leb h f r h' f n); auto.
    + apply (not_closed leb h f r lg HI n d); auto; [now apply kids_look_ub|].
      apply (idle_noover leb h f r lg HI n Hn Ln). now rewrite J.
    + now rewrite A1.
    + intros y Hy Ny. rewrite A2 by auto. repeat split; auto.
    + right. rewrite A1. unfold ver. cbn. rewrite !map_length.
      pose proof (del_len (cells (h n)) j d Hs W2). pose proof (wfc_len leb (cells (h n)) (nsl (h n)) (conj W1 (conj W2 W3))). lia.
Qed.

(** The root. *)
Lemma ok_inst w : r = None -> ok (upd h f (node0 1 [] 0 UNull Idle w)) (S f) (Some f).
Proof.
  intros Hr. assert (forall y, f <= y -> h y = blank) as Bl by apply FI.
  split; [|split].
  - apply (step_inst leb h f r lg HI _ w); auto; intros; ud.
  - apply (f_frame h _ f (S f) FI).
    + intros y Hy. rewrite upd_ne by lia. apply Bl. lia.
    + intros y. ud.
    + intros y Hy. ud.
    + intros y. unfold upd. destruct (Nat.eqb_spec y f) as [->|]; auto. rewrite Bl; auto; discriminate.
    + intros y. apply T0. unfold upd. destruct (Nat.eqb_spec y f) as [->|]; auto. rewrite Bl; auto.
    + intros y u. unfold upd. destruct (Nat.eqb_spec y f) as [->|]; auto. intros [].
    + intros y. unfold upd. destruct (Nat.eqb_spec y f) as [->|]; auto using incl_refl. rewrite Bl; auto. intros []; auto.
    + intros y. unfold upd. destruct (Nat.eqb_spec y f) as [->|]; auto. rewrite Bl; auto; discriminate.
  - constructor; auto.
    + intros y Hy. ud.
    + intros k y H. exfalso. destruct (on_root_ex leb h r k y H). congruence.
    + intros y Hy C. rewrite upd_ne by lia. split; auto. apply same_refl.
    + intros y Hy. left. now rewrite upd_ne by lia.
Qed.
Lemma ok_none n j : r = Some n -> jb (h n) = Locked -> ub (h n) = URet -> j = Locked \/ j = Poison ->
  ok (upd h n (set_jb j (h n))) f None.
Proof.
  intros Hr J Hu Hj. destruct (locked_lt n) as [Hn Ln]; [congruence|].
  assert (retired (h n) = true) as Rn by (unfold retired; destruct (lvl (h n)); [tauto|now rewrite Hu]).
  assert (forall y, same (upd h n (set_jb j (h n)) y) (h y)) as Sm by (intros y; unfold upd; destruct (Nat.eqb_spec y n) as [->|]; repeat split).
  split; [|split].
  - apply (step_none leb h f r lg HI _ n j); auto; intros; ud.
  - apply (fs_one h f FI _ n); auto; try (rewrite upd_eq; auto; fail); try (intros; ud; fail).
    + now rewrite J.
    + rewrite upd_eq. destruct Hj as [->| ->]; exact I.
    + rewrite upd_eq. intros y. auto.
  - constructor; auto.
    + intros y Hy. apply Sm.
    + intros k y H. right. assert (y = n) as ->.
      { destruct H as [q Hq|u z Hu' Hz]; [congruence|]. exfalso.
        assert (u = n) as ->.
        { clear z Hz. induction Hu' as [q Hq|u z Hu' IH Hz]; [congruence|]. subst u. exfalso.
          assert (cells (h n) = []) as Ec by (apply (w_ub _ _ _ _ (h_wf _ _ _ _ _ HI n Hn)); congruence).
          unfold TcInv.nxt, nx in Hz. rewrite pos_rts, Ec in Hz. cbn in Hz. now rewrite Hu in Hz. }
        assert (cells (h n) = []) as Ec by (apply (w_ub _ _ _ _ (h_wf _ _ _ _ _ HI n Hn)); congruence).
        unfold TcInv.nxt, nx in Hz. rewrite pos_rts, Ec in Hz. cbn in Hz. now rewrite Hu in Hz. }
      split; auto. right. rewrite upd_eq. exact Rn.
    + intros y Hy C. split; auto. eapply closed_same; eauto; ud.
    + intros y Hy. left. ud.
Qed.
Lemma ok_pop n c : r = Some n -> jb (h n) = Locked -> cells (h n) = [] -> ub (h n) = UTo c -> lvl (h n) <> 1 ->
  ok (upd h n (set_jb Poison (set_over None (h n)))) f (Some c).
Proof.
  intros Hr J Hcs Hu L1. destruct (locked_lt n) as [Hn Ln]; [congruence|].
  assert (forall y, same (upd h n (set_jb Poison (set_over None (h n))) y) (h y)) as Sm by (intros y; unfold upd; destruct (Nat.eqb_spec y n) as [->|]; repeat split).
  assert (forall k, nxt h n k = Some c) as Nx.
  { intros k. unfold TcInv.nxt, nx. rewrite pos_rts, Hcs. cbn. now rewrite Hu. }
  split; [|split].
  - apply (step_pop leb h f r lg HI _ n c); auto; intros; ud.
  - apply (fs_one h f FI _ n); auto; try (rewrite upd_eq; auto; fail); try (intros; ud; fail).
    + now rewrite J.
    + rewrite upd_eq. intros y. auto.
  - constructor; auto.
    + intros y Hy. apply Sm.
    + intros k y H. assert (y = n \/ On (upd h n (set_jb Poison (set_over None (h n)))) (Some c) k y) as [->|Q]; auto.
      { induction H as [q Hq|u z Hu' IH Hz]; [left; congruence|]. right. destruct IH as [->|IH].
        - rewrite Nx in Hz. injection Hz as <-. now constructor.
        - eapply On_step; eauto. unfold TcInv.nxt in *. rewrite <- Hz. apply same_nx, Sm. }
      right. split; auto. left. rewrite upd_eq. reflexivity.
    + intros y Hy C. split; auto. eapply closed_same; eauto; ud.
    + intros y Hy. left. ud.
Qed.
Lemma ok_top n w : r = Some n -> live n ->
  ok (upd h f (node0 (S (lvl (h n))) [] 0 (UTo n) Locked w)) (S f) (Some f).
Proof.
  intros Hr Lv. assert (forall y, f <= y -> h y = blank) as Bl by apply FI.
  destruct (h_root _ _ _ _ _ HI n Hr) as (Hn & Ln & On0).
  match goal with |- OK _ _ _ _ ?x _ _ => set (h' := x) end.
  assert (h' f = node0 (S (lvl (h n))) [] 0 (UTo n) Locked w) as A1 by (unfold h'; apply upd_eq).
  assert (forall y, y <> f -> h' y = h y) as A2 by (intros; unfold h'; apply upd_ne; auto).
  split; [|split].
  - apply (step_top leb h f r lg HI h' n w); auto.
  - apply (f_frame h h' f (S f) FI).
    + intros y Hy. rewrite A2 by lia. apply Bl. lia.
    + intros y. destruct (Nat.eq_dec y f) as [->|N]; [right; now rewrite A1|left; now rewrite A2].
    + intros y Hy. rewrite A2 by lia. auto.
    + intros y. destruct (Nat.eq_dec y f) as [->|N]; [|now rewrite A2]. rewrite Bl; auto; discriminate.
    + intros y. destruct (Nat.eq_dec y f) as [->|N]; [|apply T0; now rewrite A2].
      rewrite Bl, A1 by auto. apply tr_neutral; exact I.
    + intros y u. destruct (Nat.eq_dec y f) as [->|N]; [|left; now rewrite A2 in H].
      rewrite A1. cbn. intros [<-|[]]. right. split; [exact I|]. split; [lia|].
      intros n2 L2 P. assert (n2 <> f) as Nf. { intros ->. rewrite A1 in P. destruct P. }
      rewrite A2 in L2, P by auto. 
      destruct (fp_own leb h f r lg HI FI n2 n P) as (_ & _ & H2).
      assert (exists o c om lo hi, jv (jb (h n2)) = Some (o, c, om, lo, hi) /\ (n = lo \/ n = hi)) as (o & c & om & lo & hi & Jv & D).
      { destruct (jb (h n2)); cbn in *; try tauto; eauto 10; destruct P; eauto 10. }
      pose proof (h_hld _ _ _ _ _ HI _ _ _ _ _ _ H2 Jv) as L.
      pose proof (l_lvlo _ _ _ _ _ _ _ _ _ L). pose proof (l_lvhi _ _ _ _ _ _ _ _ _ L).
      destruct (jv_c_lt leb h f r lg HI _ _ _ _ _ _ H2 Jv). destruct D; subst; lia.
    + intros y Nd. destruct (Nat.eq_dec y f) as [->|N]; [|rewrite A2; auto using incl_refl]. rewrite Bl in Nd; auto. now destruct Nd.
    + intros y Jy. destruct (Nat.eq_dec y f) as [->|N]; [|now rewrite A2]. rewrite Bl in Jy; auto. discriminate.
  - constructor; auto.
    + intros y Hy. rewrite A2 by lia. auto.
    + intros k y H. left. induction H as [q Hq|u z Hu IH Hz].
      * apply (On_step leb h' (Some f) k f q); [now constructor|]. unfold TcInv.nxt, nx. rewrite A1. cbn. congruence.
      * eapply On_step; eauto. unfold TcInv.nxt in *. rewrite A2; auto. intros ->. apply (on_lt leb h f r lg HI) in Hu. lia.
    + intros y Hy C. rewrite A2 by lia. split; auto. apply same_refl.
    + intros y Hy. left. now rewrite A2 by lia.
Qed.

(** A call makes a leaf, or writes to one. *)
Lemma ok_newleaf x w : live x -> lvl (h x) = 1 -> ub (h x) = UNull ->
  let h1 := upd h f (leaf0 [] Open w) in
  ok (upd h1 x (set_ub (h1 x) (UTo f))) (S f) r.
Proof.
  intros Lv L1 Hu h1. assert (forall y, f <= y -> h y = blank) as Bl by apply FI.
  pose proof (live_lt leb h f r lg HI x Lv) as Hx. assert (x <> f) as Nx by lia.
  pose proof (h_wf _ _ _ _ _ HI x Hx) as W.
  match goal with |- OK _ _ _ _ ?x _ _ => set (h' := x) end.
  assert (h' x = set_ub (h x) (UTo f)) as A1 by (unfold h', h1; now rewrite upd_eq, upd_ne).
  assert (h' f = leaf0 [] Open w) as A2 by (unfold h', h1; rewrite upd_ne by auto; apply upd_eq).
  assert (forall y, y <> f -> y <> x -> h' y = h y) as A3 by (intros; unfold h', h1; now rewrite !upd_ne).
  assert (cells (h x) = []) as Hcs by (apply (w_ub _ _ _ _ W); rewrite Hu; discriminate).
  assert (over (h x) = false) as Ox.
  { destruct (over (h x)) eqn:E; auto. destruct (w_over1 _ _ _ _ W E) as [[u U] _]; [lia|congruence]. }
  assert (neutral (jb (h x))) as Nj.
  { destruct (jb (h x)) eqn:J; try exact I; exfalso.
    - destruct (f_new _ _ FI x J). congruence.
    - assert (jv (jb (h x)) = Some (o, c, None, low, low)) as Jv by now rewrite J.
      pose proof (l_ptr _ _ _ _ _ _ _ _ _ (h_hld _ _ _ _ _ HI _ _ _ _ _ _ Hx Jv)) as P.
      apply in_kids in P. unfold kids in P. now rewrite Hcs, Hu in P.
    - assert (jv (jb (h x)) = Some (o, c, Some m, low, high)) as Jv by now rewrite J.
      pose proof (l_ptr _ _ _ _ _ _ _ _ _ (h_hld _ _ _ _ _ HI _ _ _ _ _ _ Hx Jv)) as P.
      apply in_kids in P. unfold kids in P. now rewrite Hcs, Hu in P.
    - assert (jv (jb (h x)) = Some (o, c, Some m, low, high)) as Jv by now rewrite J.
      pose proof (l_ptr _ _ _ _ _ _ _ _ _ (h_hld _ _ _ _ _ HI _ _ _ _ _ _ Hx Jv)) as P.
      apply in_kids in P. unfold kids in P. now rewrite Hcs, Hu in P.
    - assert (jv (jb (h x)) = Some (o, c, Some m, low, high)) as Jv by now rewrite J.
      pose proof (l_ptr _ _ _ _ _ _ _ _ _ (h_hld _ _ _ _ _ HI _ _ _ _ _ _ Hx Jv)) as P.
      apply in_kids in P. unfold kids in P. now rewrite Hcs, Hu in P.
    - pose proof (w_commit _ _ _ _ W) as Wc. rewrite J in Wc. destruct Wc as ((O & _) & _). congruence. }
  split; [|split].
  - apply (step_newleaf leb h f r lg HI h' x w); auto.
  - apply (f_frame h h' f (S f) FI).
    + intros y Hy. rewrite A3 by lia. apply Bl. lia.
    + intros y. destruct (Nat.eq_dec y f) as [->|N]; [right; now rewrite A2|].
      destruct (Nat.eq_dec y x) as [->|N2]; [rewrite A1; auto|rewrite A3; auto].
    + intros y Hy. destruct (Nat.eq_dec y x) as [->|N2]; [rewrite A1; auto|rewrite A3; auto; lia].
    + intros y. destruct (Nat.eq_dec y f) as [->|N]; [rewrite Bl; auto; discriminate|].
      destruct (Nat.eq_dec y x) as [->|N2]; [rewrite A1; auto|rewrite A3; auto].
    + intros y. apply T0. destruct (Nat.eq_dec y f) as [->|N]; [now rewrite A2, Bl|].
      destruct (Nat.eq_dec y x) as [->|N2]; [rewrite A1; auto|rewrite A3; auto].
    + intros y u. destruct (Nat.eq_dec y f) as [->|N]; [rewrite A2; intros []|].
      destruct (Nat.eq_dec y x) as [->|N2]; [|rewrite A3; auto].
      rewrite A1. unfold kids. cbn. rewrite Hcs. cbn. intros [<-|[]]. right. split; [exact Nj|]. split; [now rewrite A2|].
      intros n2 _ P. destruct (Nat.eq_dec n2 f) as [->|M1]; [rewrite A2 in P; destruct P|].
      assert (fp (jb (h n2)) f) as P' by (destruct (Nat.eq_dec n2 x) as [->|M2]; [now rewrite A1 in P|now rewrite A3 in P]).
      destruct (fp_own leb h f r lg HI FI n2 f P'). lia.
    + intros y Nd. destruct (Nat.eq_dec y f) as [->|N]; [rewrite Bl in Nd; auto; now destruct Nd|].
      destruct (Nat.eq_dec y x) as [->|N2]; [|rewrite A3; auto using incl_refl].
      exfalso. apply Nd. destruct (jb (h x)); destruct Nj; auto.
    + intros y Jy. destruct (Nat.eq_dec y f) as [->|N]; [rewrite Bl in Jy; auto; discriminate|].
      destruct (Nat.eq_dec y x) as [->|N2]; [rewrite Jy in Nj; destruct Nj|rewrite A3; auto].
  - apply (ext_one leb h f r h' (S f) x); auto.
    + intros [C|C]; [congruence|]. unfold retired in C. now rewrite L1, Hu in C.
    + now rewrite A1.
    + intros y Hy Ny. rewrite A3 by lia. repeat split; auto.
    + intros k y H. left. induction H as [q Hq|u z Hu' IH Hz]; [now constructor|]. eapply On_step; eauto.
      pose proof (on_lt leb h f r lg HI _ _ Hu') as Hlt. unfold TcInv.nxt in *.
      destruct (Nat.eq_dec u x) as [->|N2]; [|rewrite A3; auto; lia].
      unfold nx in Hz. rewrite pos_rts, Hcs in Hz. cbn in Hz. now rewrite Hu in Hz.
    + left. now rewrite A1.
Qed.
Lemma ok_write l k0 es b lg' : on k0 l -> lvl (h l) = 0 -> fz (h l) = Open -> ret (h l) = false ->
  (b = true -> es = []) ->
  (forall k, In k (map fst es) -> k = k0 \/ In k (map fst (ents (h l)))) ->
  (forall k, k <> k0 -> get leb es k = get leb (ents (h l)) k /\ abs leb lg' k = abs leb lg k) ->
  get leb es k0 = abs leb lg' k0 ->
  let h' := upd h l (set_ents (h l) es b) in
  HInv h' f r lg' /\ FInv h' f /\ Ext leb h f r h' f r /\ (forall k y, on k y -> On h' r k y).
Proof.
  intros Hk L0 Fz Rt B1 B2 B3 B4 h'. pose proof (on_lt leb h f r lg HI _ _ Hk) as Hl.
  pose proof (h_wf _ _ _ _ _ HI l Hl) as W.
  assert (h' l = set_ents (h l) es b) as A1 by (unfold h'; apply upd_eq).
  assert (forall y, y <> l -> h' y = h y) as A2 by (intros; unfold h'; apply upd_ne; auto).
  assert (forall k y, on k y -> On h' r k y) as Hon.
  { intros k y H. induction H as [q Hq|u z Hu' IH Hz]; [now constructor|]. eapply On_step; eauto.
    unfold TcInv.nxt in *. destruct (Nat.eq_dec u l) as [->|N]; [now rewrite A1|now rewrite A2]. }
  split; [|split; [|split; [|exact Hon]]].
  - apply (step_write leb HO h f r lg HI h' l k0 es b lg'); auto.
  - apply (fs_tr h f FI).
    + intros y Hy. apply A2. lia.
    + intros y. destruct (Nat.eq_dec y l) as [->|N]; [rewrite A1; auto|rewrite A2; auto]; repeat split; auto.
    + intros y. apply T0. destruct (Nat.eq_dec y l) as [->|N]; [rewrite A1; auto|rewrite A2; auto].
  - apply (ext_one leb h f r h' f l); auto.
    + intros [C|C].
      * destruct (w_over0 _ _ _ _ W C L0). congruence.
      * unfold retired in C. rewrite L0 in C. congruence.
    + now rewrite A1.
    + intros y Hy N. rewrite A2 by auto. repeat split; auto.
    + left. now rewrite A1.
Qed.
End sys.
