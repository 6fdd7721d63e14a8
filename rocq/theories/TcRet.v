(** Removing a retired child from a locked node keeps the invariant. *)
From Coq Require Import List Arith Bool Lia.
From Verif Require Import TcModel TcRoute TcSpec TcInv TcTree TcFrame.
Import ListNotations.

Section retire.
Context {K V : Type} (leb : K -> K -> bool) (HO : tord leb).
Notation heap := (nat -> obj K V).
Notation pos := (pos leb).
Notation nx := (nx leb).
Notation nxt := (nxt leb).
Notation On := (On leb).
Notation Live := (Live leb).
Notation Path := (Path leb).
Notation Rep := (Rep leb).
Notation sel := (sel leb).
Notation wlt := (wlt leb).
Notation wgt := (wgt leb).
Notation Job := (Job leb).
Notation HInv := (HInv leb).
Implicit Types (k s m : K) (y z u v w p a : nat).

Context (h h' : heap) (f : nat) (r : option nat) (lg : list (ev K V)) (HI : HInv h f r lg).
Context (x c : nat).
Notation "'on' k x" := (On h r k x) (at level 10, k at level 9, x at level 9).
Notation live := (Live h r).
Notation "'onn' k x" := (On h' r k x) (at level 10, k at level 9, x at level 9).
Notation live' := (Live h' r).

Hypothesis (Hx : x < f) (Hj : jb (h x) = Locked) (Hc : In c (kids (h x))).
Hypothesis (Hr : retired (h c) = true).
Hypothesis B1 : forall y, y <> x -> h' y = h y.
Hypothesis B2 : lvl (h' x) = lvl (h x) /\ own (h' x) = own (h x) /\ over (h' x) = over (h x)
  /\ wlo (h' x) = wlo (h x) /\ fz (h' x) = fz (h x).
Hypothesis B3 : jb (h' x) = Locked \/ exists j, jb (h' x) = CUb j.
Hypothesis N1 : forall k, nxt h x k <> Some c -> nxt h' x k = nxt h x k.
Hypothesis N2 : forall k, nxt h x k = Some c -> nxt h' x k = None \/
  exists d k', d <> c /\ nxt h' x k = Some d /\ on k' x /\ nxt h x k' = Some d.
Hypothesis N3 : forall s, In s (keys (cells (h' x))) -> In s (keys (cells (h x))).
Hypothesis E1 : wfo leb h' f x.

Lemma rx_over : over (h x) = false.
Proof.
  destruct (over (h x)) eqn:E; auto. exfalso.
  destruct (w_over1 _ _ _ _ (h_wf _ _ _ _ _ HI x Hx) E) as [_ W].
  - intros L. destruct (w_leaf _ _ _ _ (h_wf _ _ _ _ _ HI x Hx) L) as (_ & _ & E'). congruence.
  - now rewrite Hj in W.
Qed.
Lemma rx_live : live x.
Proof. apply (act_live leb h f r lg HI); eauto using rx_over. now rewrite Hj. Qed.
Lemma rx_lvl : lvl (h x) = S (lvl (h c)) /\ c < f.
Proof. apply (kid_lvl leb h f r lg HI); auto. Qed.
Lemma rc_ne : c <> x.
Proof. intros E. pose proof rx_lvl as [L _]. rewrite E in L. lia. Qed.
Lemma rc_kids : kids (h c) = [].
Proof.
  destruct rx_lvl as [_ Hl]. pose proof (h_wf _ _ _ _ _ HI c Hl) as W. unfold kids.
  unfold retired in Hr. destruct (lvl (h c)) eqn:L.
  - destruct (w_leaf _ _ _ _ W L) as (-> & -> & _). reflexivity.
  - destruct (ub (h c)) eqn:U; try discriminate. rewrite (w_ub _ _ _ _ W); [reflexivity|]. intros u. congruence.
Qed.
Lemma rc_nxt k : nxt h c k = None.
Proof.
  destruct (nxt h c k) eqn:E; auto. apply nxt_kid in E. rewrite rc_kids in E. destruct E.
Qed.
Lemma rc_ents : ents (h c) = [].
Proof.
  destruct rx_lvl as [_ Hl]. pose proof (h_wf _ _ _ _ _ HI c Hl) as W.
  destruct (Nat.eq_dec (lvl (h c)) 0) as [L|L].
  - apply (w_ret _ _ _ _ W). unfold retired in Hr. now rewrite L in Hr.
  - now apply (w_node _ _ _ _ W).
Qed.
Lemma rc_abs k : on k c -> abs leb lg k = None.
Proof.
  intros H. destruct (Nat.eq_dec (lvl (h c)) 0) as [L|L].
  - now rewrite <- (h_abs1 _ _ _ _ _ HI k c H L), rc_ents.
  - eapply no_leaf_abs; eauto. apply rc_nxt.
Qed.
Lemma rl_same y : lvl (h' y) = lvl (h y) /\ own (h' y) = own (h y) /\ over (h' y) = over (h y)
  /\ wlo (h' y) = wlo (h y) /\ fz (h' y) = fz (h y).
Proof. destruct (Nat.eq_dec y x) as [->|Ne]; [auto|]. rewrite B1 by auto. auto 10. Qed.
Lemma r_nxt y k : y <> x -> nxt h' y k = nxt h y k.
Proof. intros. unfold nxt, TcInv.nxt. now rewrite B1. Qed.
Lemma rd_over k d : on k x -> nxt h x k = Some d -> over (h d) = false.
Proof.
  intros A B. destruct (over (h d)) eqn:E; auto. exfalso.
  destruct (h_over _ _ _ _ _ HI _ _ _ A B E) as (? & ? & ? & ? & J & _). rewrite Hj in J. discriminate.
Qed.
Lemma r_edge k u w : live u -> wlt (wlo (h u)) k -> nxt h' u k = Some w ->
  w <> c /\ live w /\ wlt (wlo (h w)) k /\ exists k5, on k5 u /\ nxt h u k5 = Some w.
Proof.
  intros Hu Hw Hn. destruct (every_pos leb HO h f r lg HI u k Hu Hw) as (k5 & H5 & E5).
  assert (forall z, nxt h u k = Some z -> nxt h u k5 = Some z) as T5.
  { intros z Hz. unfold nxt, TcInv.nxt, TcRoute.nx in *. now rewrite E5. }
  destruct (Nat.eq_dec u x) as [->|Ne].
  - assert (nxt h x k = Some c \/ nxt h x k <> Some c) as [D|D].
    { destruct (nxt h x k) as [z|]; [|right; discriminate].
      destruct (Nat.eq_dec z c) as [->|]; [now left|right; congruence]. }
    + destruct (N2 k D) as [E|(d & k' & A1 & A2 & A3 & A4)]; [congruence|].
      assert (w = d) as -> by congruence. split; auto.
      assert (on k' d) as Hd by (eapply On_step; eauto). split; [now exists k'|]. split; [|eauto].
      rewrite (w_wlo _ _ _ _ (wf leb h f r lg HI _ _ Hd)); [exact I|]. eapply rd_over; eauto.
    + rewrite N1 in Hn by auto. split; [congruence|].
      destruct (grow leb HO h f r lg HI x k w Hu Hw Hn). split; auto. split; auto. eauto.
  - rewrite r_nxt in Hn by auto. destruct (grow leb HO h f r lg HI u k w Hu Hw Hn).
    split; [|split; auto; split; eauto]. intros ->. apply Ne.
    destruct (every_kid leb HO h f r lg HI x c rx_live rx_over Hc) as (k6 & H6 & E6).
    eapply (h_tree _ _ _ _ _ HI k5 k6); eauto.
Qed.
Lemma s1 k y : onn k y -> live y /\ wlt (wlo (h y)) k /\ y <> c /\ (on k y \/ abs leb lg k = None).
Proof.
  induction 1 as [n Hn|u z Hu (L & W & Nc & IH) Hz].
  - assert (on k n) as Hk by now constructor.
    split; [now exists k|]. split; [eapply (h_wl _ _ _ _ _ HI); eauto|]. split; [|auto].
    intros ->. destruct rx_live as [k' Hk']. pose proof (on_root_lvl leb h f r lg HI _ _ _ Hk' Hn).
    pose proof rx_lvl. lia.
  - destruct (r_edge _ _ _ L W Hz) as (A & B & D & _). split; auto. split; auto. split; auto.
    destruct IH as [IH|IH]; [|auto].
    destruct (Nat.eq_dec u x) as [->|Ne].
    + assert (nxt h x k = Some c \/ nxt h x k <> Some c) as [D'|D'].
      { destruct (nxt h x k) as [z'|]; [|right; discriminate].
        destruct (Nat.eq_dec z' c) as [->|]; [now left|right; congruence]. }
      * right. apply rc_abs. eapply On_step; eauto.
      * left. rewrite N1 in Hz by auto. eapply On_step; eauto.
    + left. rewrite r_nxt in Hz by auto. eapply On_step; eauto.
Qed.
Lemma s2 k y : on k y -> onn k y \/ y = c.
Proof.
  induction 1 as [n Hn|u z Hu IH Hz]; [left; now constructor|].
  destruct IH as [IH| ->]; [|rewrite rc_nxt in Hz; discriminate].
  destruct (Nat.eq_dec u x) as [->|Ne].
  - destruct (Nat.eq_dec z c) as [->|Nz]; auto. left. eapply On_step; eauto.
    rewrite N1 by congruence. auto.
  - left. eapply On_step; eauto. now rewrite r_nxt.
Qed.
Lemma s_live y : live' y -> live y /\ y <> c.
Proof. intros [k Hk]. destruct (s1 _ _ Hk) as (? & _ & ? & _). auto. Qed.
Lemma s_on k y : on k y -> y <> c -> onn k y.
Proof. intros H N. destruct (s2 _ _ H); [auto|congruence]. Qed.
Lemma r_pub k : pos (h x) k = PUb -> pos (h' x) k = PUb.
Proof.
  rewrite !pos_rts. intros H. rewrite (route_ub_keys leb) in *. auto.
Qed.
Lemma r_jv y : jv (jb (h' y)) = jv (jb (h y)) /\ isIns (jb (h' y)) = isIns (jb (h y)).
Proof.
  destruct (Nat.eq_dec y x) as [->|Ne]; [|now rewrite B1].
  rewrite Hj. destruct B3 as [->|[j ->]]; auto.
Qed.

Theorem retire : HInv h' f r lg.
Proof.
  constructor.
  - intros y Hy. destruct (Nat.eq_dec y x) as [->|Ne]; [exact E1|].
    pose proof (h_wf _ _ _ _ _ HI y Hy) as W. constructor; rewrite B1 by auto; try apply W.
    + intros z Hz. rewrite (proj1 (rl_same z)). now apply W.
    + pose proof (w_commit _ _ _ _ W) as X. destruct (jb (h y)) as [| | | | | | | |c1 ? ? ? ?|]; auto.
      destruct X as [X X2]. split; auto. intros L. destruct (X2 L) as (A1 & A2 & A3 & A4).
      destruct (rl_same c1) as (El & _ & Eo & _). rewrite El, Eo. repeat split; auto.
      unfold held in *. rewrite El. destruct (lvl (h c1)) eqn:Lc; [now destruct A2|].
      assert (c1 <> x) as Nx by (intros ->; destruct A3 as (? & ? & ? & ? & ? & ? & E); congruence).
      now rewrite B1.
  - intros n Hn. destruct (rl_same n) as (-> & _ & -> & _). now apply (h_root _ _ _ _ _ HI).
  - intros k1 k2 u v w H1 A1 H2 A2.
    destruct (s1 _ _ H1) as (L1 & W1 & _). destruct (s1 _ _ H2) as (L2 & W2 & _).
    destruct (r_edge _ _ _ L1 W1 A1) as (_ & _ & _ & k5 & P1 & P2).
    destruct (r_edge _ _ _ L2 W2 A2) as (_ & _ & _ & k6 & P3 & P4).
    eapply (h_tree _ _ _ _ _ HI k5 k6); eauto.
  - intros y s Hl Hs Hw. destruct (s_live _ Hl) as [Hl' Nc]. destruct (rl_same y) as (_ & _ & _ & Ew & _).
    rewrite Ew in Hw. apply s_on; auto. apply (h_sep _ _ _ _ _ HI); auto.
    destruct (Nat.eq_dec y x) as [->|Ne]; auto. now rewrite B1 in Hs.
  - intros y o c1 m lo hi Hy J I Hl Hw. destruct (s_live _ Hl) as [Hl' Nc].
    destruct (rl_same y) as (_ & _ & _ & Ew & _). destruct (r_jv y) as [Ej Ei].
    rewrite Ej in J. rewrite Ei in I. rewrite Ew in Hw. apply s_on; auto. eapply (h_mid _ _ _ _ _ HI); eauto.
  - intros y Hl. destruct (s_live _ Hl) as [Hl' Nc].
    destruct (h_wu _ _ _ _ _ HI y Hl') as (k & A1 & A2 & A3). exists k. split; [now apply s_on|].
    destruct (r_jv y) as [Ej Ei]. rewrite Ej, Ei. split; auto.
    destruct (Nat.eq_dec y x) as [->|Ne]; [now apply r_pub|]. now rewrite B1.
  - intros y k Hl Hs Hw. destruct (s_live _ Hl) as [Hl' Nc]. destruct (rl_same y) as (_ & _ & _ & Ew & _).
    rewrite Ew in Hw. apply s_on; auto. apply (h_ent _ _ _ _ _ HI); auto.
    destruct (Nat.eq_dec y x) as [->|Ne]; [|now rewrite B1 in Hs].
    rewrite (w_node _ _ _ _ E1) in Hs; [destruct Hs|]. destruct B2 as [-> _]. pose proof rx_lvl. lia.
  - intros k y Hk. destruct (s1 _ _ Hk) as (_ & W & _). destruct (rl_same y) as (_ & _ & _ & -> & _). auto.
  - intros k y Hk L. destruct (s1 _ _ Hk) as (Hl & W & _ & Ha). destruct (rl_same y) as (El & _).
    rewrite El in L.
    assert (y <> x) as Ne by (intros ->; pose proof rx_lvl; lia). rewrite B1 by auto.
    assert (on k y -> get leb (ents (h y)) k = abs leb lg k) as X by (intros; now apply (h_abs1 _ _ _ _ _ HI)).
    destruct Ha as [Ha|Ha]; auto. destruct (get leb (ents (h y)) k) eqn:E; [|congruence].
    apply X. apply (h_ent _ _ _ _ _ HI); auto.
    apply (get_in leb HO) in E. now apply (in_map fst) in E.
  - intros k Hk. destruct (h_abs2 _ _ _ _ _ HI k Hk) as (y & Hy & L). exists y.
    destruct (rl_same y) as (-> & _). split; auto. apply s_on; auto. intros ->. now rewrite rc_abs in Hk.
  - intros k u z Hu Hz Ov. destruct (s1 _ _ Hu) as (Hl & W & _).
    destruct (r_edge _ _ _ Hl W Hz) as (_ & _ & _ & k5 & P1 & P2).
    destruct (rl_same z) as (_ & _ & Eo & Ew & _). rewrite Eo in Ov.
    destruct (h_over _ _ _ _ _ HI _ _ _ P1 P2 Ov) as (o & om & lo & hi & J & D).
    destruct (rl_same u) as (_ & _ & Eo' & Ew' & _). destruct (r_jv u) as [Ej Ei].
    exists o, om, lo, hi. rewrite Ej, Ei, Ew, Eo', Ew'. auto.
  - intros y Hy Ha Hv. destruct (Nat.eq_dec y x) as [->|Ne].
    + left. destruct rx_live as [k Hk]. exists k. apply s_on; auto. intros E. now apply rc_ne.
    + rewrite B1 in Ha, Hv by auto. rewrite B1 by auto.
      destruct (h_act _ _ _ _ _ HI y Hy Ha Hv) as [[k Hk]|U]; auto.
      destruct (Nat.eq_dec y c) as [->|Nc]; [|left; exists k; now apply s_on]. right.
      unfold retired in Hr. destruct (lvl (h c)) eqn:L.
      * destruct (w_leaf _ _ _ _ (h_wf _ _ _ _ _ HI c Hy) L) as (_ & _ & E). rewrite E in Ha. discriminate.
      * destruct (ub (h c)); auto; discriminate.
  - intros y o c1 om lo hi Hy J. destruct (r_jv y) as [Ej _]. rewrite Ej in J.
    assert (y <> x) as Ne by (intros ->; rewrite Hj in J; discriminate).
    pose proof (h_hld _ _ _ _ _ HI _ _ _ _ _ _ Hy J) as L.
    assert (c1 <> x) as Nx.
    { intros ->. pose proof (l_held _ _ _ _ _ _ _ _ _ L) as Hh. unfold held in Hh.
      destruct rx_lvl as [Lx _]. rewrite Lx in Hh. destruct Hh as (? & ? & ? & ? & ? & ? & E). congruence. }
    assert (forall z, lvl (h' z) = lvl (h z)) as Elv by (intros; apply rl_same).
    assert (forall z, own (h' z) = own (h z)) as Eo by (intros; apply rl_same).
    constructor; unfold held; rewrite ?Elv, ?Eo, ?(B1 y) by auto; rewrite ?(B1 c1) by auto; apply L.
  - intros y Hy. unfold Fz. destruct (Nat.eq_dec y x) as [->|Ne].
    + destruct B3 as [->|[j ->]]; auto.
    + rewrite B1 by auto. pose proof (h_fz _ _ _ _ _ HI y Hy) as F. unfold Fz in F.
      assert (forall z, fz (h' z) = fz (h z)) as Ef by (intros; apply rl_same).
      assert (forall z, own (h' z) = own (h z)) as Eo by (intros; apply rl_same).
      intros L. specialize (F L). destruct (jb (h y)); rewrite ?Ef, ?Eo; auto.
  - intros y o c1 om lo hi Hy J Ov. destruct (r_jv y) as [Ej Ei]. rewrite Ej in J.
    assert (y <> x) as Ne by (intros ->; rewrite Hj in J; discriminate).
    rewrite B1 in Ov by auto. pose proof (h_job _ _ _ _ _ HI _ _ _ _ _ _ Hy J Ov) as Jb.
    assert (lvl (h x) <> 0) as Lx by (pose proof rx_lvl; lia).
    assert (~ Chain h y x) as NC.
    { apply (chain_no_top leb h f r lg HI y x); auto. unfold nofull. now rewrite Hj. }
    assert (forall q, q = y \/ Chain h y q -> q <> x) as Nq by (intros q [->|Q] ->; auto).
    apply (job_keep leb h h' r r); auto.
    + intros q Q. rewrite B1 by auto. split; auto. apply same_refl.
    + intros k p a u R W. destruct (j_img _ _ _ _ _ _ _ _ _ Jb _ _ _ _ R W) as (Nl & Ou & _).
      assert (u <> x) as Nu by (intros ->; apply Nl, rx_live). rewrite B1 by auto.
      split; [apply same_refl|]. split; auto. intros Hl. now destruct (s_live _ Hl).
    + intros k Hk. apply s_on; auto. intros ->.
      destruct (up leb HO h f r lg HI k _ _ _ _ _ _ Hy J (or_introl Ov) Hk) as (P1 & _ & P3).
      destruct (every_kid leb HO h f r lg HI x c rx_live rx_over Hc) as (k6 & H6 & E6).
      apply Ne. eapply (h_tree _ _ _ _ _ HI k k6); eauto.
    + intros E. destruct (j_ins _ _ _ _ _ _ _ _ _ Jb E) as (_ & O1 & _).
      destruct (rl_same c1) as (_ & _ & -> & -> & _). auto.
Qed.
Theorem retire_on : HInv h' f r lg
  /\ (forall k y, on k y -> onn k y \/ (closed (h' y) /\ same (h' y) (h y))) /\ MvT leb h r h'.
Proof.
  split; [exact retire|]. split.
  2: { split.
    - intros k y Hk. destruct (s2 k y Hk) as [?| ->]; auto.
    - intros k y Hk. destruct (s1 k y Hk) as ([k' Hk'] & _ & Ne & _). exists k'. split; auto. now apply s_on. }
  intros k y Hk. destruct (s2 k y Hk) as [?| ->]; auto. right.
  rewrite B1 by apply rc_ne. split; [right; auto|apply same_refl].
Qed.
End retire.
