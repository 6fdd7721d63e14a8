(** Replacing a child and the children being split below it: the invariant is kept when a pointer of
    the job's node, for some keys, is set to the replacement. *)
From Coq Require Import List Arith Bool Lia.
From Verif Require Import TcModel TcRoute TcSpec TcInv TcTree TcFrame.
Import ListNotations.

Section redir.
Context {K V : Type} (leb : K -> K -> bool) (HO : tord leb).
Notation heap := (nat -> obj K V).
Notation pos := (pos leb).
Notation nx := (nx leb).
Notation nxt := (nxt leb).
Notation On := (On leb).
Notation Live := (Live leb).
Notation Path := (Path leb).
Notation Rep := (Rep leb).
Notation sel := (sel leb).
Notation wlt := (wlt leb).
Notation wgt := (wgt leb).
Notation Job := (Job leb).
Notation HInv := (HInv leb).
Implicit Types (k s m : K) (y z u v w p a : nat).

Context (h h' : heap) (f : nat) (r : option nat) (lg : list (ev K V)) (HI : HInv h f r lg).
Context (x : nat) (o : lpos) (c : nat) (om : option K) (lo hi : nat) (Pb : K -> bool).
Notation "'on' k x" := (On h r k x) (at level 10, k at level 9, x at level 9).
Notation live := (Live h r).
Notation "'onn' k x" := (On h' r k x) (at level 10, k at level 9, x at level 9).
Notation live' := (Live h' r).

Hypothesis (Hx : x < f) (Hj : jv (jb (h x)) = Some (o, c, om, lo, hi)) (Ho : over (h x) = false).
Hypothesis Hnf : nofull h x.
Hypothesis D1 : forall y, y < f -> y <> x -> same (h' y) (h y) /\ ret (h' y) = ret (h y)
  /\ nsl (h' y) = nsl (h y).
Hypothesis D1f : forall y, fz (h' y) = fz (h y) /\ own (h' y) = own (h y).
Hypothesis D1x : lvl (h' x) = lvl (h x) /\ ents (h' x) = ents (h x).
Hypothesis D2 : forall k, nxt h' x k =
  if lpos_eqb (pos (h x) k) o && Pb k then Some (sel om lo hi k) else nxt h x k.
Hypothesis P1 : forall k, pos (h x) k = o -> Pb k = true -> wgt (isIns (jb (h x))) om k.
Hypothesis P2 : forall k1 k2, pos (h x) k1 = o -> pos (h x) k2 = o -> Pb k1 = true ->
  sel om lo hi k1 = sel om lo hi k2 -> Pb k2 = true.
Hypothesis D4 : forall s, In s (keys (cells (h' x))) -> In s (keys (cells (h x))) \/ on s x.
Hypothesis D5 : exists k, on k x /\ pos (h' x) k = PUb.
Hypothesis D6 : forall y, y < f -> (over (h' y) = over (h y) /\ wlo (h' y) = wlo (h y))
  \/ (Chain h x y /\ over (h y) = false).
Hypothesis D7 : forall y, Chain h x y -> over (h' y) = true.
Definition swaptype : Prop := (forall k, pos (h x) k = o -> Pb k = true) /\ jv (jb (h' x)) = None.
Definition instype : Prop :=
  isIns (jb (h' x)) = true /\ jv (jb (h' x)) = Some (o, c, om, lo, hi) /\ isIns (jb (h x)) = false
  /\ (forall y, Chain h x y -> wlo (h' y) = om) /\ (forall k, wlt om k <-> Pb k = false)
  /\ (forall k, pos (h' x) k = o -> pos (h x) k = o /\ wlt om k).
Hypothesis D8 : swaptype \/ instype.
Hypothesis D9 : forall y, y < f -> y <> x -> jb (h' y) = jb (h y)
  \/ (y = c /\ swaptype /\ exists b1 b2 b3 b4 b5 b6 b7,
      jb (h c) = Full b1 b2 b3 b4 b5 b6 b7 /\ jb (h' c) = Commit b2 b4 b5 b7 0).
Hypothesis E1 : wfo leb h' f x.
Hypothesis E2 : forall o' c' om' lo' hi', jv (jb (h' x)) = Some (o', c', om', lo', hi') ->
  Hld leb h' f x o' c' om' lo' hi'.
Hypothesis E3 : Fz h' x.

Definition red k : Prop := pos (h x) k = o /\ Pb k = true /\ on k x.

Lemma x_live : live x.
Proof. eapply job_live; eauto. Qed.
Lemma x_nchain : ~ Chain h x x.
Proof. intros C. destruct (chain_full leb h f r lg HI x x Hx C) as (_ & _ & ?). lia. Qed.
Lemma x_over : over (h' x) = false.
Proof. destruct (D6 x Hx) as [[E _]|[C _]]; [congruence|]. destruct (x_nchain C). Qed.
Lemma x_lvl : lvl (h x) <> 0.
Proof. destruct (jv_c_lt leb h f r lg HI _ _ _ _ _ _ Hx Hj). lia. Qed.
Lemma nxt_c k : pos (h x) k = o -> nxt h x k = Some c.
Proof.
  intros E. unfold nxt, TcInv.nxt, TcRoute.nx. rewrite E.
  eapply l_ptr. eapply (h_hld _ _ _ _ _ HI); eauto.
Qed.
Lemma path_top k p : Path h x k p -> p = x \/ pos (h x) k = o.
Proof.
  induction 1 as [|p o' a om' lo' hi' Hp IH Hj' Ho']; [now left|right].
  destruct IH as [->|?]; auto. congruence.
Qed.
Lemma rep_top k p a u : Rep h x k p a u -> pos (h x) k = o.
Proof.
  intros (Hp & o' & om' & lo' & hi' & Hj' & Ho' & _). destruct (path_top _ _ Hp) as [->|?]; auto. congruence.
Qed.
Lemma img k p a u : Rep h x k p a u -> Pb k = true -> ImgOK leb h r (isIns (jb (h x))) om k p a u.
Proof.
  intros R P. eapply j_img; eauto; [eapply (h_job _ _ _ _ _ HI); eauto|].
  apply P1; auto. eapply rep_top; eauto.
Qed.
Lemma img_ne k p a u : Rep h x k p a u -> Pb k = true -> u <> x.
Proof. intros R P ->. destruct (img _ _ _ _ R P) as (N & _). apply N, x_live. Qed.
Lemma nxt_same y k : y < f -> y <> x -> nxt h' y k = nxt h y k.
Proof. intros H1 H2. apply same_nx. now apply D1. Qed.
Lemma chain_ne a : Chain h x a -> a <> x.
Proof. intros C ->. now apply x_nchain. Qed.
Lemma chain_lt a : Chain h x a -> a < f.
Proof. intros C. eapply chain_full; eauto. Qed.
(** A node in the chain that is not a leaf has a job. *)
Lemma chain_jv a : Chain h x a -> lvl (h a) <> 0 -> exists o' c' om' lo' hi',
  jv (jb (h a)) = Some (o', c', om', lo', hi') /\ isIns (jb (h a)) = false.
Proof.
  intros C L. destruct (chain_full leb h f r lg HI x a Hx C) as (_ & [?|(? & ? & ? & ? & ? & ? & ? & E)] & _);
    [lia|]. rewrite E. cbn. eauto 10.
Qed.
Lemma chain_noins a : Chain h x a -> isIns (jb (h a)) = false.
Proof.
  intros C. destruct (Nat.eq_dec (lvl (h a)) 0) as [L|L].
  - destruct (w_leaf _ _ _ _ (h_wf _ _ _ _ _ HI a (chain_lt a C)) L) as (_ & _ & ->). reflexivity.
  - destruct (chain_jv a C L) as (? & ? & ? & ? & ? & _ & ?). auto.
Qed.
Lemma jv_nxt p o' a om' lo' hi' k : p < f -> jv (jb (h p)) = Some (o', a, om', lo', hi') ->
  pos (h p) k = o' -> nxt h p k = Some a.
Proof.
  intros Hp Hjp E. unfold nxt, TcInv.nxt, TcRoute.nx. rewrite E.
  eapply l_ptr. eapply (h_hld _ _ _ _ _ HI); eauto.
Qed.
Lemma rep_nxt k p a u : Rep h x k p a u -> nxt h p k = Some a /\ p < f.
Proof.
  intros R. pose proof (rep_own leb h f r lg HI _ _ _ _ _ Hx R) as (_ & _ & _ & _ & Hp & _).
  split; auto. destruct R as (_ & o1 & om1 & lo1 & hi1 & J1 & Q1 & _). eapply jv_nxt; eauto.
Qed.

(** What is known of a node on the way of [k] afterwards, and of the edge to the next. *)
Definition was k y : Prop := (on k y /\ (Chain h x y -> ~ red k))
  \/ (exists p a, Rep h x k p a y /\ on k a /\ red k).
Definition edge k u w : Prop :=
  (on k u /\ nxt h u k = Some w /\ (Chain h x u \/ u = x /\ w = c -> ~ red k))
  \/ (exists p a, Rep h x k p a w /\ on k a /\ red k
      /\ ((p = x /\ u = x) \/ exists q, Rep h x k q p u))
  \/ (exists p a oa ca oma loa hia, Rep h x k p a u /\ on k a /\ red k /\ nxt h a k = Some w
      /\ jv (jb (h a)) = Some (oa, ca, oma, loa, hia) /\ isIns (jb (h a)) = false /\ pos (h a) k <> oa).
Lemma edge_of k u w : was k u -> nxt h' u k = Some w -> edge k u w.
Proof.
  intros [[H1 H2]|(p & a & R & Ha & Hr)] Hz.
  - pose proof (on_lt leb h f r lg HI _ _ H1) as Hlt.
    destruct (Nat.eq_dec u x) as [->|Ne].
    + rewrite D2 in Hz. destruct (lpos_eqb (pos (h x) k) o && Pb k) eqn:E.
      * apply andb_true_iff in E as [E P]. apply lpos_eqb_eq in E. injection Hz as <-. right. left.
        exists x, c. split; [|split; [|split; [split; auto|auto]]].
        -- split; [apply P0|]. exists o, om, lo, hi. auto.
        -- eapply On_step; eauto. now apply nxt_c.
      * left. split; auto. split; auto. intros _ (A & B & _).
        rewrite B, A in E. rewrite (proj2 (lpos_eqb_eq o o) eq_refl) in E. discriminate.
    + rewrite nxt_same in Hz by auto. left. split; auto. split; auto. intros [C|[C _]]; [auto|congruence].
  - pose proof (rep_own leb h f r lg HI _ _ _ _ _ Hx R) as (_ & Hlv & Hu & Hal & Hpl & _).
    assert (Pb k = true) as P by apply Hr.
    rewrite nxt_same in Hz; [|auto|eapply img_ne; eauto].
    destruct (img _ _ _ _ R P) as (_ & _ & _ & G).
    assert (lvl (h a) <> 0) as Hl.
    { intros El. rewrite El in Hlv. destruct (w_leaf _ _ _ _ (h_wf _ _ _ _ _ HI u Hu) Hlv) as (A & B & _).
      apply nxt_kid in Hz. unfold kids in Hz. rewrite A, B in Hz. destruct Hz. }
    pose proof (rep_chain _ _ _ _ _ _ _ R) as C.
    destruct (chain_jv a C Hl) as (o' & c' & om' & lo' & hi' & Hja & Hia).
    destruct (G _ _ _ _ _ Hja) as [G1 _]. rewrite Hz in G1.
    destruct (lpos_eqb (pos (h a) k) o') eqn:E.
    + apply lpos_eqb_eq in E. injection G1 as ->. right. left. exists a, c'.
      split; [|split; [|split; [auto|right; eauto]]].
      * split; [|exists o', om', lo', hi'; auto].
        destruct R as (Hp & o1 & om1 & lo1 & hi1 & Hj1 & Ho1 & _). eapply PS; eauto.
      * eapply On_step; eauto. eapply jv_nxt; eauto.
    + apply lpos_eqb_neq in E. symmetry in G1. right. right.
      exists p, a, o', c', om', lo', hi'. auto 10.
Qed.
Lemma r1 k y : onn k y -> was k y.
Proof.
  induction 1 as [n Hn|y z Hy IH Hz].
  - left. split; [now constructor|]. intros C _. pose proof x_live as [k' Hk'].
    pose proof (on_root_lvl leb h f r lg HI _ _ _ Hk' Hn).
    destruct (chain_full leb h f r lg HI x n Hx C) as (_ & _ & ?). lia.
  - destruct (edge_of _ _ _ IH Hz) as [(H1 & H2 & H3)|[(p & a & R & Ha & Hr & _)|
      (p & a & oa & ca & oma & loa & hia & R & Ha & Hr & H2 & Hja & Hia & Hpa)]].
    + left. assert (on k z) as Hkz by (eapply On_step; eauto).
      split; auto. intros C Hr.
      destruct (up_chain leb HO h f r lg HI x z k Hx Ho C Hkz) as (p & u & R & Hp & _).
      destruct (rep_nxt _ _ _ _ R) as [Hn _].
      assert (p = y) as -> by (eapply (on_nxt_parent leb h f r lg HI k p z y); eauto).
      destruct (path_chain _ _ _ _ _ (proj1 R)) as [->|C']; [|now apply H3; auto].
      apply H3; auto. right. split; auto. rewrite nxt_c in Hn by apply Hr. congruence.
    + right. eauto.
    + left. assert (on k z) as Hkz by (eapply On_step; eauto). split; auto. intros Cz _.
      destruct (up_chain leb HO h f r lg HI x z k Hx Ho Cz Hkz) as (q & u & Rq & Hq & _).
      destruct (rep_nxt _ _ _ _ Rq) as [Hn _].
      assert (q = a) as -> by (eapply (on_nxt_parent leb h f r lg HI k q z a); eauto).
      destruct Rq as (Hpq & o2 & om2 & lo2 & hi2 & Hj2 & Ho2 & _). congruence.
Qed.

Lemma r2 k y : on k y -> onn k y \/ (exists p u, Rep h x k p y u /\ red k /\ onn k u).
Proof.
  induction 1 as [n Hn|y z Hy IH Hz].
  - left. now constructor.
  - pose proof (on_lt leb h f r lg HI _ _ Hy) as Hlt. destruct IH as [H1|(p & u & R & Hr & Hu)].
    + destruct (Nat.eq_dec y x) as [->|Ne].
      * destruct (lpos_eqb (pos (h x) k) o && Pb k) eqn:E.
        -- pose proof E as E'. apply andb_true_iff in E as [E P]. apply lpos_eqb_eq in E. right.
           assert (z = c) as -> by (rewrite nxt_c in Hz by auto; congruence).
           exists x, (sel om lo hi k). split; [|split; [split; auto|]].
           ++ split; [apply P0|]. exists o, om, lo, hi. auto.
           ++ eapply On_step; eauto. now rewrite D2, E'.
        -- left. eapply On_step; eauto. now rewrite D2, E.
      * left. eapply On_step; eauto. now rewrite nxt_same.
    + assert (Pb k = true) as P by apply Hr.
      pose proof (rep_own leb h f r lg HI _ _ _ _ _ Hx R) as (_ & Hlv & Hul & Hal & Hpl & _).
      destruct (img _ _ _ _ R P) as (_ & _ & _ & G).
      assert (lvl (h y) <> 0) as Hl.
      { intros El. destruct (w_leaf _ _ _ _ (h_wf _ _ _ _ _ HI y Hal) El) as (A & B & _).
        apply nxt_kid in Hz. unfold kids in Hz. rewrite A, B in Hz. destruct Hz. }
      destruct (chain_jv y (rep_chain _ _ _ _ _ _ _ R) Hl) as (o' & c' & om' & lo' & hi' & Hja & _).
      destruct (G _ _ _ _ _ Hja) as [G1 _].
      assert (nxt h' u k = nxt h u k) as En by (apply nxt_same; auto; eapply img_ne; eauto).
      destruct (lpos_eqb (pos (h y) k) o') eqn:E.
      * apply lpos_eqb_eq in E. assert (z = c') as ->.
        { pose proof (jv_nxt _ _ _ _ _ _ _ Hal Hja E). congruence. }
        right. exists y, (sel om' lo' hi' k). split; [|split; [auto|]].
        -- split; [|exists o', om', lo', hi'; auto].
           destruct R as (Hp & o1 & om1 & lo1 & hi1 & Hj1 & Ho1 & _). eapply PS; eauto.
        -- eapply On_step; eauto. congruence.
      * left. eapply On_step; eauto. congruence.
Qed.

Lemma on_keep k y : on k y -> ~ Chain h x y -> onn k y.
Proof.
  intros H N. destruct (r2 k y H) as [?|(p & u & R & _)]; auto.
  exfalso. apply N. eapply rep_chain; eauto.
Qed.
Lemma on_keep_x k : on k x -> onn k x.
Proof. intros H. apply on_keep; auto. apply x_nchain. Qed.
Lemma on_keep_np k y : on k y -> Pb k = false -> onn k y.
Proof. intros H N. destruct (r2 k y H) as [?|(p & u & R & (_ & ? & _) & _)]; auto. congruence. Qed.
(** A key on a node of the chain is on the replacement. *)
Lemma on_img k a : Chain h x a -> on k a -> Pb k = true ->
  exists p u, Rep h x k p a u /\ onn k u.
Proof.
  intros C Hk P. destruct (up_chain leb HO h f r lg HI x a k Hx Ho C Hk) as (p & u & R & _ & Hkx).
  assert (red k) as Hr by (split; [eapply rep_top; eauto|auto]).
  destruct (r2 k a Hk) as [H|(p' & u' & R' & _ & H)]; [|eauto].
  exfalso. destruct (r1 k a H) as [[_ N]|(q & b & Rb & _)]; [now apply N|].
  destruct (img _ _ _ _ Rb P) as (N & _). apply N. now exists k.
Qed.
Lemma rep_fun k k' p a u p' u' : Rep h x k p a u -> Rep h x k' p' a u' -> p = p'
  /\ pos (h p) k = pos (h p) k' /\ exists oo oa lo1 hi1, jv (jb (h p)) = Some (oo, a, oa, lo1, hi1)
     /\ u = sel oa lo1 hi1 k /\ u' = sel oa lo1 hi1 k'.
Proof.
  intros R R'. destruct (rep_nxt _ _ _ _ R) as [_ Hp]. destruct (rep_nxt _ _ _ _ R') as [_ Hp'].
  destruct R as (_ & o1 & om1 & lo1 & hi1 & J1 & Q1 & ->).
  destruct R' as (_ & o2 & om2 & lo2 & hi2 & J2 & Q2 & ->).
  assert (p = p') as <- by (eapply (chain_jv_eq leb h f r lg HI p _ _ _ _ _ p'); eauto).
  rewrite J1 in J2. injection J2 as <- <- <- <-. split; auto. split; [congruence|].
  exists o1, om1, lo1, hi1. auto.
Qed.
(** Same replacement, same side at the top. *)
Lemma rep_link k1 k2 p a u : Rep h x k1 p a u -> Rep h x k2 p a u -> Pb k1 = true -> Pb k2 = true.
Proof.
  intros R R' P. pose proof (rep_top _ _ _ _ R) as Ht. pose proof (rep_top _ _ _ _ R') as Ht'.
  destruct (rep_fun _ _ _ _ _ _ _ R R') as (_ & Hpos & o1 & om1 & lo1 & hi1 & J1 & U1 & U2).
  pose proof (link leb HO h f r lg HI x k1 p Hx (proj1 R) k2 (proj1 R')) as Lk.
  rewrite J1 in Lk. specialize (Lk ltac:(discriminate) Hpos).
  unfold jsel in Lk. rewrite J1, Hj in Lk. apply (P2 k1 k2); auto.
  assert (Some (sel om1 lo1 hi1 k1) = Some (sel om1 lo1 hi1 k2)) as X by congruence.
  specialize (Lk X). congruence.
Qed.
(** A key of the chain node that is on the side of the replacement has the same replacement. *)
Lemma rep_side k p a u s : Rep h x k p a u -> on s a -> side leb h p u s -> Rep h x s p a u.
Proof.
  intros R Hs Hsd. pose proof (rep_chain _ _ _ _ _ _ _ R) as C.
  destruct (up_chain leb HO h f r lg HI x a s Hx Ho C Hs) as (q & u' & R' & _ & _).
  destruct (rep_fun _ _ _ _ _ _ _ R R') as (<- & Hpos & o1 & om1 & lo1 & hi1 & J1 & U1 & U2).
  replace u with u'; auto. rewrite U2. eapply Hsd; eauto.
Qed.
Lemma on_side k p a u s : Rep h x k p a u -> Pb k = true -> on s a -> side leb h p u s -> onn s u.
Proof.
  intros R P Hs Hsd. pose proof (rep_chain _ _ _ _ _ _ _ R) as C.
  pose proof (rep_side _ _ _ _ _ R Hs Hsd) as R'.
  assert (Pb s = true) as Ps by (eapply (rep_link k s); eauto).
  destruct (on_img s a C Hs Ps) as (p1 & u1 & R1 & H1).
  destruct (rep_fun _ _ _ _ _ _ _ R' R1) as (_ & _ & ? & ? & ? & ? & _ & -> & E). congruence.
Qed.
Lemma rep_eq k p a u p' u' : Rep h x k p a u -> Rep h x k p' a u' -> u = u'.
Proof. intros R R'. destruct (rep_fun _ _ _ _ _ _ _ R R') as (_ & _ & ? & ? & ? & ? & _ & -> & ->). auto. Qed.

(** ** The fields *)
Lemma img_nchain k p a u : Rep h x k p a u -> Pb k = true -> ~ Chain h x u.
Proof.
  intros R P C. destruct (img _ _ _ _ R P) as (N & Ov & _).
  destruct (chain_live leb HO h f r lg HI x u Hx Ho C); [auto|congruence].
Qed.
Lemma img_facts k p a u : Rep h x k p a u -> Pb k = true ->
  u < f /\ u <> x /\ ~ live u /\ over (h' u) = false /\ wlo (h' u) = None /\ lvl (h u) = lvl (h a)
  /\ own (h u) = p /\ same (h' u) (h u).
Proof.
  intros R P. destruct (img _ _ _ _ R P) as (N & Ov & _).
  pose proof (rep_own leb h f r lg HI _ _ _ _ _ Hx R) as (Eo & Lv & Hu & _).
  pose proof (img_ne _ _ _ _ R P) as Ne.
  destruct (D6 u Hu) as [[A B]|[C _]]; [|now apply (img_nchain _ _ _ _ R P) in C].
  repeat split; auto; try congruence; try (now apply D1).
  rewrite B. apply (w_wlo _ _ _ _ (h_wf _ _ _ _ _ HI u Hu) Ov).
Qed.
Lemma live_cases k y : onn k y ->
  (on k y /\ ~ Chain h x y /\ over (h' y) = over (h y) /\ wlo (h' y) = wlo (h y))
  \/ (on k y /\ Chain h x y /\ instype /\ wlo (h' y) = om /\ over (h' y) = true /\ over (h y) = false
      /\ Pb k = false)
  \/ (exists p a, Rep h x k p a y /\ on k a /\ Pb k = true).
Proof.
  intros Hk. destruct (r1 _ _ Hk) as [[H N]|(p & a & R & Ha & Hr)].
  - assert (Chain h x y -> Pb k = false) as HP.
    { intros C. destruct (Pb k) eqn:P; auto. exfalso. apply (N C).
      destruct (up_chain leb HO h f r lg HI x y k Hx Ho C H) as (p & u & R & _ & Hkx).
      split; [eapply rep_top; eauto|auto]. }
    assert (Chain h x y -> instype) as HT.
    { intros C. destruct D8 as [[A _]|A]; auto. exfalso.
      destruct (up_chain leb HO h f r lg HI x y k Hx Ho C H) as (p & u & R & _ & Hkx).
      rewrite A in HP by (eapply rep_top; eauto). specialize (HP C). discriminate. }
    pose proof (on_lt leb h f r lg HI _ _ H) as Hy.
    assert (Chain h x y -> over (h y) = false) as HV.
    { intros C. apply (chain_not_over leb HO h f r lg HI x y); auto. now apply HT. }
    destruct (D6 y Hy) as [[A B]|[C D]].
    + left. split; auto. split; auto. intros C. specialize (HV C). pose proof (D7 y C). congruence.
    + right. left. repeat split; auto; try (now apply HT); try (now apply D7).
  - right. right. exists p, a. split; [auto|split; [auto|apply Hr]].
Qed.
Lemma wlo_a k p a u : Rep h x k p a u -> on k a -> forall s, wgt (isIns (jb (h x))) om s -> wlt (wlo (h a)) s.
Proof.
  intros R Ha s W. rewrite (chain_wlo leb HO h f r lg HI x o c om lo hi a k); auto.
  - unfold wgt, TcInv.wgt in W. destruct (isIns (jb (h x))); [auto|exact I].
  - eapply rep_chain; eauto.
Qed.
(** The keys and entries of a replacement are on the replaced child. *)
Lemma img_keys k p a u s : Rep h x k p a u -> on k a -> Pb k = true -> In s (keys (cells (h u))) ->
  on s a /\ side leb h p u s.
Proof.
  intros R Ha P Hs. pose proof (rep_own leb h f r lg HI _ _ _ _ _ Hx R) as (_ & Lv & Hu & Hal & _).
  destruct (img _ _ _ _ R P) as (_ & _ & _ & G).
  assert (lvl (h a) <> 0) as Hl.
  { intros El. rewrite El in Lv. destruct (w_leaf _ _ _ _ (h_wf _ _ _ _ _ HI u Hu) Lv) as (A & _).
    rewrite A in Hs. destruct Hs. }
  destruct (chain_jv a (rep_chain _ _ _ _ _ _ _ R) Hl) as (o' & c' & om' & lo' & hi' & Hja & Hia).
  destruct (G _ _ _ _ _ Hja) as [_ G2]. destruct (G2 s Hs) as (G3 & G4 & G5 & _).
  pose proof (wlo_a _ _ _ _ R Ha s G5) as W.
  split; auto. destruct G3 as [G3|G3].
  - apply (h_sep _ _ _ _ _ HI); auto. now exists k.
  - subst om'. eapply (h_mid _ _ _ _ _ HI); eauto. now exists k.
Qed.
Lemma img_ents k p a u s : Rep h x k p a u -> on k a -> Pb k = true -> In s (map fst (ents (h u))) ->
  on s a /\ side leb h p u s.
Proof.
  intros R Ha P Hs. pose proof (rep_own leb h f r lg HI _ _ _ _ _ Hx R) as (_ & Lv & Hu & Hal & _).
  destruct (img _ _ _ _ R P) as (_ & _ & G & _).
  assert (lvl (h a) = 0) as Hl.
  { destruct (Nat.eq_dec (lvl (h a)) 0) as [?|El]; auto. exfalso.
    rewrite (w_node _ _ _ _ (h_wf _ _ _ _ _ HI u Hu)) in Hs by congruence. destruct Hs. }
  apply in_map_iff in Hs as (e & <- & He). destruct (G Hl) as [_ G2]. destruct (G2 e He) as (G3 & G4 & G5).
  split; auto. apply (h_ent _ _ _ _ _ HI); [now exists k|now apply in_map|].
  eapply wlo_a; eauto.
Qed.
Lemma img_nojv k p a u t : Rep h x k p a u -> Pb k = true -> jv (jb (h u)) <> Some t.
Proof.
  intros R P Hu. destruct t as [[[[o1 c1] om1] lo1] hi1].
  destruct (img _ _ _ _ R P) as (N & Ov & _). apply N.
  pose proof (rep_own leb h f r lg HI _ _ _ _ _ Hx R) as (_ & _ & Hlt & _).
  eapply job_live; eauto.
Qed.
Lemma jb_same y : y < f -> y <> x -> jv (jb (h' y)) <> None -> jb (h' y) = jb (h y).
Proof.
  intros Hy Ne H. destruct (D9 y Hy Ne) as [?|(-> & _ & ? & ? & ? & ? & ? & ? & ? & _ & E)]; auto.
  rewrite E in H. now destruct H.
Qed.

Lemma f_sep y s : live' y -> In s (keys (cells (h' y))) -> wlt (wlo (h' y)) s -> onn s y.
Proof.
  intros [k Hk] Hs W. destruct (Nat.eq_dec y x) as [->|Ne].
  { apply on_keep_x. destruct (D4 s Hs) as [Hs'|?]; auto. apply (h_sep _ _ _ _ _ HI); auto using x_live.
    rewrite (w_wlo _ _ _ _ (h_wf _ _ _ _ _ HI x Hx)) by auto. exact I. }
  destruct (live_cases k y Hk) as [(H & N & A & B)|[(H & C & I & A & B & O & P)|(p & a & R & Ha & P)]].
  - pose proof (on_lt leb h f r lg HI _ _ H) as Hy. destruct (D1 y Hy Ne) as [(_ & _ & E & _) _].
    rewrite E in Hs. rewrite B in W. apply on_keep; auto. apply (h_sep _ _ _ _ _ HI); auto. now exists k.
  - pose proof (on_lt leb h f r lg HI _ _ H) as Hy. destruct (D1 y Hy Ne) as [(_ & _ & E & _) _].
    rewrite E in Hs. rewrite A in W. apply on_keep_np; [|now apply I].
    apply (h_sep _ _ _ _ _ HI); [now exists k|auto|].
    rewrite (w_wlo _ _ _ _ (h_wf _ _ _ _ _ HI y Hy) O). exact Logic.I.
  - destruct (img_facts _ _ _ _ R P) as (_ & _ & _ & _ & _ & _ & _ & (_ & _ & E & _)).
    rewrite E in Hs. destruct (img_keys _ _ _ _ _ R Ha P Hs) as [H1 H2]. eapply on_side; eauto.
Qed.
Lemma f_ent y s : live' y -> In s (map fst (ents (h' y))) -> wlt (wlo (h' y)) s -> onn s y.
Proof.
  intros [k Hk] Hs W. destruct (Nat.eq_dec y x) as [->|Ne].
  { rewrite (proj2 D1x), (w_node _ _ _ _ (h_wf _ _ _ _ _ HI x Hx) x_lvl) in Hs. destruct Hs. }
  destruct (live_cases k y Hk) as [(H & N & A & B)|[(H & C & I & A & B & O & P)|(p & a & R & Ha & P)]].
  - pose proof (on_lt leb h f r lg HI _ _ H) as Hy. destruct (D1 y Hy Ne) as [(_ & E & _ & _) _].
    rewrite E in Hs. rewrite B in W. apply on_keep; auto. apply (h_ent _ _ _ _ _ HI); auto. now exists k.
  - pose proof (on_lt leb h f r lg HI _ _ H) as Hy. destruct (D1 y Hy Ne) as [(_ & E & _ & _) _].
    rewrite E in Hs. rewrite A in W. apply on_keep_np; [|now apply I].
    apply (h_ent _ _ _ _ _ HI); [now exists k|auto|].
    rewrite (w_wlo _ _ _ _ (h_wf _ _ _ _ _ HI y Hy) O). exact Logic.I.
  - destruct (img_facts _ _ _ _ R P) as (_ & _ & _ & _ & _ & _ & _ & (_ & E & _ & _)).
    rewrite E in Hs. destruct (img_ents _ _ _ _ _ R Ha P Hs) as [H1 H2]. eapply on_side; eauto.
Qed.
Lemma f_mid y o1 c1 m lo1 hi1 : y < f -> jv (jb (h' y)) = Some (o1, c1, Some m, lo1, hi1) ->
  isIns (jb (h' y)) = false -> live' y -> wlt (wlo (h' y)) m -> onn m y.
Proof.
  intros Hy Hjy Hi [k Hk] W. destruct (Nat.eq_dec y x) as [->|Ne].
  { destruct D8 as [[_ E]|[E _]]; congruence. }
  assert (jb (h' y) = jb (h y)) as E by (apply jb_same; auto; congruence). rewrite E in Hjy, Hi.
  destruct (live_cases k y Hk) as [(H & N & A & B)|[(H & C & I & A & B & O & P)|(p & a & R & Ha & P)]].
  - rewrite B in W. apply on_keep; auto. eapply (h_mid _ _ _ _ _ HI); eauto. now exists k.
  - rewrite A in W. apply on_keep_np; [|now apply I]. eapply (h_mid _ _ _ _ _ HI); eauto; [now exists k|].
    rewrite (w_wlo _ _ _ _ (h_wf _ _ _ _ _ HI y Hy) O). exact Logic.I.
  - exfalso. eapply img_nojv; eauto.
Qed.
Lemma f_wl k y : onn k y -> wlt (wlo (h' y)) k.
Proof.
  intros Hk. destruct (live_cases k y Hk) as [(H & N & A & B)|[(H & C & I & A & B & O & P)|(p & a & R & Ha & P)]].
  - rewrite B. eapply (h_wl _ _ _ _ _ HI); eauto.
  - rewrite A. destruct I as (_ & _ & _ & _ & I & _). now apply I.
  - destruct (img_facts _ _ _ _ R P) as (_ & _ & _ & _ & -> & _). exact I.
Qed.
Lemma f_abs1 k y : onn k y -> lvl (h' y) = 0 -> get leb (ents (h' y)) k = abs leb lg k.
Proof.
  intros Hk L. destruct (Nat.eq_dec y x) as [->|Ne].
  { destruct D1x as [E _]. pose proof x_lvl. congruence. }
  assert (on k y -> get leb (ents (h' y)) k = abs leb lg k) as X.
  { intros H. pose proof (on_lt leb h f r lg HI _ _ H) as Hy. destruct (D1 y Hy Ne) as [(E0 & -> & _) _].
    apply (h_abs1 _ _ _ _ _ HI); auto. congruence. }
  destruct (live_cases k y Hk) as [(H & _)|[(H & _)|(p & a & R & Ha & P)]]; auto.
  destruct (img_facts _ _ _ _ R P) as (_ & _ & _ & _ & _ & L' & _ & (E0 & -> & _)).
  destruct (img _ _ _ _ R P) as (_ & _ & G & _). destruct G as [-> _]; [congruence|].
  apply (h_abs1 _ _ _ _ _ HI); auto. congruence.
Qed.
Lemma f_abs2 k : abs leb lg k <> None -> exists y, onn k y /\ lvl (h' y) = 0.
Proof.
  intros H. destruct (h_abs2 _ _ _ _ _ HI k H) as (y & Hy & L).
  pose proof (on_lt leb h f r lg HI _ _ Hy) as Hlt.
  destruct (r2 k y Hy) as [Hk|(p & u & R & Hr & Hu)].
  - exists y. split; auto. destruct (Nat.eq_dec y x) as [->|Ne]; [now destruct x_lvl|].
    destruct (D1 y Hlt Ne) as [(E0 & _) _]. congruence.
  - exists u. split; auto.
    destruct (img_facts _ _ _ _ R (proj1 (proj2 Hr))) as (_ & _ & _ & _ & _ & L' & _ & (E0 & _)). congruence.
Qed.
Lemma f_wu y : live' y -> exists k, onn k y /\ pos (h' y) k = PUb
    /\ forall o c m lo hi, jv (jb (h' y)) = Some (o, c, Some m, lo, hi) ->
         isIns (jb (h' y)) = false -> leb k m = false.
Proof.
  intros [k Hk]. destruct (Nat.eq_dec y x) as [->|Ne].
  { destruct D5 as (k1 & H1 & E). exists k1. split; [now apply on_keep_x|]. split; auto.
    intros. exfalso. destruct D8 as [[_ E']|[E' _]]; congruence. }
  assert (forall k1, same (h' y) (h y) -> pos (h' y) k1 = pos (h y) k1) as Sp by (intros; now apply same_pos).
  destruct (live_cases k y Hk) as [(H & N & A & B)|[(H & C & I & A & B & O & P)|(p & a & R & Ha & P)]].
  - pose proof (on_lt leb h f r lg HI _ _ H) as Hy. destruct (D1 y Hy Ne) as [S _].
    destruct (h_wu _ _ _ _ _ HI y (ex_intro _ k H)) as (k1 & H1 & H2 & H3). exists k1.
    split; [now apply on_keep|]. split; [now rewrite Sp|].
    intros o1 c1 m1 lo1 hi1 J1 I1. assert (jb (h' y) = jb (h y)) as E by (apply jb_same; auto; congruence). rewrite E in J1, I1. eauto.
  - pose proof (on_lt leb h f r lg HI _ _ H) as Hy. destruct (D1 y Hy Ne) as [S _].
    destruct (h_wu _ _ _ _ _ HI y (ex_intro _ k H)) as (k1 & H1 & H2 & H3).
    assert (exists k2, on k2 y /\ Pb k2 = false /\ leb k1 k2 = true) as (k2 & A1 & A2 & A3).
    { destruct I as (_ & _ & _ & _ & I & _). destruct (wlt_dec leb om k1) as [W|(m & -> & Em)].
      - exists k1. split; auto. split; [now apply I|apply (leb_refl _ HO)].
      - exists k. split; auto. split; auto. apply I in P. cbn in P. kord HO. }
    exists k2. split; [now apply on_keep_np|]. split.
    + rewrite Sp by auto. rewrite pos_rts in *. eapply route_ub_mono; eauto.
    + intros o1 c1 m1 lo1 hi1 J1 I1. assert (jb (h' y) = jb (h y)) as E by (apply jb_same; auto; congruence). rewrite E in J1, I1.
      specialize (H3 _ _ _ _ _ J1 I1). kord HO.
  - destruct (img_facts _ _ _ _ R P) as (Hy & _ & _ & _ & _ & Lv & _ & S).
    assert (forall t, jv (jb (h' y)) = Some t -> False) as NJ.
    { intros t E'. assert (jb (h' y) = jb (h y)) as E by (apply jb_same; auto; congruence). rewrite E in E'.
      eapply img_nojv; eauto. }
    destruct (Nat.eq_dec (lvl (h a)) 0) as [L|L].
    + exists k. split; auto. split; [|intros; exfalso; eapply NJ; eauto].
      rewrite Sp by auto. rewrite pos_rts.
      destruct (w_leaf _ _ _ _ (h_wf _ _ _ _ _ HI y Hy)) as (-> & _); [congruence|reflexivity].
    + pose proof (rep_chain _ _ _ _ _ _ _ R) as Ca.
      destruct (chain_jv a Ca L) as (oa & ca & oma & loa & hia & Hja & Hia).
      destruct (img _ _ _ _ R P) as (_ & _ & _ & G). destruct (G _ _ _ _ _ Hja) as [_ G2].
      assert (exists k2, on k2 a /\ side leb h p y k2 /\ forall s, In s (keys (cells (h y))) -> leb k2 s = false)
        as (k2 & B1 & B2 & B3).
      { pose proof R as (Rp & op & omp & lop & hip & Jp & Qp & Uy).
        pose proof (proj2 (rep_nxt _ _ _ _ R)) as Hp.
        assert (omp <> None) as Hom.
        { intros E. apply L. eapply l_none; eauto. eapply (h_hld _ _ _ _ _ HI); eauto. }
        destruct omp as [mp|]; [|congruence]. clear Hom.
        destruct (leb k mp) eqn:Ek.
        - (* the low half *)
          exists mp.
          assert (wgt (isIns (jb (h x))) om mp) as Wm.
          { intros Ei. pose proof (P1 k (rep_top _ _ _ _ R) P Ei) as W. destruct om; [|exact I].
            cbn in *. kord HO. }
          assert (isIns (jb (h p)) = false /\ live p /\ wlt (wlo (h p)) mp) as (Z1 & Z2 & Z3).
          { destruct (up_chain leb HO h f r lg HI x a k Hx Ho Ca Ha) as (p' & u' & R' & Hp' & _).
            destruct (rep_fun _ _ _ _ _ _ _ R R') as (<- & _).
            destruct (path_chain _ _ _ _ _ Rp) as [->|Cp].
            - split; [|split; [apply x_live|rewrite (w_wlo _ _ _ _ (h_wf _ _ _ _ _ HI x Hx)) by auto; exact I]].
              pose proof (P1 k (rep_top _ _ _ _ R) P) as W.
              destruct (isIns (jb (h x))) eqn:Ei; auto. exfalso. specialize (W eq_refl). rewrite Hj in Jp. injection Jp as _ _ -> _ _.
              cbn in W. congruence.
            - split; [now apply chain_noins|]. split; [now exists k|].
              rewrite (chain_wlo leb HO h f r lg HI x o c om lo hi p k); auto.
              unfold wgt, TcInv.wgt in Wm. destruct (isIns (jb (h x))); [auto|exact I]. }
          destruct (mid_c leb h f r lg HI _ _ _ _ _ _ Hp Jp Z1 Z2 Z3) as (M1 & M2 & M3).
          split; auto. split.
          + intros o1 a1 om1 lo1 hi1 E. rewrite Jp in E. injection E as <- <- <- <- <-.
            rewrite Uy. rewrite !(sel_lo leb); auto. apply (leb_refl _ HO).
          + intros s Hs. destruct (G2 s Hs) as (_ & G4 & _ & G6).
            pose proof (G6 _ _ _ _ _ Jp) as Nm. pose proof (G4 _ _ _ _ _ Jp) as Es.
            rewrite Uy, (sel_lo leb mp lop hip k Ek) in Es.
            assert (leb s mp = true).
            { destruct (leb s mp) eqn:E; auto. cbn in Es. rewrite E in Es. exfalso.
              eapply (l_neq _ _ _ _ _ _ _ _ _ (h_hld _ _ _ _ _ HI _ _ _ _ _ _ Hp Jp)); congruence. }
            destruct (leb mp s) eqn:E; auto. exfalso. apply Nm. apply (t_anti _ HO); auto.
        - (* the high half *)
          destruct (h_wu _ _ _ _ _ HI a (ex_intro _ k Ha)) as (k1 & H1 & H2 & H3).
          assert (exists k2, on k2 a /\ leb k2 mp = false /\ leb k1 k2 = true) as (k2 & A1 & A2 & A3).
          { destruct (leb k1 mp) eqn:Eq1.
            - exists k. repeat split; auto. kord HO.
            - exists k1. repeat split; auto. apply (leb_refl _ HO). }
          exists k2. split; auto. split.
          + intros o1 a1 om1 lo1 hi1 E. rewrite Jp in E. injection E as <- <- <- <- <-.
            rewrite Uy. rewrite !(sel_hi leb); auto.
          + intros s Hs. destruct (G2 s Hs) as ([Hin|Hin] & _).
            * rewrite pos_rts in H2. apply (proj1 (route_ub_keys leb _ _)) with (s := s) in H2; auto. kord HO.
            * subst oma. specialize (H3 _ _ _ _ _ Hja Hia). kord HO. }
      exists k2. split; [eapply on_side; eauto|]. split; [|intros; exfalso; eapply NJ; eauto].
      rewrite Sp by auto. rewrite pos_rts. now apply (route_ub_keys leb).
Qed.
Lemma edge_of' k u w : onn k u -> nxt h' u k = Some w -> edge k u w.
Proof. intros H. apply edge_of. now apply r1. Qed.
Lemma pos_of_nxt a k1 k2 w t : a < f -> jv (jb (h a)) = Some t -> nxt h a k1 = Some w -> nxt h a k2 = Some w ->
  pos (h a) k1 = pos (h a) k2.
Proof.
  intros Ha Hja A B. eapply ptr_inj; [eapply jv_nd; eauto|exact A|exact B].
Qed.
Lemma f_tree k1 k2 u v w : onn k1 u -> nxt h' u k1 = Some w -> onn k2 v -> nxt h' v k2 = Some w -> u = v.
Proof.
  intros H1 N1 H2 N2.
  assert (forall k1 k2 u v, (on k1 u /\ nxt h u k1 = Some w) ->
    (exists p a, Rep h x k2 p a w /\ on k2 a /\ red k2
      /\ ((p = x /\ v = x) \/ exists q, Rep h x k2 q p v)) -> False) as X12.
  { intros k3 k4 u' v' [A B] (p & a & R & _ & (_ & P & _) & _).
    destruct (img_facts _ _ _ _ R P) as (_ & _ & N & _). apply N. exists k3. eapply On_step; eauto. }
  assert (forall k1 k2 u v, (on k1 u /\ nxt h u k1 = Some w /\ (Chain h x u \/ u = x /\ w = c -> ~ red k1)) ->
    (exists p a oa ca oma loa hia, Rep h x k2 p a v /\ on k2 a /\ red k2 /\ nxt h a k2 = Some w
      /\ jv (jb (h a)) = Some (oa, ca, oma, loa, hia) /\ isIns (jb (h a)) = false /\ pos (h a) k2 <> oa) ->
    False) as X13.
  { intros k3 k4 u' v' (A & B & N) (p & a & oa & ca & oma & loa & hia & R & Ha & Hr & C & Hja & Hia & Hpa).
    assert (u' = a) as -> by (eapply (h_tree _ _ _ _ _ HI); eauto).
    pose proof (rep_chain _ _ _ _ _ _ _ R) as Ca. apply N; auto.
    destruct (up_chain leb HO h f r lg HI x a k3 Hx Ho Ca A) as (p' & u3 & R3 & _ & Hx3).
    destruct (rep_fun _ _ _ _ _ _ _ R R3) as (<- & Hpos & o1 & om1 & lo1 & hi1 & J1 & U1 & U2).
    assert (pos (h a) k4 = pos (h a) k3) as E by (eapply pos_of_nxt; eauto using chain_lt).
    pose proof (side_pos leb HO h f r lg HI p o1 a om1 lo1 hi1 oa ca oma loa hia k4 k3
      (proj2 (rep_nxt _ _ _ _ R)) J1 Hja Hia E Hpa) as Es.
    split; [eapply rep_top; eauto|]. split; auto.
    eapply (rep_link k4 k3 p a v'); eauto; [|apply Hr]. replace v' with u3; auto. congruence. }
  destruct (edge_of' _ _ _ H1 N1) as [(A1 & A2 & A3)|[A|A]];
  destruct (edge_of' _ _ _ H2 N2) as [(B1 & B2 & B3)|[B|B]].
  - eapply (h_tree _ _ _ _ _ HI); eauto.
  - destruct (X12 k1 k2 u v); auto.
  - destruct (X13 k1 k2 u v); auto.
  - destruct (X12 k2 k1 v u); auto.
  - destruct A as (p & a & R & Ha & Hr & A). destruct B as (p' & a' & R' & Ha' & Hr' & B).
    destruct (img_facts _ _ _ _ R (proj1 (proj2 Hr))) as (_ & _ & _ & _ & _ & _ & Eo & _).
    destruct (img_facts _ _ _ _ R' (proj1 (proj2 Hr'))) as (_ & _ & _ & _ & _ & _ & Eo' & _).
    assert (p = p') as <- by congruence.
    assert (a = a') as <-.
    { destruct R as (_ & o1 & om1 & lo1 & hi1 & J1 & _). destruct R' as (_ & o2 & om2 & lo2 & hi2 & J2 & _).
      congruence. }
    destruct (rep_fun _ _ _ _ _ _ _ R R') as (_ & Hpos & o1 & om1 & lo1 & hi1 & J1 & U1 & U2).
    destruct A as [[-> ->]|[q Rq]], B as [[Ep ->]|[q' Rq']]; auto.
    + exfalso. apply x_nchain. eapply rep_chain; eauto.
    + exfalso. subst p. apply x_nchain. eapply rep_chain; eauto.
    + destruct (rep_fun _ _ _ _ _ _ _ Rq Rq') as (<- & Hposq & o2 & om2 & lo2 & hi2 & J2 & U3 & U4).
      assert (jsel leb h q k1 = jsel leb h q k2) as Lk.
      { apply (link leb HO h f r lg HI q k1 p); auto.
        - apply (rep_nxt _ _ _ _ Rq).
        - eapply PS; [apply P0|eauto|]. destruct Rq as (_ & o3 & om3 & lo3 & hi3 & J3 & Q3 & _). congruence.
        - eapply PS; [apply P0|eauto|]. destruct Rq' as (_ & o3 & om3 & lo3 & hi3 & J3 & Q3 & _). congruence.
        - congruence.
        - unfold jsel. rewrite J1. congruence. }
      unfold jsel in Lk. rewrite J2 in Lk. congruence.
  - destruct A as (p & a & R & Ha & Hr & A).
    destruct B as (p' & a' & oa & ca & oma & loa & hia & R' & Ha' & Hr' & C & _).
    destruct (img_facts _ _ _ _ R (proj1 (proj2 Hr))) as (_ & _ & N & _). destruct N.
    exists k2. eapply On_step; eauto.
  - destruct (X13 k2 k1 v u); auto.
  - destruct B as (p & a & R & Ha & Hr & B).
    destruct A as (p' & a' & oa & ca & oma & loa & hia & R' & Ha' & Hr' & C & _).
    destruct (img_facts _ _ _ _ R (proj1 (proj2 Hr))) as (_ & _ & N & _). destruct N.
    exists k1. eapply On_step; eauto.
  - destruct A as (p & a & oa & ca & oma & loa & hia & R & Ha & Hr & C & Hja & Hia & Hpa).
    destruct B as (p' & a' & oa' & ca' & oma' & loa' & hia' & R' & Ha' & Hr' & C' & Hja' & _ & Hpa').
    assert (a = a') as <- by (eapply (h_tree _ _ _ _ _ HI k1 k2); eauto).
    destruct (rep_fun _ _ _ _ _ _ _ R R') as (<- & Hpos & o1 & om1 & lo1 & hi1 & J1 & U1 & U2).
    assert (pos (h a) k1 = pos (h a) k2) as E.
    { eapply pos_of_nxt; eauto. eapply chain_lt, rep_chain; eauto. }
    rewrite U1, U2. pose proof (proj2 (rep_nxt _ _ _ _ R)) as Hp.
    eapply (side_pos leb HO h f r lg HI p); eauto. congruence.
Qed.
Lemma f_root n : r = Some n -> n < f /\ lvl (h' n) <> 0 /\ over (h' n) = false.
Proof.
  intros Hn. destruct (h_root _ _ _ _ _ HI n Hn) as (A & B & C). split; auto.
  destruct (Nat.eq_dec n x) as [->|Ne].
  - destruct D1x as [-> _]. auto using x_over.
  - destruct (D1 n A Ne) as [(-> & _) _]. split; auto. destruct (D6 n A) as [[-> _]|[D _]]; auto.
    exfalso. destruct x_live as [k Hk]. pose proof (on_root_lvl leb h f r lg HI _ _ _ Hk Hn).
    destruct (chain_full leb h f r lg HI x n Hx D) as (_ & _ & ?). lia.
Qed.
Lemma f_over k u z : onn k u -> nxt h' u k = Some z -> over (h' z) = true ->
    exists o om lo hi, jv (jb (h' u)) = Some (o, z, om, lo, hi)
      /\ ((over (h' u) = true /\ wlo (h' u) = wlo (h' z))
          \/ (over (h' u) = false /\ isIns (jb (h' u)) = true)).
Proof.
  intros Hk Hn Ov. destruct (edge_of' _ _ _ Hk Hn) as [(A1 & A2 & A3)|[A|A]].
  - assert (on k z) as Hz by (eapply On_step; eauto).
    pose proof (on_lt leb h f r lg HI _ _ Hz) as Hzl. pose proof (on_lt leb h f r lg HI _ _ A1) as Hul.
    destruct (D6 z Hzl) as [[Ez Wz]|[Cz Oz]].
    + rewrite Ez in Ov. destruct (h_over _ _ _ _ _ HI _ _ _ A1 A2 Ov) as (o' & om' & lo' & hi' & Hju & Hc).
      destruct (Nat.eq_dec u x) as [->|Ne].
      * exfalso. destruct Hc as [[? _]|[_ Hi]]; [congruence|].
        rewrite Hj in Hju. injection Hju as <- <- <- <- <-.
        destruct D8 as [[D _]|(_ & _ & E & _)]; [|congruence].
        assert (pos (h x) k = o) as Hp.
        { eapply (nd_pos leb h x o c k); eauto; [eapply jv_nd; eauto|].
          eapply l_ptr, (h_hld _ _ _ _ _ HI); eauto. }
        apply A3; auto. repeat split; auto.
      * assert (jb (h' u) = jb (h u)) as Ej.
        { destruct (D9 u Hul Ne) as [?|(-> & (D & _) & _)]; auto. exfalso.
          assert (Chain h x c) as Cc by (eapply C1; eauto).
          apply A3; auto. destruct (up_chain leb HO h f r lg HI x c k Hx Ho Cc A1) as (p & u & R & _ & Hkx).
          pose proof (rep_top _ _ _ _ R). split; auto. }
        exists o', om', lo', hi'. rewrite Ej. split; auto.
        destruct Hc as [[B1 B2]|[B1 B2]].
        -- left. destruct (D6 u Hul) as [[-> ->]|[_ ?]]; [|congruence]. split; congruence.
        -- right. split; auto. destruct (D6 u Hul) as [[-> _]|[Cu _]]; auto.
           rewrite chain_noins in B2 by auto. discriminate.
    + destruct (up_chain leb HO h f r lg HI x z k Hx Ho Cz Hz) as (p & u' & R & Hp & Hkx).
      destruct (rep_nxt _ _ _ _ R) as [Np _].
      assert (p = u) as -> by (eapply (on_nxt_parent leb h f r lg HI k p z u); eauto).
      assert (Pb k = false) as HP.
      { destruct (Pb k) eqn:P; auto. exfalso. pose proof (rep_top _ _ _ _ R) as Ht.
        apply A3; [|repeat split; auto].
        destruct (path_chain _ _ _ _ _ (proj1 R)) as [->|?]; auto.
        right. split; auto. rewrite nxt_c in Np by auto. congruence. }
      destruct D8 as [[D _]|I]; [rewrite D in HP by (eapply rep_top; eauto); discriminate|].
      destruct (path_chain _ _ _ _ _ (proj1 R)) as [->|Cu].
      * assert (z = c) as -> by (rewrite nxt_c in Np by (eapply rep_top; eauto); congruence).
        exists o, om, lo, hi. split; [apply I|]. right. split; [apply x_over|apply I].
      * destruct R as (_ & o1 & om1 & lo1 & hi1 & J1 & _).
        assert (jb (h' u) = jb (h u)) as Ej.
        { destruct (D9 u Hul (chain_ne _ Cu)) as [?|(_ & (_ & D) & _)]; auto.
          destruct I as (_ & E & _). congruence. }
        exists o1, om1, lo1, hi1. rewrite Ej. split; auto. left. split; [now apply D7|].
        destruct I as (_ & _ & _ & W & _). rewrite !W; auto.
  - destruct A as (p & a & R & Ha & Hr & A).
    destruct (img_facts _ _ _ _ R (proj1 (proj2 Hr))) as (_ & _ & _ & E & _). congruence.
  - destruct A as (p & a & oa & ca & oma & loa & hia & R & Ha & Hr & C & Hja & Hia & Hpa).
    exfalso. apply Hpa. pose proof (rep_chain _ _ _ _ _ _ _ R) as Ca. pose proof (chain_lt _ Ca) as Hal.
    assert (on k z) as Hz by (eapply On_step; eauto).
    pose proof (on_lt leb h f r lg HI _ _ Hz) as Hzl.
    assert (ca = z) as ->.
    { destruct (D6 z Hzl) as [[Ez Wz]|[Cz Oz]].
      - rewrite Ez in Ov. destruct (h_over _ _ _ _ _ HI _ _ _ Ha C Ov) as (o' & om' & lo' & hi' & Hju & Hc).
        congruence.
      - destruct (up_chain leb HO h f r lg HI x z k Hx Ho Cz Hz) as (p' & u' & R' & Hp & Hkx).
        destruct (rep_nxt _ _ _ _ R') as [Np _].
        assert (p' = a) as -> by (eapply (on_nxt_parent leb h f r lg HI k p' z a); eauto).
        destruct R' as (_ & o1 & om1 & lo1 & hi1 & J1 & _). congruence. }
    eapply (nd_pos leb h a oa z k); eauto; [eapply jv_nd; eauto|].
    eapply l_ptr, (h_hld _ _ _ _ _ HI); eauto.
Qed.
Lemma same' y : y < f -> y <> x -> same (h' y) (h y).
Proof. intros. now apply D1. Qed.
Lemma f_wf y : y < f -> wfo leb h' f y.
Proof.
  intros Hy. destruct (Nat.eq_dec y x) as [->|Ne]; [exact E1|].
  destruct (D1 y Hy Ne) as (S & Er & En). pose proof (same_kids _ _ S) as Ek.
  destruct S as (S1 & S2 & S3 & S4). pose proof (h_wf _ _ _ _ _ HI y Hy) as W.
  assert (forall z, z < f -> lvl (h' z) = lvl (h z)) as Elv.
  { intros z Hz. destruct (Nat.eq_dec z x) as [->|Nz]; [apply D1x|]. now apply (same' z). }
  constructor; rewrite ?S1, ?S2, ?S3, ?S4, ?Er, ?En, ?Ek.
  - intros L. destruct (w_leaf _ _ _ _ W L) as (A & B & C). repeat split; auto.
    destruct (D9 y Hy Ne) as [?|(-> & _ & ? & ? & ? & ? & ? & ? & ? & E & _)]; congruence.
  - apply W.
  - intros z Hz. destruct (w_kids _ _ _ _ W z Hz) as [A B]. split; auto. now rewrite Elv.
  - apply W.
  - apply W.
  - apply W.
  - intros E. destruct (D6 y Hy) as [[A B]|[A B]]; [|rewrite D7 in E by auto; discriminate].
    rewrite B. apply (w_wlo _ _ _ _ W). congruence.
  - intros E L. rewrite (proj1 (D1f y)). destruct (D6 y Hy) as [[A B]|[A B]].
    + apply (w_over0 _ _ _ _ W); congruence.
    + destruct (chain_top leb h f r lg HI x y Hx A) as (p & o1 & om1 & lo1 & hi1 & _ & Hp & Hjp).
      pose proof (l_held _ _ _ _ _ _ _ _ _ (h_hld _ _ _ _ _ HI _ _ _ _ _ _ Hp Hjp)) as Hh.
      unfold held in Hh. rewrite L in Hh. eauto.
  - intros E L. assert ((exists u, ub (h y) = UTo u) /\
      match jb (h y) with Full _ _ _ _ _ (Some _) _ | Commit _ _ _ _ _ | Poison => True | _ => False end) as [X Y].
    { destruct (D6 y Hy) as [[A B]|[A B]]; [apply (w_over1 _ _ _ _ W); congruence|].
      destruct (chain_jv y A L) as (o1 & c1 & om1 & lo1 & hi1 & J1 & _). split.
      - eapply (kid_ub leb h f r lg HI y c1); auto. eapply in_kids.
        eapply l_ptr, (h_hld _ _ _ _ _ HI); eauto.
      - destruct (chain_full leb h f r lg HI x y Hx A) as (_ & [?|(? & ? & ? & ? & ? & ? & ? & E')] & _);
          [lia|]. now rewrite E'. }
    split; auto. destruct (D9 y Hy Ne) as [->|(-> & _ & ? & ? & ? & ? & ? & ? & ? & _ & ->)]; auto.
  - pose proof (w_nd _ _ _ _ W) as X.
    destruct (D9 y Hy Ne) as [->|(-> & _ & ? & ? & ? & ? & ? & ? & ? & Ef & ->)]; auto.
    now rewrite Ef in X.
  - pose proof (w_commit _ _ _ _ W) as X.
    destruct (D9 y Hy Ne) as [->|(-> & _ & b1 & b2 & b3 & b4 & b5 & b6 & b7 & Ef & ->)].
    + destruct (jb (h y)) as [| | | | | | | |c1 ? ? ? ?|] eqn:Ey; auto. destruct X as [[X X1] X2]. split.
      { split; auto. destruct (D6 y Hy) as [[A B]|[A B]]; congruence. }
      intros L. destruct (X2 L) as (Hc1 & Lc1 & Hh & Oc).
      assert (c1 <> x) as N1.
      { intros ->. unfold held in Hh. destruct (lvl (h x)) eqn:Lx; [now apply Lc1|].
        destruct Hh as (? & ? & ? & ? & ? & ? & E'). unfold nofull in Hnf. now rewrite E' in Hnf. }
      split; auto. rewrite Elv by auto. split; auto. split.
      * unfold held in *. rewrite Elv by auto. destruct (lvl (h c1)) eqn:Lc; [now destruct Lc1|].
        destruct (D9 c1 Hc1 N1) as [->|(-> & _)]; auto. exfalso. apply Ne.
        apply (held_uniq h y x c); [unfold held; now rewrite Lc|].
        eapply l_held. eapply (h_hld _ _ _ _ _ HI); eauto.
      * destruct (D6 c1 Hc1) as [[A B]|[A B]]; congruence.
    + assert (Chain h x c) as Cc by (eapply C1; eauto).
      assert (jv (jb (h c)) = Some (b1, b2, Some b3, b4, b5)) as Jc by now rewrite Ef.
      pose proof (h_hld _ _ _ _ _ HI _ _ _ _ _ _ Hy Jc) as Lc.
      split; [split; [now apply D7|split; apply Lc]|]. intros L.
      destruct (jv_c_lt leb h f r lg HI _ _ _ _ _ _ Hy Jc) as [Hd Ld].
      assert (Chain h x b2) as Cd by (eapply C2; eauto).
      assert (lvl (h b2) <> 0) as Lb by lia.
      split; auto. rewrite Elv by auto. split; auto. split; [|now apply D7].
      pose proof (l_held _ _ _ _ _ _ _ _ _ Lc) as Hh. unfold held in *. rewrite Elv by auto.
      destruct (lvl (h b2)) eqn:Eb; [now destruct Lb|].
      destruct (D9 b2 Hd (chain_ne _ Cd)) as [->|(-> & _)]; auto. lia.
Qed.
Lemma f_act y : y < f -> active (jb (h' y)) = true -> over (h' y) = false -> live' y \/ ub (h' y) = URet.
Proof.
  intros Hy Ha Hv. destruct (Nat.eq_dec y x) as [->|Ne].
  { left. destruct x_live as [k Hk]. exists k. now apply on_keep_x. }
  destruct (D9 y Hy Ne) as [E|(-> & _ & ? & ? & ? & ? & ? & ? & ? & _ & E)]; [|rewrite E in Ha; discriminate].
  destruct (D6 y Hy) as [[A B]|[A B]]; [|rewrite D7 in Hv by auto; discriminate].
  rewrite E in Ha. destruct (h_act _ _ _ _ _ HI y Hy Ha) as [[k Hk]|Hr]; [congruence| |].
  - left. exists k. destruct (r2 k y Hk) as [?|(p & u & R & _)]; auto.
    rewrite D7 in Hv by (eapply rep_chain; eauto). discriminate.
  - right. destruct (same' y Hy Ne) as (_ & _ & _ & ->). auto.
Qed.
Lemma held_ne y c1 o1 om1 lo1 hi1 : y < f -> y <> x -> jv (jb (h y)) = Some (o1, c1, om1, lo1, hi1) ->
  c1 <> x /\ jb (h' c1) = jb (h c1).
Proof.
  intros Hy Ne J1. destruct (jv_c_lt leb h f r lg HI _ _ _ _ _ _ Hy J1) as [Hc _].
  assert (c1 <> x) as Nx.
  { intros ->. eapply (chain_no_top leb h f r lg HI y x); eauto using x_lvl. eapply C1; eauto. }
  split; auto. destruct (D9 c1 Hc Nx) as [?|(-> & _)]; auto. exfalso. apply Ne.
  eapply (chain_jv_eq leb h f r lg HI); eauto.
Qed.
Lemma f_hld y o1 c1 om1 lo1 hi1 : y < f -> jv (jb (h' y)) = Some (o1, c1, om1, lo1, hi1) ->
  Hld leb h' f y o1 c1 om1 lo1 hi1.
Proof.
  intros Hy J1. destruct (Nat.eq_dec y x) as [->|Ne]; [now apply E2|].
  assert (jb (h' y) = jb (h y)) as Ej by (apply jb_same; auto; congruence). rewrite Ej in J1.
  pose proof (h_hld _ _ _ _ _ HI _ _ _ _ _ _ Hy J1) as L.
  destruct (held_ne _ _ _ _ _ _ Hy Ne J1) as [Nc Ec].
  destruct (jv_c_lt leb h f r lg HI _ _ _ _ _ _ Hy J1) as [Hc _].
  pose proof (same' y Hy Ne) as S. pose proof (same' c1 Hc Nc) as Sc.
  assert (forall z, z < f -> lvl (h' z) = lvl (h z)) as Elv.
  { intros z Hz. destruct (Nat.eq_dec z x) as [->|Nz]; [apply D1x|]. now apply (same' z). }
  assert (forall z, own (h' z) = own (h z)) as Eo by (intros; apply D1f).
  assert (cells (h' c1) = cells (h c1)) as Ecc by apply Sc.
  constructor; rewrite ?Ej, ?Ec, ?Ecc, ?Eo, ?(same_kids _ _ S), ?(same_ptr _ _ _ S), ?Elv;
    try apply L; auto; try (now apply (l_lo _ _ _ _ _ _ _ _ _ L)); try (now apply (l_hi _ _ _ _ _ _ _ _ _ L)).
  - unfold held. rewrite Elv by auto. rewrite (proj1 (D1f c1)), Ec. apply L.
  - intros Hi m Em. rewrite (same_pos leb _ _ m S). now apply (l_pos _ _ _ _ _ _ _ _ _ L).
  - intros E. destruct (D6 y Hy) as [[A B]|[A B]].
    + rewrite A in E. pose proof (l_over _ _ _ _ _ _ _ _ _ L E) as E'.
      destruct (D6 c1 Hc) as [[A' B']|[A' B']]; congruence.
    + apply D7. eapply C2; eauto.
Qed.
Lemma f_fz y : y < f -> Fz h' y.
Proof.
  intros Hy. destruct (Nat.eq_dec y x) as [->|Ne]; [exact E3|].
  pose proof (h_fz _ _ _ _ _ HI y Hy) as F. unfold Fz in *.
  destruct (same' y Hy Ne) as (-> & _). intros L. specialize (F L).
  assert (forall z, fz (h' z) = fz (h z)) as Ef by (intros; apply D1f).
  assert (forall z, own (h' z) = own (h z)) as Eo by (intros; apply D1f).
  destruct (D9 y Hy Ne) as [->|(-> & _ & b1 & b2 & b3 & b4 & b5 & b6 & b7 & E & ->)].
  - destruct (jb (h y)); rewrite ?Ef, ?Eo; auto.
  - rewrite E in F. rewrite !Ef, !Eo.
    assert (jv (jb (h c)) = Some (b1, b2, Some b3, b4, b5)) as Jc by now rewrite E.
    pose proof (h_hld _ _ _ _ _ HI _ _ _ _ _ _ Hy Jc) as Lc.
    split; [apply (l_neq _ _ _ _ _ _ _ _ _ Lc); congruence|]. destruct F.
    repeat split; auto; apply Lc.
Qed.

Lemma f_job_ne y o1 c1 om1 lo1 hi1 : y < f -> y <> x -> jv (jb (h' y)) = Some (o1, c1, om1, lo1, hi1) ->
  over (h' y) = false -> Job h' r y o1 c1 om1 lo1 hi1.
Proof.
  intros Hy Ne J1 Ov. assert (jb (h' y) = jb (h y)) as Ej by (apply jb_same; auto; congruence). rewrite Ej in J1.
  assert (~ Chain h x y) as NC by (intros C; rewrite D7 in Ov by auto; discriminate).
  destruct (D6 y Hy) as [[A B]|[A B]]; [|tauto]. rewrite A in Ov.
  pose proof (h_job _ _ _ _ _ HI _ _ _ _ _ _ Hy J1 Ov) as J.
  assert (~ Chain h y x) as NCx by (apply (chain_no_top leb h f r lg HI y x); auto using x_lvl).
  assert (forall q, Chain h y q -> ~ Chain h x q) as Dis.
  { intros q Hq Hq'. destruct (chain_meet leb h f r lg HI y x q Hy Hx Hq Hq') as [?|[?|?]]; auto. }
  assert (forall q, Chain h y q -> q <> x /\ q < f) as Cq.
  { intros q Hq. split; [intros ->; auto|]. eapply (chain_full leb h f r lg HI y q); eauto. }
  apply (job_keep leb h h' r r); auto.
  - now rewrite Ej.
  - intros q [->|Hq]; [split; [now apply same'|now rewrite Ej]|].
    destruct (Cq q Hq) as [Nq Hql]. split; [now apply same'|].
    destruct (D9 q Hql Nq) as [->|(-> & _)]; auto. exfalso. apply (Dis c Hq). eapply C1; eauto.
  - intros k p a u R W.
    destruct (j_img _ _ _ _ _ _ _ _ _ J _ _ _ _ R W) as (Nl & Ou & _).
    pose proof (rep_own leb h f r lg HI _ _ _ _ _ Hy R) as (Eo & _ & Hu & _).
    assert (u <> x) as Nu by (intros ->; apply Nl, x_live).
    split; [now apply same'|]. split.
    + destruct (D6 u Hu) as [[-> _]|[C _]]; auto.
      destruct (chain_live leb HO h f r lg HI x u Hx Ho C); [tauto|congruence].
    + intros [k' Hk']. destruct (live_cases k' u Hk') as [(H & _)|[(H & _)|(p' & a' & R' & Ha' & P)]];
        [apply Nl; now exists k'|apply Nl; now exists k'|].
      destruct (img_facts _ _ _ _ R' P) as (_ & _ & _ & _ & _ & _ & Eo' & _).
      assert (p = p') as <- by congruence.
      destruct (path_chain _ _ _ _ _ (proj1 R)) as [->|Cp], (path_chain _ _ _ _ _ (proj1 R')) as [->|Cp'];
        try tauto. eapply Dis; eauto.
  - intros k Hk. apply on_keep; auto. apply Dis. eapply C1; eauto.
  - intros Ei. assert (Chain h y c1) as Cc by (eapply C1; eauto).
    destruct (j_ins _ _ _ _ _ _ _ _ _ J Ei) as (_ & O1 & _).
    destruct (D6 c1) as [[-> ->]|[C _]]; auto; [now apply Cq|]. destruct (Dis _ Cc C).
Qed.
Lemma f_job_x o1 c1 om1 lo1 hi1 : jv (jb (h' x)) = Some (o1, c1, om1, lo1, hi1) -> Job h' r x o1 c1 om1 lo1 hi1.
Proof.
  intros J1. destruct D8 as [[_ E]|(I1 & I2 & I3 & I4 & I5 & I6)]; [congruence|].
  rewrite I2 in J1. injection J1 as <- <- <- <- <-.
  pose proof (h_job _ _ _ _ _ HI _ _ _ _ _ _ Hx Hj Ho) as J.
  assert (Chain h x c) as Cc by (eapply C1; eauto).
  assert (forall a, Chain h x a -> same (h' a) (h a) /\ jb (h' a) = jb (h a)) as Sc.
  { intros a Ca. split; [apply same'; auto using chain_lt, chain_ne|].
    destruct (D9 a (chain_lt a Ca) (chain_ne a Ca)) as [?|(_ & (_ & E) & _)]; auto. congruence. }
  assert (forall k p, Path h' x k p -> Path h x k p) as Pk.
  { induction 1 as [|p o' a om' lo' hi' Hp IH Hj' Ho']; [constructor|].
    destruct (path_chain _ _ _ _ _ IH) as [->|Cp].
    - rewrite I2 in Hj'. injection Hj' as <- <- <- <- <-.
      apply (PS leb h x k x o c om lo hi IH Hj). now apply I6.
    - destruct (Sc p Cp) as [S E]. rewrite E in Hj'.
      apply (PS leb h x k p o' a om' lo' hi' IH Hj'). rewrite <- Ho'. symmetry. now apply same_pos. }
  assert (forall p t, p = x \/ Chain h x p -> jv (jb (h' p)) = Some t -> jv (jb (h p)) = Some t) as Jk.
  { intros p t [->|Cp] E; [congruence|]. destruct (Sc p Cp) as [_ E']. congruence. }
  assert (forall k p a u, Rep h' x k p a u -> Rep h x k p a u /\ wlt om k) as Rk.
  { intros k p a u (Hp & o' & om' & lo' & hi' & Hj' & Ho' & ->).
    pose proof (Pk _ _ Hp) as Hp'. pose proof (path_chain _ _ _ _ _ Hp') as Cp.
    assert (pos (h' x) k = o) as Ek.
    { assert (p = x \/ pos (h' x) k = o) as [->|?]; [|congruence|auto].
      clear -Hp I2. induction Hp as [|p o1 a1 om1 lo1 hi1 Hp IH Hj1 Ho1]; [now left|right].
      destruct IH as [->|?]; [congruence|auto]. }
    destruct (I6 k Ek) as [Ek' Wk]. split; auto.
    split; auto. exists o', om', lo', hi'. split; [now apply Jk|]. split; auto.
    destruct Cp as [->|Cp].
    - rewrite I2 in Hj'. injection Hj' as <- <- <- <- <-. auto.
    - destruct (Sc p Cp) as [S _]. rewrite <- Ho'. symmetry. now apply same_pos. }
  constructor.
  - destruct (j_w _ _ _ _ _ _ _ _ _ J) as (k0 & H0 & W0). exists k0. split; auto.
    apply on_keep_np; auto. now apply I5.
  - intros _. split; [intros k Hk; now apply I6|]. split; auto.
  - intros k p a u R' W. rewrite I1 in *. destruct (Rk _ _ _ _ R') as [R Wk].
    assert (Pb k = false) as Pk0 by now apply I5.
    destruct (j_img _ _ _ _ _ _ _ _ _ J _ _ _ _ R) as (Nl & Ou & G1 & G2); [rewrite I3; discriminate|].
    pose proof (rep_own leb h f r lg HI _ _ _ _ _ Hx R) as (Eo & Lv & Hu & Ha & Hp & _).
    pose proof (rep_chain _ _ _ _ _ _ _ R) as Ca.
    assert (u <> x) as Nu by (intros ->; apply Nl, x_live).
    pose proof (same' u Hu Nu) as Su. destruct (Sc a Ca) as [Sa Ja].
    assert (forall s, Rep h x s p a u -> wgt true om s) as Wg.
    { intros s Rs _. apply I5. destruct (Pb s) eqn:E; auto.
      rewrite (rep_link s k p a u) in Pk0; auto. }
    assert (forall s, side leb h p u s -> side leb h' p u s) as Hs.
    { intros s Hs o1 a1 om1 lo1 hi1 E. eapply Hs. apply Jk; eauto. eapply path_chain, R. }
    assert (forall s, notmid h p s -> notmid h' p s) as Hm.
    { intros s Hs' o1 a1 m1 lo1 hi1 E. eapply Hs'. apply Jk; eauto. eapply path_chain, R. }
    assert (live a) as La.
    { destruct (chain_live leb HO h f r lg HI x a Hx Ho Ca) as [?|E]; auto.
      rewrite (chain_not_over leb HO h f r lg HI x a) in E; auto. discriminate. }
    assert (wlo (h a) = None) as Wa.
    { apply (w_wlo _ _ _ _ (h_wf _ _ _ _ _ HI a Ha)). apply (chain_not_over leb HO h f r lg HI x a); auto. }
    split; [|split; [|split]].
    + intros [k' Hk']. destruct (live_cases k' u Hk') as [(H & _)|[(H & _)|(p' & a' & Rk' & Ha' & P)]];
        [apply Nl; now exists k'|apply Nl; now exists k'|].
      destruct (img_facts _ _ _ _ Rk' P) as (_ & _ & _ & _ & _ & _ & Eo' & _).
      assert (p = p') as <- by congruence.
      assert (a = a') as <-.
      { destruct R as (_ & o1 & om1 & lo1 & hi1 & J1 & _). destruct Rk' as (_ & o2 & om2 & lo2 & hi2 & J2 & _).
        congruence. }
      rewrite (rep_link k' k p a u) in Pk0; auto. discriminate.
    + destruct (D6 u Hu) as [[-> _]|[C _]]; auto.
      destruct (chain_live leb HO h f r lg HI x u Hx Ho C); [tauto|congruence].
    + intros L. destruct G1 as [G1 G1']; [destruct Sa; congruence|].
      destruct Su as (_ & -> & _). destruct Sa as (_ & -> & _). split; auto.
      intros e He. destruct (G1' e He) as (A1 & A2 & _). split; auto. split; auto.
      apply Wg. eapply rep_side; eauto. apply (h_ent _ _ _ _ _ HI); auto; [now apply in_map|].
      rewrite Wa. exact I.
    + intros o' a' om' lo' hi' E. rewrite Ja in E. destruct (G2 _ _ _ _ _ E) as [G3 G4].
      rewrite (same_pos leb _ _ k Sa). split.
      * transitivity (nxt h u k); [now apply same_nx|]. rewrite G3.
        destruct (lpos_eqb _ _); [reflexivity|]. symmetry. now apply same_nx.
      * destruct Su as (_ & _ & -> & _). destruct Sa as (_ & _ & -> & _). intros s Hs1.
        destruct (G4 s Hs1) as (A1 & A2 & _ & A4). repeat split; auto.
        apply Wg. eapply rep_side; eauto. destruct A1 as [A1|A1].
        -- apply (h_sep _ _ _ _ _ HI); auto. rewrite Wa. exact I.
        -- subst om'. eapply (h_mid _ _ _ _ _ HI); eauto; [now apply chain_noins|]. rewrite Wa. exact I.
Qed.

Theorem redirect : HInv h' f r lg.
Proof.
  constructor.
  - exact f_wf.
  - exact f_root.
  - exact f_tree.
  - exact f_sep.
  - exact f_mid.
  - exact f_wu.
  - intros. now apply f_ent.
  - exact f_wl.
  - exact f_abs1.
  - exact f_abs2.
  - exact f_over.
  - exact f_act.
  - exact f_hld.
  - exact f_fz.
  - intros y o1 c1 om1 lo1 hi1 Hy J1 Ov. destruct (Nat.eq_dec y x) as [->|Ne];
      [now apply f_job_x|now apply f_job_ne].
Qed.
Lemma path_tkn k p o1 a om1 lo1 hi1 : Path h x k p -> jv (jb (h p)) = Some (o1, a, om1, lo1, hi1) -> tkn h x p.
Proof.
  intros Hp J1. inversion Hp as [|p0 o2 a2 om2 lo2 hi2 P0 J2 _ E]; [now left|]. right.
  pose proof (path_lt leb h f r lg HI _ _ _ Hx Hp) as Hlp.
  pose proof (path_lt leb h f r lg HI _ _ _ Hx P0) as Hl. pose proof (l_held _ _ _ _ _ _ _ _ _ (h_hld _ _ _ _ _ HI _ _ _ _ _ _ Hl J2)) as H.
  unfold held in H. destruct (lvl (h p)) eqn:L.
  - destruct (jv_c_lt leb h f r lg HI _ _ _ _ _ _ Hlp J1). lia.
  - destruct H as (? & ? & ? & ? & ? & ? & ->). eauto 10.
Qed.
Lemma redirect_mv : MvR leb f h r h' x.
Proof.
  split.
  - intros k y Hk. destruct (r2 k y Hk) as [?|(p & u & R & _ & Hu)]; auto. right.
    pose proof (rep_own leb h f r lg HI x k p y u Hx R) as (_ & _ & _ & _ & Hp & _).
    destruct R as (Hpp & o1 & om1 & lo1 & hi1 & J1 & _ & ->). exists p, o1, om1, lo1, hi1. eauto using path_tkn.
  - intros k y Hk. destruct (r1 k y Hk) as [[? _]|(p & a & R & Ha & Hr)]; auto. right.
    destruct Hr as (Eo & Pk & Hkx). pose proof (img _ _ _ _ R Pk) as (Nl & _).
    pose proof (rep_own leb h f r lg HI x k p a y Hx R) as (_ & _ & _ & _ & Hp & _).
    pose proof (rep_chain leb h x k p a y R) as C.
    destruct R as (Hpp & o1 & om1 & lo1 & hi1 & J1 & _ & ->).
    exists p, o1, a, om1, lo1, hi1. repeat split; eauto using path_tkn.
    intros k0 Lk Ha0 Hn0.
    destruct (up_chain leb HO h f r lg HI x a k0 Hx Ho C Ha0) as (p0 & u0 & R0 & _ & Hx0).
    assert (red k0) as Rd.
    { split; [eapply rep_top; eauto|split; auto]. destruct D8 as [[S _]|(_ & _ & _ & _ & S & _)].
      - apply S. eapply rep_top; eauto.
      - destruct (Pb k0) eqn:E; auto. apply S in E. exfalso. assert (~ wlt om k) as N by (rewrite S; congruence).
        apply N. destruct om as [m|]; [|exact E]. cbn in *. destruct (leb k m) eqn:E'; auto.
        rewrite (t_trans _ HO k0 k m) in E; auto. }
    destruct (r1 k0 a Hn0) as [[_ Q]|(p1 & a1 & R1 & _ & Rd1)]; [now apply Q|].
    destruct (img _ _ _ _ R1 (proj1 (proj2 Rd1))) as (Nl1 & _). apply Nl1. now exists k0.
Qed.
Theorem redirect_on : HInv h' f r lg
  /\ (forall k y, on k y -> onn k y \/ (closed (h' y) /\ same (h' y) (h y))) /\ MvR leb f h r h' x.
Proof.
  split; [exact redirect|]. split; [|exact redirect_mv]. intros k y Hk. destruct (r2 k y Hk) as [?|(p & u & R & _)]; auto. right.
  assert (Chain h x y) as C by (eapply rep_chain; eauto). split; [left; auto|].
  apply D1; [eapply (on_lt leb h f r lg HI); eauto|]. intros ->. now apply x_nchain.
Qed.
End redir.
