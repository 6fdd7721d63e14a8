(** Parts of the invariant that survive changes elsewhere. *)
From Coq Require Import List Arith Bool Lia.
From Verif Require Import TcModel TcRoute TcSpec TcInv TcTree.
Import ListNotations.

Section frame.
Context {K V : Type} (leb : K -> K -> bool) (HO : tord leb).
Notation heap := (nat -> obj K V).
Notation pos := (pos leb).
Notation nx := (nx leb).
Notation nxt := (nxt leb).
Notation On := (On leb).
Notation Live := (Live leb).
Notation Path := (Path leb).
Notation Rep := (Rep leb).
Notation sel := (sel leb).
Notation wlt := (wlt leb).
Notation wgt := (wgt leb).
Notation Job := (Job leb).
Notation HInv := (HInv leb).
Implicit Types (k s m : K) (x y z u v w c p a lo hi : nat) (h : heap).

(** The contents of two objects are the same. *)
Definition same (x y : obj K V) : Prop :=
  lvl x = lvl y /\ ents x = ents y /\ cells x = cells y /\ ub x = ub y.
(** Nothing is ever stored in the object again. *)
Definition closed (x : obj K V) : Prop := over x = true \/ retired x = true.
(** How the ways of the keys change when a child being split is replaced: they go on as before or
    through a replacement, and ... *)
Definition tkn h (x n : nat) : Prop := n = x \/ exists b1 b2 b3 b4 b5 b6 b7, jb (h n) = Full b1 b2 b3 b4 b5 (Some b6) b7.
Definition MvR (f : nat) h (r : option nat) h' (x : nat) : Prop :=
  (forall k y, On h r k y -> On h' r k y \/ exists n o om lo hi, n < f /\ tkn h x n /\
     jv (jb (h n)) = Some (o, y, om, lo, hi) /\ On h' r k (sel om lo hi k))
  /\ (forall k y, On h' r k y -> On h r k y \/ exists n o a om lo hi, n < f /\ tkn h x n /\
     jv (jb (h n)) = Some (o, a, om, lo, hi) /\ On h r k a /\ y = sel om lo hi k
     /\ ~ Live h r y
     /\ forall k0, leb k0 k = true -> On h r k0 a -> ~ On h' r k0 a).
(** ... when a retired child is dropped: the nodes reached are those reached before, but for that
    child. *)
Definition MvT h (r : option nat) h' : Prop :=
  (forall k y, On h r k y -> On h' r k y \/ retired (h y) = true)
  /\ (forall k y, On h' r k y -> exists k', On h r k' y /\ On h' r k' y).
Lemma same_refl (x : obj K V) : same x x.
Proof. now repeat split. Qed.
Lemma same_pos (x y : obj K V) k : same x y -> pos x k = pos y k.
Proof. intros (_ & _ & E & _). unfold TcModel.pos, meta_of. now rewrite E. Qed.
Lemma same_nx (x y : obj K V) k : same x y -> nx x k = nx y k.
Proof. intros H. unfold TcRoute.nx. rewrite (same_pos x y k H). destruct H as (_ & _ & E1 & E2).
  unfold ptr. now rewrite E1, E2. Qed.
Lemma same_kids (x y : obj K V) : same x y -> kids x = kids y.
Proof. intros (_ & _ & E1 & E2). unfold kids. now rewrite E1, E2. Qed.
Lemma same_ptr (x y : obj K V) o : same x y -> ptr x o = ptr y o.
Proof. intros (_ & _ & E1 & E2). unfold ptr. now rewrite E1, E2. Qed.

Lemma path_keep h h' y k p :
  (forall q, q = y \/ Chain h y q -> same (h' q) (h q) /\ jv (jb (h' q)) = jv (jb (h q))) ->
  Path h' y k p -> Path h y k p.
Proof.
  intros Hc. induction 1 as [|p o a om lo hi Hp IH Hj Ho]; [constructor|].
  destruct (Hc p) as [S E].
  { eapply path_chain; eauto. }
  apply (PS leb h y k p o a om lo hi IH); [congruence|]. rewrite <- Ho. symmetry. now apply same_pos.
Qed.
Lemma rep_keep h h' y k p a u :
  (forall q, q = y \/ Chain h y q -> same (h' q) (h q) /\ jv (jb (h' q)) = jv (jb (h q))) ->
  Rep h' y k p a u -> Rep h y k p a u.
Proof.
  intros Hc (Hp & o & om & lo & hi & Hj & Ho & ->).
  pose proof (path_keep _ _ _ _ _ Hc Hp) as Hp'. split; auto.
  destruct (Hc p (path_chain _ _ _ _ _ Hp')) as [S E]. exists o, om, lo, hi.
  split; [congruence|]. split; auto. rewrite <- Ho. symmetry. now apply same_pos.
Qed.

Lemma job_keep h h' r r' y o c om lo hi :
  jv (jb (h y)) = Some (o, c, om, lo, hi) -> Job h r y o c om lo hi ->
  isIns (jb (h' y)) = isIns (jb (h y)) ->
  (forall q, q = y \/ Chain h y q -> same (h' q) (h q) /\ jv (jb (h' q)) = jv (jb (h q))) ->
  (forall k p a u, Rep h y k p a u -> wgt (isIns (jb (h y))) om k ->
     same (h' u) (h u) /\ over (h' u) = false /\ ~ Live h' r' u) ->
  (forall k, On h r k c -> On h' r' k c) ->
  (isIns (jb (h y)) = true -> over (h' c) = true /\ wlo (h' c) = wlo (h c)) ->
  Job h' r' y o c om lo hi.
Proof.
  intros Hj [Jw Ji Jg] Hins Hc Hu Hon Hov.
  destruct (Hc y (or_introl eq_refl)) as [Sy Ey].
  constructor.
  - destruct Jw as (k0 & H0 & W0). eauto.
  - intros E. rewrite Hins in E. destruct (Ji E) as (A & B & C). destruct (Hov E) as [B' C'].
    repeat split; auto; [|congruence]. intros k Hk. apply A. rewrite <- Hk. symmetry. now apply same_pos.
  - intros k p a u R W. rewrite Hins in *. pose proof (rep_keep _ _ _ _ _ _ _ Hc R) as R0.
    destruct (Hu _ _ _ _ R0 W) as (Su & Ou & Lu).
    destruct (Jg _ _ _ _ R0 W) as (_ & _ & G1 & G2).
    destruct (Hc a (or_intror (rep_chain _ _ _ _ _ _ _ R0))) as [Sa Ea].
    destruct (Hc p (path_chain _ _ _ _ _ (proj1 R0))) as [Sp Ep].
    assert (forall s, side leb h p u s -> side leb h' p u s) as Hs.
    { intros s Hs o1 a1 om1 lo1 hi1 E. eapply Hs. rewrite <- Ep. eauto. }
    assert (forall s, notmid h p s -> notmid h' p s) as Hm.
    { intros s Hm o1 a1 m1 lo1 hi1 E. eapply Hm. rewrite <- Ep. eauto. }
    split; auto. split; auto. split.
    + intros El. destruct G1 as [G G']; [destruct Sa as (E & _); congruence|].
      destruct Su as (_ & -> & _). destruct Sa as (_ & -> & _). split; auto.
      intros e He. destruct (G' e He) as (? & ? & ?). auto.
    + intros o' a' om' lo' hi' E. rewrite Ea in E. destruct (G2 _ _ _ _ _ E) as [G G'].
      rewrite (same_pos _ _ k Sa). split.
      * transitivity (nxt h u k); [now apply same_nx|]. rewrite G.
        destruct (lpos_eqb _ _); [reflexivity|]. symmetry. now apply same_nx.
      * destruct Su as (_ & _ & -> & _). destruct Sa as (_ & _ & -> & _). intros s He.
        destruct (G' s He) as (? & ? & ? & ?). auto.
Qed.
End frame.
