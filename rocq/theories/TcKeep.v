(** Steps that leave the routes as they are, and change the job of one node, keep the invariant. *)
From Coq Require Import List Arith Bool Lia.
From Verif Require Import TcModel TcRoute TcSpec TcInv TcTree TcFrame.
Import ListNotations.

Section keep.
Context {K V : Type} (leb : K -> K -> bool) (HO : tord leb).
Notation heap := (nat -> obj K V).
Notation pos := (pos leb).
Notation nx := (nx leb).
Notation nxt := (nxt leb).
Notation On := (On leb).
Notation Live := (Live leb).
Notation Path := (Path leb).
Notation Rep := (Rep leb).
Notation sel := (sel leb).
Notation wlt := (wlt leb).
Notation wgt := (wgt leb).
Notation Job := (Job leb).
Notation HInv := (HInv leb).
Implicit Types (k s m : K) (y z u v w p a : nat).


Lemma wfo_keep (h h' : heap) (f f' : nat) x : f <= f' -> wfo leb h f x ->
  same (h' x) (h x) -> ret (h' x) = ret (h x) -> nsl (h' x) = nsl (h x) -> over (h' x) = over (h x) ->
  wlo (h' x) = wlo (h x) -> jb (h' x) = jb (h x) -> (over (h x) = true -> lvl (h x) = 0 -> fz (h' x) = fz (h x)) ->
  (forall c, c < f -> lvl (h' c) = lvl (h c) /\ over (h' c) = over (h c)) ->
  (forall c lo hi lns i, jb (h x) = Commit c lo hi lns i -> lvl (h x) <> 1 -> c < f -> held h x c ->
    jb (h' c) = jb (h c)) ->
  wfo leb h' f' x.
Proof.
  intros Hf W S Er En Eo Ew Ej Ef El Eh. pose proof (same_kids _ _ S) as Ek. destruct S as (S1 & S2 & S3 & S4).
  constructor; rewrite ?S1, ?S2, ?S3, ?S4, ?Er, ?En, ?Eo, ?Ew, ?Ej, ?Ek; try apply W.
  - intros c Hc. destruct (w_kids _ _ _ _ W c Hc). destruct (El c) as [-> _]; auto. split; auto. lia.
  - intros O L. rewrite Ef by auto. now apply W.
  - pose proof (w_commit _ _ _ _ W) as X. destruct (jb (h x)) as [| | | | | | | |c1 ? ? ? ?|]; auto.
    destruct X as [X X2]. split; [destruct X as (? & ? & ?); repeat split; auto; lia|]. intros L. destruct (X2 L) as (A1 & A2 & A3 & A4).
    destruct (El c1 A1) as [E1 E2]. rewrite E1, E2. split; [lia|]. split; auto. split; auto.
    pose proof (Eh _ _ _ _ _ eq_refl L A1 A3) as E3.
    unfold held in *. rewrite E1, E3. destruct (lvl (h c1)); [now destruct A2|auto].
Qed.

Context (h h' : heap) (f f' : nat) (r : option nat) (lg : list (ev K V)) (HI : HInv h f r lg).
Context (x : nat).
Notation "'on' k x" := (On h r k x) (at level 10, k at level 9, x at level 9).
Notation live := (Live h r).

Hypothesis Ff : f <= f'.
Hypothesis F1 : forall y, y < f -> lvl (h' y) = lvl (h y) /\ ents (h' y) = ents (h y)
  /\ over (h' y) = over (h y) /\ wlo (h' y) = wlo (h y) /\ own (h' y) = own (h y)
  /\ (forall k, nxt h' y k = nxt h y k)
  /\ (forall s, In s (keys (cells (h' y))) -> In s (keys (cells (h y)))).
Hypothesis F1y : forall y, y < f -> y <> x -> same (h' y) (h y).
Hypothesis F2 : forall y, y < f' -> wfo leb h' f' y.
Hypothesis F2n : forall y, f <= y < f' -> jb (h' y) = Idle \/ jb (h' y) = NewLk.
Hypothesis F3 : forall y, y < f -> y <> x ->
  (jv (jb (h' y)) = jv (jb (h y)) /\ isIns (jb (h' y)) = isIns (jb (h y))
   /\ active (jb (h' y)) = active (jb (h y)))
  \/ (~ live y /\ jv (jb (h' y)) = None /\ active (jb (h' y)) = false).
Hypothesis Hch : forall y o q om lo hi, y < f -> y <> x -> jv (jb (h y)) = Some (o, q, om, lo, hi) ->
  jv (jb (h' y)) <> None -> jb (h' q) = jb (h q) /\ q <> x.
Hypothesis Hfz1 : forall y z, y < f -> z < f -> y <> x -> jb (h' y) = jb (h y) -> own (h z) = y ->
  fz (h z) = Hold y \/ (fz (h z) = Open /\ ~ live z) -> fz (h' z) = fz (h z).
Hypothesis Hfz3 : forall y z, z < f -> y <> x -> fz (h z) = Orig y -> fz (h' z) = fz (h z).
Hypothesis F1s : x < f -> same (h' x) (h x) \/ live x.
Hypothesis F6 : forall y, y < f -> y <> x -> jb (h' y) = jb (h y) \/ Fz h' y.
Hypothesis F6x : x < f -> Fz h' x.

Lemma k_on k y : On h' r k y <-> on k y.
Proof.
  split.
  - intros H. induction H as [n Hn|u z Hu IH Hz]; [now constructor|].
    eapply On_step; eauto. destruct (F1 u) as (_ & _ & _ & _ & _ & E & _); [eapply on_lt; eauto|].
    now rewrite <- E.
  - intros H. induction H as [n Hn|u z Hu IH Hz]; [now constructor|].
    eapply On_step; eauto. destruct (F1 u) as (_ & _ & _ & _ & _ & E & _); [eapply on_lt; eauto|].
    now rewrite E.
Qed.
Lemma k_live y : Live h' r y <-> live y.
Proof. split; intros [k Hk]; exists k; now apply k_on. Qed.

Hypothesis F5 : forall o c om lo hi, x < f -> jv (jb (h' x)) = Some (o, c, om, lo, hi) ->
  Hld leb h' f' x o c om lo hi.
Hypothesis F7 : forall o c om lo hi, x < f -> jv (jb (h' x)) = Some (o, c, om, lo, hi) ->
  over (h x) = false -> Job h' r x o c om lo hi.
Hypothesis F8 : forall o c m lo hi, x < f -> jv (jb (h' x)) = Some (o, c, Some m, lo, hi) ->
  isIns (jb (h' x)) = false -> live x -> wlt (wlo (h x)) m -> on m x.
Hypothesis F9 : live x -> exists k, on k x /\ pos (h' x) k = PUb
    /\ forall o c m lo hi, jv (jb (h' x)) = Some (o, c, Some m, lo, hi) ->
         isIns (jb (h' x)) = false -> leb k m = false.
Hypothesis F10 : forall k z, on k x -> nxt h x k = Some z -> over (h z) = true ->
  jv (jb (h' x)) = jv (jb (h x)) /\ isIns (jb (h' x)) = isIns (jb (h x)).
Hypothesis F11 : x < f -> active (jb (h' x)) = true -> over (h x) = false -> live x \/ ub (h' x) = URet.

Lemma k_jv y t : y < f -> y <> x -> jv (jb (h' y)) = Some t ->
  jv (jb (h y)) = Some t /\ isIns (jb (h' y)) = isIns (jb (h y)).
Proof. intros Hy Ne J. destruct (F3 y Hy Ne) as [(A & B & _)|(_ & A & _)]; [split; congruence|congruence]. Qed.
Lemma k_newjv y : f <= y < f' -> jv (jb (h' y)) = None /\ active (jb (h' y)) = false.
Proof. intros Hy. destruct (F2n y Hy) as [->| ->]; auto. Qed.
(** The open half of a job is not live. *)
Lemma open_half y o c om lo hi : y < f -> jv (jb (h y)) = Some (o, c, om, lo, hi) -> over (h y) = false -> ~ live hi.
Proof.
  intros Hy J Ov. pose proof (h_job _ _ _ _ _ HI _ _ _ _ _ _ Hy J Ov) as Jb.
  destruct (j_w _ _ _ _ _ _ _ _ _ Jb) as (k0 & H0 & W0).
  destruct (up leb HO h f r lg HI k0 _ _ _ _ _ _ Hy J (or_introl Ov) H0) as (P1 & P2 & _).
  assert (Rep h y k0 y c hi) as R.
  { split; [apply P0|]. exists o, om, lo, hi. repeat split; auto. symmetry. now apply sel_hi. }
  apply (j_img _ _ _ _ _ _ _ _ _ Jb _ _ _ _ R). intros _. auto.
Qed.
Lemma noover y : y < f -> lvl (h y) <> 0 ->
  match jb (h y) with Full _ _ _ _ _ _ _ | Commit _ _ _ _ _ | Poison => False | _ => True end ->
  over (h y) = false.
Proof.
  intros Hy L M. destruct (over (h y)) eqn:E; auto. exfalso.
  destruct (w_over1 _ _ _ _ (h_wf _ _ _ _ _ HI y Hy) E L) as [_ W].
  destruct (jb (h y)); try tauto.
Qed.

Theorem keep : HInv h' f' r lg.
Proof.
  assert (forall y k, live y -> on k y -> y < f) as Ll by (intros; eapply on_lt; eauto).
  constructor.
  - exact F2.
  - intros n Hn. destruct (h_root _ _ _ _ _ HI n Hn) as (A & B & C).
    destruct (F1 n A) as (-> & _ & -> & _). split; [lia|auto].
  - intros k1 k2 u v w H1 A1 H2 A2. apply k_on in H1, H2.
    destruct (F1 u) as (_ & _ & _ & _ & _ & E & _); [eapply on_lt; eauto|]. rewrite E in A1.
    destruct (F1 v) as (_ & _ & _ & _ & _ & E' & _); [eapply on_lt; eauto|]. rewrite E' in A2.
    eapply (h_tree _ _ _ _ _ HI k1 k2); eauto.
  - intros y s Hl Hs Hw. apply k_live in Hl. apply k_on. pose proof (live_lt leb h f r lg HI y Hl) as Hy.
    destruct (F1 y Hy) as (_ & _ & _ & E & _ & _ & E'). rewrite E in Hw. apply (h_sep _ _ _ _ _ HI); auto.
  - intros y o c1 m lo hi Hy J I Hl Hw. apply k_live in Hl. apply k_on.
    pose proof (live_lt leb h f r lg HI y Hl) as Hyf. destruct (F1 y Hyf) as (_ & _ & _ & E & _).
    rewrite E in Hw. destruct (Nat.eq_dec y x) as [->|Ne]; [eapply F8; eauto|].
    destruct (k_jv y _ Hyf Ne J) as [J' I']. rewrite I' in I. eapply (h_mid _ _ _ _ _ HI); eauto.
  - intros y Hl. apply k_live in Hl. pose proof (live_lt leb h f r lg HI y Hl) as Hyf.
    destruct (Nat.eq_dec y x) as [->|Ne].
    { destruct (F9 Hl) as (k & A & B). exists k. split; auto. now apply k_on. }
    destruct (h_wu _ _ _ _ _ HI y Hl) as (k & A1 & A2 & A3). exists k. split; [now apply k_on|].
    rewrite (same_pos leb _ _ k (F1y y Hyf Ne)). split; auto.
    intros o c m lo hi J I. destruct (k_jv y _ Hyf Ne J) as [J' I']. rewrite I' in I. eauto.
  - intros y k Hl Hs Hw. apply k_live in Hl. apply k_on. pose proof (live_lt leb h f r lg HI y Hl) as Hy.
    destruct (F1 y Hy) as (_ & E1 & _ & E & _). rewrite E1 in Hs. rewrite E in Hw. now apply (h_ent _ _ _ _ _ HI).
  - intros k y Hk. apply k_on in Hk. destruct (F1 y) as (_ & _ & _ & -> & _); [eapply on_lt; eauto|].
    eapply (h_wl _ _ _ _ _ HI); eauto.
  - intros k y Hk L. apply k_on in Hk. destruct (F1 y) as (E & -> & _); [eapply on_lt; eauto|].
    apply (h_abs1 _ _ _ _ _ HI); auto. congruence.
  - intros k Hk. destruct (h_abs2 _ _ _ _ _ HI k Hk) as (y & Hy & L). exists y.
    destruct (F1 y) as (-> & _); [eapply on_lt; eauto|]. split; auto. now apply k_on.
  - intros k u z Hu Hz Ov. apply k_on in Hu. assert (u < f) as Huf by (eapply on_lt; eauto).
    destruct (F1 u Huf) as (_ & _ & Eo & Ew & _ & En & _). rewrite En in Hz.
    assert (z < f) as Hzf by (eapply on_lt, On_step; eauto).
    destruct (F1 z Hzf) as (_ & _ & Eo' & Ew' & _). rewrite Eo' in Ov.
    destruct (h_over _ _ _ _ _ HI _ _ _ Hu Hz Ov) as (o & om & lo & hi & J & D).
    exists o, om, lo, hi. rewrite Eo, Ew, Ew'.
    destruct (Nat.eq_dec u x) as [->|Ne].
    + destruct (F10 _ _ Hu Hz Ov) as [-> ->]. auto.
    + destruct (F3 u Huf Ne) as [(-> & -> & _)|(N & _)]; auto. destruct N. now exists k.
  - intros y Hy Ha Hv. destruct (Nat.lt_ge_cases y f) as [Hyf|Hyf].
    + destruct (F1 y Hyf) as (_ & _ & Eo & _). rewrite Eo in Hv.
      destruct (Nat.eq_dec y x) as [->|Ne].
      * destruct (F11 Hyf Ha Hv); [left; now apply k_live|auto].
      * destruct (F3 y Hyf Ne) as [(_ & _ & E)|(_ & _ & E)]; [|congruence]. rewrite E in Ha.
        destruct (h_act _ _ _ _ _ HI y Hyf Ha Hv); [left; now apply k_live|right].
        destruct (F1y y Hyf Ne) as (_ & _ & _ & ->). auto.
    + destruct (k_newjv y (conj Hyf Hy)). congruence.
  - intros y o c om lo hi Hy J. destruct (Nat.lt_ge_cases y f) as [Hyf|Hyf].
    2:{ destruct (k_newjv y (conj Hyf Hy)). congruence. }
    destruct (Nat.eq_dec y x) as [->|Ne]; [now apply F5|].
    destruct (k_jv y _ Hyf Ne J) as [J' I'].
    destruct (Hch y o c om lo hi Hyf Ne J') as [Ec Nc]; [congruence|].
    pose proof (h_hld _ _ _ _ _ HI _ _ _ _ _ _ Hyf J') as L.
    destruct (jv_c_lt leb h f r lg HI _ _ _ _ _ _ Hyf J') as [Hc Lc].
    pose proof (F1y y Hyf Ne) as S. pose proof (F1y c Hc Nc) as Sc.
    pose proof (l_lo _ _ _ _ _ _ _ _ _ L) as Hlo. pose proof (l_hi _ _ _ _ _ _ _ _ _ L) as Hhi.
    destruct (F1 lo Hlo) as (E1 & _ & _ & _ & E2 & _). destruct (F1 hi Hhi) as (E3 & _ & _ & _ & E4 & _).
    destruct (F1 c Hc) as (E5 & _ & E6 & _). destruct (F1 y Hyf) as (E7 & _ & E8 & _).
    constructor; rewrite ?I', ?E1, ?E2, ?E3, ?E4, ?E5, ?E6, ?E8, ?(same_kids _ _ S), ?(same_ptr _ _ _ S);
      try apply L; try lia.
    + pose proof (l_held _ _ _ _ _ _ _ _ _ L) as Hh. unfold held in *. rewrite E5, Ec.
      destruct (lvl (h c)); auto. rewrite (Hfz3 y c); auto.
    + intros I m Em. rewrite (same_pos leb _ _ m S). now apply (l_pos _ _ _ _ _ _ _ _ _ L).
    + rewrite Ec. destruct Sc as (_ & _ & -> & _). apply L.
  - intros y Hy. destruct (Nat.lt_ge_cases y f) as [Hyf|Hyf].
    2:{ intros _. destruct (F2n y (conj Hyf Hy)) as [->| ->]; exact I. }
    destruct (Nat.eq_dec y x) as [->|Ne]; [now apply F6x|].
    destruct (F6 y Hyf Ne) as [Ej|?]; auto.
    specialize (fun z Hz => Hfz1 y z Hyf Hz Ne Ej) as Hf1.
    pose proof (h_fz _ _ _ _ _ HI y Hyf) as F. unfold Fz in *.
    destruct (F1 y Hyf) as (El & _). rewrite El, Ej. intros L. specialize (F L).
    destruct (jb (h y)) as [| | | |o c lo|o c m lo hi|o c m lo hi th|o c m lo hi tk lns|c lo hi lns i|j] eqn:J; auto.
    + assert (jv (jb (h y)) = Some (o, c, None, lo, lo)) as Jv by now rewrite J.
      pose proof (h_hld _ _ _ _ _ HI _ _ _ _ _ _ Hyf Jv) as Lx.
      pose proof (l_lo _ _ _ _ _ _ _ _ _ Lx) as Hlo. pose proof (l_hi _ _ _ _ _ _ _ _ _ Lx) as Hhi.
      rewrite (Hf1 lo); auto; [apply Lx|]. right. split; auto.
      apply (open_half _ _ _ _ _ _ Hyf Jv). apply noover; auto; [lia|now rewrite J].
    + assert (jv (jb (h y)) = Some (o, c, Some m, lo, hi)) as Jv by now rewrite J.
      pose proof (h_hld _ _ _ _ _ HI _ _ _ _ _ _ Hyf Jv) as Lx.
      pose proof (l_lo _ _ _ _ _ _ _ _ _ Lx) as Hlo. pose proof (l_hi _ _ _ _ _ _ _ _ _ Lx) as Hhi. destruct F as [Fa Fb].
      rewrite (Hf1 lo), (Hf1 hi); auto; [apply Lx| |apply Lx]. right. split; auto.
      apply (open_half _ _ _ _ _ _ Hyf Jv). apply noover; auto; [lia|now rewrite J].
    + assert (jv (jb (h y)) = Some (o, c, Some m, lo, hi)) as Jv by now rewrite J.
      pose proof (h_hld _ _ _ _ _ HI _ _ _ _ _ _ Hyf Jv) as Lx.
      pose proof (l_lo _ _ _ _ _ _ _ _ _ Lx) as Hlo. pose proof (l_hi _ _ _ _ _ _ _ _ _ Lx) as Hhi. destruct F as [Fa Fb]. split.
      * intros E. rewrite (Hf1 lo); auto. apply Lx.
      * rewrite (Hf1 hi); auto; [apply Lx|]. right. split; auto.
        apply (open_half _ _ _ _ _ _ Hyf Jv). apply noover; auto; [lia|now rewrite J].
    + assert (jv (jb (h y)) = Some (o, c, Some m, lo, hi)) as Jv by now rewrite J.
      pose proof (h_hld _ _ _ _ _ HI _ _ _ _ _ _ Hyf Jv) as Lx.
      pose proof (l_lo _ _ _ _ _ _ _ _ _ Lx) as Hlo. pose proof (l_hi _ _ _ _ _ _ _ _ _ Lx) as Hhi. destruct F as [Fa Fb].
      rewrite (Hf1 lo), (Hf1 hi); auto; apply Lx.
    + destruct F as (A & B & C & D & E). 
      pose proof (w_commit _ _ _ _ (h_wf _ _ _ _ _ HI y Hyf)) as X. rewrite J in X.
      destruct X as ((_ & Hlo & Hhi) & _). destruct (F1 lo Hlo) as (_ & _ & _ & _ & -> & _).
      destruct (F1 hi Hhi) as (_ & _ & _ & _ & -> & _).
      repeat split; auto; intros Hi; rewrite Hf1; auto.
  - intros y o c om lo hi Hy J Ov. destruct (Nat.lt_ge_cases y f) as [Hyf|Hyf].
    2:{ destruct (k_newjv y (conj Hyf Hy)). congruence. }
    destruct (F1 y Hyf) as (_ & _ & Eo & _). rewrite Eo in Ov.
    destruct (Nat.eq_dec y x) as [->|Ne]; [now apply F7|].
    destruct (k_jv y _ Hyf Ne J) as [J' I'].
    pose proof (h_job _ _ _ _ _ HI _ _ _ _ _ _ Hyf J' Ov) as Jb.
    assert (forall q, Chain h y q -> q < f /\ q <> x /\ jv (jb (h' q)) = jv (jb (h q))) as Cq.
    { induction 1 as [o1 c1 om1 lo1 hi1 J1|a o1 c1 om1 lo1 hi1 Hc IH J1].
      - destruct (Hch y _ _ _ _ _ Hyf Ne J1) as [Ec Nc]; [congruence|].
        destruct (jv_c_lt leb h f r lg HI _ _ _ _ _ _ Hyf J1). rewrite Ec. auto.
      - destruct IH as (A1 & A2 & A3). destruct (Hch a _ _ _ _ _ A1 A2 J1) as [Ec Nc]; [congruence|].
        destruct (jv_c_lt leb h f r lg HI _ _ _ _ _ _ A1 J1). rewrite Ec. auto. }
    apply (job_keep leb h h' r r); auto.
    + intros q [->|Q]; [split; [now apply F1y|congruence]|].
      destruct (Cq q Q) as (A1 & A2 & A3). split; auto.
    + intros k p a u R W. destruct (j_img _ _ _ _ _ _ _ _ _ Jb _ _ _ _ R W) as (Nl & Ou & _).
      pose proof (rep_own leb h f r lg HI _ _ _ _ _ Hyf R) as (Eow & Lv & Hu & Ha & Hp & Lp).
      assert (u <> x \/ u = x) as [Nx|Ex] by lia.
      * split; [now apply F1y|]. destruct (F1 u Hu) as (_ & _ & -> & _). split; auto. now rewrite k_live.
      * subst u. destruct (F1s Hu) as [S|?]; [|tauto]. split; auto.
        destruct (F1 x Hu) as (_ & _ & -> & _). split; auto. now rewrite k_live.
    + intros k. apply k_on.
    + intros E. destruct (j_ins _ _ _ _ _ _ _ _ _ Jb E) as (_ & O1 & _).
      destruct (jv_c_lt leb h f r lg HI _ _ _ _ _ _ Hyf J') as [Hc _].
      destruct (F1 c Hc) as (_ & _ & -> & -> & _). auto.
Qed.
End keep.

Section keep2.
Context {K V : Type} (leb : K -> K -> bool) (HO : tord leb).
Notation heap := (nat -> obj K V).
Notation pos := (pos leb).
Notation nxt := (nxt leb).
Notation On := (On leb).
Notation Live := (Live leb).
Notation wlt := (wlt leb).
Notation Job := (Job leb).
Notation HInv := (HInv leb).
Context (h h' : heap) (f f' : nat) (r : option nat) (lg : list (ev K V)) (HI : HInv h f r lg).
Context (x : nat).
Notation "'on' k x" := (On h r k x) (at level 10, k at level 9, x at level 9).
Notation live := (Live h r).

(** What the new job of a node must satisfy by itself. *)
Definition jbok (y : nat) : Prop :=
  lvl (h y) <> 0
  /\ (over (h y) = true ->
      match jb (h' y) with Full _ _ _ _ _ (Some _) _ | Commit _ _ _ _ _ | Poison => True | _ => False end)
  /\ (forall j, jb (h y) <> CUb j) /\ (forall j, jb (h' y) <> CUb j)
  /\ match jb (h' y) with
    | Commit c lo hi _ _ => (over (h y) = true /\ lo < f /\ hi < f)
        /\ (lvl (h y) <> 1 -> c < f /\ lvl (h c) <> 0 /\ held h' y c /\ over (h c) = true)
    | _ => True end.

Hypothesis Ff : f <= f'.
Hypothesis Hsame : forall y, y < f -> same (h' y) (h y) /\ ret (h' y) = ret (h y) /\ nsl (h' y) = nsl (h y)
  /\ over (h' y) = over (h y) /\ wlo (h' y) = wlo (h y) /\ own (h' y) = own (h y).
Hypothesis K_new : forall y, f <= y < f' -> wfo leb h' f' y /\ (jb (h' y) = Idle \/ jb (h' y) = NewLk).
Hypothesis K_jb : forall y, y < f -> jb (h' y) = jb (h y) \/ jbok y.
Hypothesis K_fz0 : forall y, y < f -> over (h y) = true -> lvl (h y) = 0 -> fz (h' y) = fz (h y).
Hypothesis K_held : forall y c lo hi lns i, y < f -> jb (h y) = Commit c lo hi lns i -> jb (h' y) = jb (h y) ->
  lvl (h y) <> 1 -> held h y c -> jb (h' c) = jb (h c).
Hypothesis F3 : forall y, y < f -> y <> x ->
  (jv (jb (h' y)) = jv (jb (h y)) /\ isIns (jb (h' y)) = isIns (jb (h y))
   /\ active (jb (h' y)) = active (jb (h y)))
  \/ (~ live y /\ jv (jb (h' y)) = None /\ active (jb (h' y)) = false).
Hypothesis Hch : forall y o q om lo hi, y < f -> y <> x -> jv (jb (h y)) = Some (o, q, om, lo, hi) ->
  jv (jb (h' y)) <> None -> jb (h' q) = jb (h q) /\ q <> x.
Hypothesis Hfz1 : forall y z, y < f -> z < f -> y <> x -> jb (h' y) = jb (h y) -> own (h z) = y ->
  fz (h z) = Hold y \/ (fz (h z) = Open /\ ~ live z) -> fz (h' z) = fz (h z).
Hypothesis Hfz3 : forall y z, z < f -> y <> x -> fz (h z) = Orig y -> fz (h' z) = fz (h z).
Hypothesis F6 : forall y, y < f -> y <> x -> jb (h' y) = jb (h y) \/ Fz h' y.
Hypothesis F6x : x < f -> Fz h' x.

Lemma k2_nxt y k : y < f -> nxt h' y k = nxt h y k.
Proof. intros Hy. apply same_nx. now apply Hsame. Qed.
Lemma k2_F1 y : y < f -> lvl (h' y) = lvl (h y) /\ ents (h' y) = ents (h y)
  /\ over (h' y) = over (h y) /\ wlo (h' y) = wlo (h y) /\ own (h' y) = own (h y)
  /\ (forall k, nxt h' y k = nxt h y k)
  /\ (forall s, In s (keys (cells (h' y))) -> In s (keys (cells (h y)))).
Proof.
  intros Hy. destruct (Hsame y Hy) as ((A & B & C & D) & _ & _ & E & F & G).
  repeat split; auto; [intros; now apply k2_nxt|]. now rewrite C.
Qed.
Lemma k2_on k y : On h' r k y <-> on k y.
Proof. apply (k_on leb h h' f r lg HI). apply k2_F1. Qed.
Lemma k2_live y : Live h' r y <-> live y.
Proof. apply (k_live leb h h' f r lg HI). apply k2_F1. Qed.
Lemma k2_wf y : y < f' -> wfo leb h' f' y.
Proof.
  intros Hy. destruct (Nat.lt_ge_cases y f) as [Hyf|Hyf]; [|now apply K_new].
  pose proof (h_wf _ _ _ _ _ HI y Hyf) as W.
  destruct (Hsame y Hyf) as (S & Er & En & Eo & Ew & _).
  assert (forall c, c < f -> lvl (h' c) = lvl (h c) /\ over (h' c) = over (h c)) as El.
  { intros c Hc. destruct (Hsame c Hc) as ((A & _) & _ & _ & B & _). auto. }
  destruct (K_jb y Hyf) as [Ej|(L & J1 & J2 & J3 & J4)].
  - apply (wfo_keep leb h h' f f' y); auto. intros c lo hi lns i J L Hc Hh. apply (K_held y c lo hi lns i); auto.
  - pose proof (same_kids _ _ S) as Ek. destruct S as (S1 & S2 & S3 & S4).
    constructor; rewrite ?S1, ?S2, ?S3, ?S4, ?Er, ?En, ?Eo, ?Ew, ?Ek; try apply W; try tauto.
    + intros c Hc. destruct (w_kids _ _ _ _ W c Hc). destruct (El c) as [-> _]; auto. split; auto. lia.
    + intros O _. split; [|now apply J1]. now apply W.
    + pose proof (w_nd _ _ _ _ W) as N. assert (NoDup (kids (h y))) as N'.
      { destruct (jb (h y)) eqn:Jb; auto. now destruct (J2 j). }
      destruct (jb (h' y)) eqn:Jb; auto. now destruct (J3 j).
    + destruct (jb (h' y)) as [| | | | | | | |c ? ? ? ?|]; auto. destruct J4 as [(A1 & A2 & A3) A4].
      split; [repeat split; auto; lia|]. intros Ll. destruct (A4 Ll) as (B1 & B2 & B3 & B4).
      destruct (El c B1) as [-> ->]. repeat split; auto. lia.
Qed.

Hypothesis F5 : forall o c om lo hi, x < f -> jv (jb (h' x)) = Some (o, c, om, lo, hi) ->
  Hld leb h' f' x o c om lo hi.
Hypothesis F7 : forall o c om lo hi, x < f -> jv (jb (h' x)) = Some (o, c, om, lo, hi) ->
  over (h x) = false -> Job h' r x o c om lo hi.
Hypothesis F8 : forall o c m lo hi, x < f -> jv (jb (h' x)) = Some (o, c, Some m, lo, hi) ->
  isIns (jb (h' x)) = false -> live x -> wlt (wlo (h x)) m -> on m x.
Hypothesis F9 : forall o c m lo hi, x < f -> jv (jb (h' x)) = Some (o, c, Some m, lo, hi) ->
  isIns (jb (h' x)) = false -> live x ->
  exists k, on k x /\ pos (h x) k = PUb /\ leb k m = false.
Hypothesis F10 : forall k z, on k x -> nxt h x k = Some z -> over (h z) = true ->
  jv (jb (h' x)) = jv (jb (h x)) /\ isIns (jb (h' x)) = isIns (jb (h x)).
Hypothesis F11 : x < f -> active (jb (h' x)) = true -> over (h x) = false -> live x \/ ub (h x) = URet.

Theorem keep2 : HInv h' f' r lg.
Proof.
  apply (keep leb HO h h' f f' r lg HI x); auto.
  - apply k2_F1.
  - intros y Hy _. now apply Hsame.
  - apply k2_wf.
  - intros y Hy. now apply K_new.
  - intros Hx. left. now apply Hsame.
  - intros Hl. pose proof (live_lt leb h f r lg HI x Hl) as Hx.
    destruct (Hsame x Hx) as (S & _).
    destruct (jv (jb (h' x))) as [[[[[o c] [m|]] lo] hi]|] eqn:J.
    + destruct (isIns (jb (h' x))) eqn:Is.
      * destruct (h_wu _ _ _ _ _ HI x Hl) as (k & A1 & A2 & _). exists k. split; auto.
        rewrite (same_pos leb _ _ k S). split; auto. intros; congruence.
      * destruct (F9 o c m lo hi Hx eq_refl eq_refl Hl) as (k & A1 & A2 & A3). exists k. split; auto.
        rewrite (same_pos leb _ _ k S). split; auto. intros o1 c1 m1 lo1 hi1 E _. congruence.
    + destruct (h_wu _ _ _ _ _ HI x Hl) as (k & A1 & A2 & _). exists k. split; auto.
      rewrite (same_pos leb _ _ k S). split; auto. intros; congruence.
    + destruct (h_wu _ _ _ _ _ HI x Hl) as (k & A1 & A2 & _). exists k. split; auto.
      rewrite (same_pos leb _ _ k S). split; auto. intros; congruence.
  - intros Hx A O. destruct (Hsame x Hx) as ((_ & _ & _ & ->) & _). auto.
Qed.
End keep2.
