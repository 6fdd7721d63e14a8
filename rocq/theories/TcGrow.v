(** Steps that change the root, add a leaf, or change the entries of a leaf keep the invariant. *)
From Coq Require Import List Arith Bool Lia.
From Verif Require Import TcModel TcRoute TcSpec TcInv TcTree TcFrame TcKeep TcJobs TcSplit TcFrz.
Import ListNotations.

Section grow.
Context {K V : Type} (leb : K -> K -> bool) (HO : tord leb).
Notation heap := (nat -> obj K V).
Notation pos := (pos leb).
Notation nxt := (nxt leb).
Notation On := (On leb).
Notation Live := (Live leb).
Notation sel := (sel leb).
Notation wlt := (wlt leb).
Notation Job := (Job leb).
Notation HInv := (HInv leb).

Section frame.
Context (h h' : heap) (f f' : nat) (r r' : option nat) (lg : list (ev K V)) (HI : HInv h f r lg) (z : nat).
Notation "'on' k x" := (On h r k x) (at level 10, k at level 9, x at level 9).
Notation live := (Live h r).
Hypothesis Ff : f <= f'.
Hypothesis Eo : forall y, y < f -> y <> z -> h' y = h y.
Hypothesis Ez : z < f -> lvl (h' z) = lvl (h z) /\ own (h' z) = own (h z) /\ fz (h' z) = fz (h z)
  /\ jv (jb (h z)) = None /\ jv (jb (h' z)) = None /\ (forall y, ~ held h y z) /\ Fz h' z /\ (K -> live z).
Hypothesis En : forall y, f <= y < f' -> jv (jb (h' y)) = None /\ Fz h' y.
Hypothesis Eon : forall y o c om lo hi k, y < f -> jv (jb (h y)) = Some (o, c, om, lo, hi) -> over (h y) = false ->
  on k c -> On h' r' k c.
Hypothesis El : forall u, u < f -> ~ live u -> ~ Live h' r' u.

Lemma g_lof y : y < f -> lvl (h' y) = lvl (h y) /\ own (h' y) = own (h y) /\ fz (h' y) = fz (h y).
Proof.
  intros Hy. destruct (Nat.eq_dec y z) as [->|Ne]; [|rewrite Eo; auto].
  destruct (Ez Hy) as (A & B & C & _). auto.
Qed.
Lemma g_jv y t : y < f' -> jv (jb (h' y)) = Some t -> y < f /\ y <> z /\ h' y = h y.
Proof.
  intros Hy J. destruct (Nat.lt_ge_cases y f) as [Hyf|Hyf].
  - split; auto. assert (y <> z) as Ne. { intros ->. destruct (Ez Hyf) as (_ & _ & _ & _ & E & _). congruence. }
    auto.
  - destruct (En y) as [E _]; auto. congruence.
Qed.
Lemma g_held y q : q < f -> held h y q -> h' q = h q.
Proof. intros Hq Hh. apply Eo; auto. intros ->. destruct (Ez Hq) as (_ & _ & _ & _ & _ & N & _). now apply (N y). Qed.
Lemma g_hld y o c om lo hi : y < f' -> jv (jb (h' y)) = Some (o, c, om, lo, hi) -> Hld leb h' f' y o c om lo hi.
Proof.
  intros Hy J. destruct (g_jv y _ Hy J) as (Hyf & Ne & Ey). rewrite Ey in J.
  pose proof (h_hld _ _ _ _ _ HI _ _ _ _ _ _ Hyf J) as L.
  destruct (jv_c_lt leb h f r lg HI _ _ _ _ _ _ Hyf J) as [Hc Lc].
  pose proof (g_held y c Hc (l_held _ _ _ _ _ _ _ _ _ L)) as Ec.
  destruct (g_lof lo (l_lo _ _ _ _ _ _ _ _ _ L)) as (E1 & E2 & _).
  destruct (g_lof hi (l_hi _ _ _ _ _ _ _ _ _ L)) as (E3 & E4 & _).
  destruct L as [L1 L2 L3 L4 L5 L6 L7 L8 L9 L10 L11 L12 L13 L14 L15].
  constructor; rewrite ?Ey, ?Ec, ?E1, ?E2, ?E3, ?E4; auto; try lia.
  unfold held in *. now rewrite Ec.
Qed.
Lemma g_fz y : y < f' -> Fz h' y.
Proof.
  intros Hy. destruct (Nat.lt_ge_cases y f) as [Hyf|Hyf]; [|now apply En].
  destruct (Nat.eq_dec y z) as [->|Ne]; [now apply Ez|].
  pose proof (h_fz _ _ _ _ _ HI y Hyf) as F. unfold Fz in *. rewrite (Eo y Hyf Ne). intros L1. specialize (F L1).
  destruct (jb (h y)) as [| | | |o c lo|o c m lo hi|o c m lo hi th|o c m lo hi tk lns|c lo hi lns i|j] eqn:J; auto.
  - assert (jv (jb (h y)) = Some (o, c, None, lo, lo)) as Jv by now rewrite J.
    pose proof (h_hld _ _ _ _ _ HI _ _ _ _ _ _ Hyf Jv) as L.
    destruct (g_lof lo (l_lo _ _ _ _ _ _ _ _ _ L)) as (_ & _ & ->). auto.
  - assert (jv (jb (h y)) = Some (o, c, Some m, lo, hi)) as Jv by now rewrite J.
    pose proof (h_hld _ _ _ _ _ HI _ _ _ _ _ _ Hyf Jv) as L.
    destruct (g_lof lo (l_lo _ _ _ _ _ _ _ _ _ L)) as (_ & _ & ->).
    destruct (g_lof hi (l_hi _ _ _ _ _ _ _ _ _ L)) as (_ & _ & ->). auto.
  - assert (jv (jb (h y)) = Some (o, c, Some m, lo, hi)) as Jv by now rewrite J.
    pose proof (h_hld _ _ _ _ _ HI _ _ _ _ _ _ Hyf Jv) as L.
    destruct (g_lof lo (l_lo _ _ _ _ _ _ _ _ _ L)) as (_ & _ & ->).
    destruct (g_lof hi (l_hi _ _ _ _ _ _ _ _ _ L)) as (_ & _ & ->). auto.
  - assert (jv (jb (h y)) = Some (o, c, Some m, lo, hi)) as Jv by now rewrite J.
    pose proof (h_hld _ _ _ _ _ HI _ _ _ _ _ _ Hyf Jv) as L.
    destruct (g_lof lo (l_lo _ _ _ _ _ _ _ _ _ L)) as (_ & _ & ->).
    destruct (g_lof hi (l_hi _ _ _ _ _ _ _ _ _ L)) as (_ & _ & ->). auto.
  - pose proof (w_commit _ _ _ _ (h_wf _ _ _ _ _ HI y Hyf)) as X. rewrite J in X. destruct X as ((_ & Hlo & Hhi) & _).
    destruct (g_lof lo Hlo) as (_ & -> & ->). destruct (g_lof hi Hhi) as (_ & -> & ->). auto.
Qed.
Lemma g_job y o c om lo hi : y < f' -> jv (jb (h' y)) = Some (o, c, om, lo, hi) -> over (h' y) = false ->
  Job h' r' y o c om lo hi.
Proof.
  intros Hy J Ov. destruct (g_jv y _ Hy J) as (Hyf & Ne & Ey). rewrite Ey in J, Ov.
  pose proof (h_job _ _ _ _ _ HI _ _ _ _ _ _ Hyf J Ov) as Jb.
  assert (forall q, Chain h y q -> h' q = h q) as Hq.
  { intros q C. destruct (chain_full leb h f r lg HI y q Hyf C) as (Hqf & _).
    destruct (chain_top leb h f r lg HI y q Hyf C) as (p & o1 & om1 & lo1 & hi1 & _ & Hp & J1).
    apply (g_held p); auto. eapply l_held, (h_hld _ _ _ _ _ HI); eauto. }
  apply (job_keep leb h h' r r' y); auto.
  - now rewrite Ey.
  - intros q [->|C]; [rewrite Ey|rewrite Hq]; auto using same_refl.
  - intros k p a u R W. destruct (j_img _ _ _ _ _ _ _ _ _ Jb _ _ _ _ R W) as (A & B & _).
    destruct (rep_own leb h f r lg HI y k p a u Hyf R) as (_ & _ & Hu & _).
    assert (u <> z) as Nu. { intros ->. apply A. apply Ez; auto. }
    rewrite Eo; auto. split; [apply same_refl|]. split; auto.
  - intros k. eapply Eon; eauto.
  - intros I. pose proof (l_held _ _ _ _ _ _ _ _ _ (h_hld _ _ _ _ _ HI _ _ _ _ _ _ Hyf J)) as Hh.
    destruct (jv_c_lt leb h f r lg HI _ _ _ _ _ _ Hyf J) as [Hc _].
    rewrite (g_held y c Hc Hh). split; auto. now apply (j_ins _ _ _ _ _ _ _ _ _ Jb I).
Qed.
Lemma g_wfo y : y < f -> y <> z -> wfo leb h' f' y.
Proof.
  intros Hy Ne. pose proof (h_wf _ _ _ _ _ HI y Hy) as W.
  destruct W as [W1 W2 W3 W4 W5 W6 W7 W8 W9 W10 W11].
  constructor; rewrite (Eo y Hy Ne); auto.
  - intros c Hc. destruct (W3 c Hc) as [A B]. destruct (g_lof c A) as (-> & _). split; auto. lia.
  - destruct (jb (h y)) as [| | | | | | | |c lo hi lns i|] eqn:J; auto. destruct W11 as ((A & B & C) & D).
    split; [repeat split; auto; lia|]. intros L. destruct (D L) as (D1 & D2 & D3 & D4).
    pose proof (g_held y c D1 D3) as E. rewrite E. repeat split; auto; [lia|]. unfold held in *. now rewrite E.
Qed.
End frame.

Context (h : heap) (f : nat) (r : option nat) (lg : list (ev K V)) (HI : HInv h f r lg).
Notation "'on' k x" := (On h r k x) (at level 10, k at level 9, x at level 9).
Notation live := (Live h r).

Lemma jv_held y q : jv (jb (h q)) = None -> lvl (h q) <> 0 -> ~ held h y q.
Proof.
  intros J L H. unfold held in H. destruct (lvl (h q)); [congruence|].
  destruct H as (o & d & m & lo & hi & lns & E). rewrite E in J. discriminate.
Qed.
Lemma open_held y q : lvl (h q) = 0 -> fz (h q) = Open -> ~ held h y q.
Proof. intros L F H. unfold held in H. rewrite L in H. congruence. Qed.

(** The first leaf node is installed. *)
Lemma step_inst (h' : heap) w : r = None -> (forall y, y < f -> h' y = h y) ->
  h' f = node0 1 [] 0 UNull Idle w -> HInv h' (S f) (Some f) lg.
Proof.
  intros R E N.
  assert (forall k x, ~ on k x) as No.
  { intros k x H. destruct (on_root_ex leb h r k x H). congruence. }
  assert (forall k, nxt h' f k = None) as Nx.
  { intros k. unfold nxt, TcInv.nxt, TcRoute.nx. rewrite N. reflexivity. }
  assert (forall k x, On h' (Some f) k x -> x = f) as On'.
  { intros k x. induction 1 as [m Hm|u z Hu IH Hz]; [congruence|]. subst u. rewrite Nx in Hz. discriminate. }
  assert (forall x, Live h' (Some f) x -> x = f) as Lv by (intros x [k Hk]; eauto).
  assert (f <= S f) as G0 by lia.
  assert (forall y, y < f -> y <> f -> h' y = h y) as G1 by auto.
  assert (f < f -> lvl (h' f) = lvl (h f) /\ own (h' f) = own (h f) /\ fz (h' f) = fz (h f)
    /\ jv (jb (h f)) = None /\ jv (jb (h' f)) = None /\ (forall y, ~ held h y f) /\ Fz h' f /\ (K -> live f)) as G2 by lia.
  assert (forall y, f <= y < S f -> jv (jb (h' y)) = None /\ Fz h' y) as G3.
  { intros y Hy. replace y with f by lia. unfold Fz. rewrite N. now split. }
  assert (forall y o c om lo hi k, y < f -> jv (jb (h y)) = Some (o, c, om, lo, hi) -> over (h y) = false ->
    on k c -> On h' (Some f) k c) as G4.
  { intros. exfalso. eapply No; eauto. }
  assert (forall u, u < f -> ~ live u -> ~ Live h' (Some f) u) as G5.
  { intros u Hu _ L. apply Lv in L. lia. }
  constructor.
  - intros x Hx. destruct (Nat.eq_dec x f) as [->|Ne].
    + constructor; rewrite N; cbn; auto; try lia; try discriminate; try tauto; try constructor; auto.
      * constructor.
      * split; [constructor|]. intros e [].
    + eapply (g_wfo h h' f (S f) r lg HI f); eauto. lia.
  - intros n [= <-]. rewrite N. cbn. repeat split; lia.
  - intros k1 k2 u v w' H1 N1. apply On' in H1 as ->. rewrite Nx in N1. discriminate.
  - intros x s L Hs. apply Lv in L as ->. rewrite N in Hs. destruct Hs.
  - intros x o c m lo hi Hx J _ L. apply Lv in L as ->. rewrite N in J. discriminate.
  - intros x L. pose proof (Lv x L) as ->. destruct L as [k Hk]. exists k. split; auto. split.
    + unfold TcModel.pos. now rewrite N.
    + intros o c m lo hi J. rewrite N in J. discriminate.
  - intros x k L Hs. apply Lv in L as ->. rewrite N in Hs. destruct Hs.
  - intros k x H. apply On' in H as ->. rewrite N. exact Logic.I.
  - intros k x H. apply On' in H as ->. rewrite N. discriminate.
  - intros k A. destruct (h_abs2 _ _ _ _ _ HI k A) as (x & Hx & _). exfalso. eapply No; eauto.
  - intros k u z H Hz. apply On' in H as ->. rewrite Nx in Hz. discriminate.
  - intros x Hx A O. destruct (Nat.eq_dec x f) as [->|Ne]; [rewrite N in A; discriminate|].
    rewrite E in A, O |- * by lia. destruct (h_act _ _ _ _ _ HI x ltac:(lia) A O) as [[k Hk]|U]; auto.
    exfalso. eapply No; eauto.
  - intros x o c om lo hi Hx J. eapply (g_hld h h' f (S f) r lg HI f); eauto.
  - intros x Hx. eapply (g_fz h h' f (S f) r lg HI f); eauto.
  - intros x o c om lo hi Hx J O. eapply (g_job h h' f (S f) r (Some f) lg HI f); eauto.
Qed.

(** The root is gone. *)
Lemma step_none (h' : heap) n j : r = Some n -> jb (h n) = Locked -> ub (h n) = URet ->
  j = Locked \/ j = Poison -> (forall y, y <> n -> h' y = h y) -> h' n = set_jb j (h n) -> HInv h' f None lg.
Proof.
  intros R J U Jj E N.
  destruct (h_root _ _ _ _ _ HI n R) as (Hn & Ln & On0).
  pose proof (h_wf _ _ _ _ _ HI n Hn) as W.
  assert (cells (h n) = []) as Cn by (apply (w_ub _ _ _ _ W); congruence).
  assert (forall k, nxt h n k = None) as Nx.
  { intros k. unfold nxt, TcInv.nxt, TcRoute.nx, TcModel.pos, meta_of. rewrite Cn. cbn. now rewrite U. }
  assert (forall k x, on k x -> x = n) as On1.
  { intros k x. induction 1 as [m Hm|u z Hu IH Hz]; [congruence|]. subst u. rewrite Nx in Hz. discriminate. }
  assert (forall k x, ~ On h' None k x) as No.
  { intros k x H. destruct (on_root_ex leb h' None k x H). congruence. }
  assert (forall x, ~ Live h' None x) as Lv by (intros x [k Hk]; eapply No; eauto).
  assert (jv (jb (h n)) = None) as Jn by now rewrite J.
  assert (jv (jb (h' n)) = None) as Jn' by (rewrite N; destruct Jj as [-> | ->]; reflexivity).
  assert (f <= f) as G0 by lia.
  assert (forall y, y < f -> y <> n -> h' y = h y) as G1 by auto.
  assert (n < f -> lvl (h' n) = lvl (h n) /\ own (h' n) = own (h n) /\ fz (h' n) = fz (h n)
    /\ jv (jb (h n)) = None /\ jv (jb (h' n)) = None /\ (forall y, ~ held h y n) /\ Fz h' n /\ (K -> live n)) as G2.
  { intros _. rewrite N. cbn. rewrite N in Jn'. repeat split; auto.
    - intros y. now apply jv_held.
    - unfold Fz. rewrite N. cbn. intros _. destruct Jj as [-> | ->]; exact Logic.I.
    - intros k. exists k. now apply On_root. }
  assert (forall y, f <= y < f -> jv (jb (h' y)) = None /\ Fz h' y) as G3 by lia.
  assert (forall y o c om lo hi k, y < f -> jv (jb (h y)) = Some (o, c, om, lo, hi) -> over (h y) = false ->
    on k c -> On h' None k c) as G4.
  { intros y o c om lo hi k Hy Jy _ H. exfalso. apply On1 in H as ->.
    apply (jv_held y n Jn Ln). eapply l_held, (h_hld _ _ _ _ _ HI); eauto. }
  assert (forall u, u < f -> ~ live u -> ~ Live h' None u) as G5 by auto.
  constructor.
  - intros x Hx. destruct (Nat.eq_dec x n) as [->|Ne].
    + destruct W as [W1 W2 W3 W4 W5 W6 W7 W8 W9 W10 W11].
      constructor; rewrite N; cbn; auto.
      * intros L. congruence.
      * intros c Hc. destruct (W3 c Hc) as [A B]. split; auto. destruct (Nat.eq_dec c n) as [->|]; [lia|].
        now rewrite E.
      * congruence.
      * unfold kids. cbn. rewrite Cn, U. cbn. destruct Jj as [-> | ->]; constructor.
      * destruct Jj as [-> | ->]; exact Logic.I.
    + eapply (g_wfo h h' f f r lg HI n); eauto.
  - intros n' [=].
  - intros k1 k2 u v w' H1. exfalso. eapply No; eauto.
  - intros x s L. exfalso. eapply Lv; eauto.
  - intros x o c m lo hi Hx Jx _ L. exfalso. eapply Lv; eauto.
  - intros x L. exfalso. eapply Lv; eauto.
  - intros x k L. exfalso. eapply Lv; eauto.
  - intros k x H. exfalso. eapply No; eauto.
  - intros k x H. exfalso. eapply No; eauto.
  - intros k A. destruct (h_abs2 _ _ _ _ _ HI k A) as (x & Hx & L0). apply On1 in Hx as ->. congruence.
  - intros k u z H. exfalso. eapply No; eauto.
  - intros x Hx A O. right. destruct (Nat.eq_dec x n) as [->|Ne]; [now rewrite N|].
    rewrite E in A, O |- * by auto. destruct (h_act _ _ _ _ _ HI x Hx A O) as [[k Hk]|]; auto.
    apply On1 in Hk. congruence.
  - intros x o c om lo hi Hx Jx. eapply (g_hld h h' f f r lg HI n); eauto.
  - intros x Hx. eapply (g_fz h h' f f r lg HI n); eauto.
  - intros x o c om lo hi Hx Jx O. eapply (g_job h h' f f r None lg HI n); eauto.
Qed.

(** A root with one child is replaced by it. *)
Lemma step_pop (h' : heap) n c : r = Some n -> jb (h n) = Locked -> cells (h n) = [] -> ub (h n) = UTo c ->
  lvl (h n) <> 1 -> (forall y, y <> n -> h' y = h y) -> h' n = set_jb Poison (set_over None (h n)) ->
  HInv h' f (Some c) lg.
Proof.
  intros R J Cn U L1 E N.
  destruct (h_root _ _ _ _ _ HI n R) as (Hn & Ln & On0).
  pose proof (h_wf _ _ _ _ _ HI n Hn) as W.
  assert (forall k, nxt h n k = Some c) as Nx.
  { intros k. unfold nxt, TcInv.nxt, TcRoute.nx, TcModel.pos, meta_of. rewrite Cn. cbn. now rewrite U. }
  destruct (h_act _ _ _ _ _ HI n Hn ltac:(now rewrite J) On0) as [Ll|]; [|congruence].
  assert (c < f /\ lvl (h n) = S (lvl (h c))) as [Hc Lc].
  { apply (w_kids _ _ _ _ W). unfold kids. rewrite Cn, U. cbn. auto. }
  assert (c <> n) as Nc by (intros ->; lia).
  assert (over (h c) = false) as Oc.
  { destruct (over (h c)) eqn:O; auto. destruct Ll as [k Hk].
    destruct (h_over _ _ _ _ _ HI k n c Hk (Nx k) O) as (o & om & lo & hi & A & _). rewrite J in A. discriminate. }
  assert (forall y k, y <> n -> nxt h' y k = nxt h y k) as Nx'.
  { intros y k Hy. unfold nxt, TcInv.nxt. now rewrite E. }
  assert (forall k x, On h' (Some c) k x -> on k x /\ x <> n) as O1.
  { intros k x. induction 1 as [m Hm|u z Hu IH Hz].
    - injection Hm as <-. split; auto. eapply On_step; [now apply On_root, R|apply Nx].
    - destruct IH as [A B]. rewrite Nx' in Hz by auto. split; [eapply On_step; eauto|].
      intros ->. pose proof (on_root_lvl leb h f r lg HI _ _ _ A R). apply (nxt_lvl leb h f r lg HI) in Hz; auto. lia. }
  assert (forall k x, on k x -> x <> n -> On h' (Some c) k x) as O2.
  { intros k x. induction 1 as [m Hm|u z Hu IH Hz]; intros Ne; [congruence|].
    destruct (Nat.eq_dec u n) as [->|Nu].
    - rewrite Nx in Hz. injection Hz as <-. now apply On_root.
    - eapply On_step; [apply IH; auto|]. now rewrite Nx'. }
  assert (forall x, Live h' (Some c) x -> live x /\ x <> n) as Lv.
  { intros x [k Hk]. apply O1 in Hk as [A B]. split; auto. now exists k. }
  assert (forall x, live x -> x <> n -> Live h' (Some c) x) as Lv2.
  { intros x [k Hk] Ne. exists k. auto. }
  assert (jv (jb (h n)) = None) as Jn by now rewrite J.
  assert (jv (jb (h' n)) = None) as Jn' by now rewrite N.
  assert (f <= f) as G0 by lia.
  assert (forall y, y < f -> y <> n -> h' y = h y) as G1 by auto.
  assert (n < f -> lvl (h' n) = lvl (h n) /\ own (h' n) = own (h n) /\ fz (h' n) = fz (h n)
    /\ jv (jb (h n)) = None /\ jv (jb (h' n)) = None /\ (forall y, ~ held h y n) /\ Fz h' n /\ (K -> live n)) as G2.
  { intros _. repeat split; auto; try (rewrite N; reflexivity).
    - intros y. now apply jv_held.
    - unfold Fz. rewrite N. cbn. auto. }
  assert (forall y, f <= y < f -> jv (jb (h' y)) = None /\ Fz h' y) as G3 by lia.
  assert (forall y o c0 om lo hi k, y < f -> jv (jb (h y)) = Some (o, c0, om, lo, hi) -> over (h y) = false ->
    on k c0 -> On h' (Some c) k c0) as G4.
  { intros y o c0 om lo hi k Hy Jy _ H. apply O2; auto. intros ->.
    apply (jv_held y n Jn Ln). eapply l_held, (h_hld _ _ _ _ _ HI); eauto. }
  assert (forall u, u < f -> ~ live u -> ~ Live h' (Some c) u) as G5.
  { intros u _ A B. now apply A, Lv. }
  constructor.
  - intros x Hx. destruct (Nat.eq_dec x n) as [->|Ne].
    + destruct W as [W1 W2 W3 W4 W5 W6 W7 W8 W9 W10 W11].
      constructor; rewrite N; cbn; auto.
      * intros L. congruence.
      * intros d Hd. destruct (W3 d Hd) as [A B]. split; auto. destruct (Nat.eq_dec d n) as [->|]; [lia|].
        now rewrite E.
      * intros _ _. rewrite U. split; eauto.
      * unfold kids. cbn. rewrite Cn, U. cbn. repeat constructor. intros [].
    + eapply (g_wfo h h' f f r lg HI n); eauto.
  - intros n' [= <-]. rewrite E by auto. repeat split; auto. lia.
  - intros k1 k2 u v w' H1 N1 H2 N2. apply O1 in H1 as [H1 A1]. apply O1 in H2 as [H2 A2].
    rewrite Nx' in N1, N2 by auto. eapply (h_tree _ _ _ _ _ HI); eauto.
  - intros x s L Hs Wl. apply Lv in L as [L Ne]. rewrite E in Hs, Wl by auto. apply O2; auto.
    eapply (h_sep _ _ _ _ _ HI); eauto.
  - intros x o c0 m lo hi Hx Jx I0 L Wl. apply Lv in L as [L Ne]. rewrite E in Jx, I0, Wl by auto. apply O2; auto.
    eapply (h_mid _ _ _ _ _ HI); eauto.
  - intros x L. apply Lv in L as [L Ne]. destruct (h_wu _ _ _ _ _ HI x L) as (k & A & B & C). exists k.
    rewrite E by auto. auto.
  - intros x k L Hs Wl. apply Lv in L as [L Ne]. rewrite E in Hs, Wl by auto. apply O2; auto.
    eapply (h_ent _ _ _ _ _ HI); eauto.
  - intros k x H. apply O1 in H as [H Ne]. rewrite E by auto. now apply (h_wl _ _ _ _ _ HI).
  - intros k x H. apply O1 in H as [H Ne]. rewrite E by auto. now apply (h_abs1 _ _ _ _ _ HI).
  - intros k A. destruct (h_abs2 _ _ _ _ _ HI k A) as (x & Hx & L0). exists x.
    assert (x <> n) as Ne by (intros ->; congruence). rewrite E by auto. auto.
  - intros k u z H Hz O. apply O1 in H as [H Ne]. rewrite Nx' in Hz by auto.
    assert (z <> n) as Nz.
    { intros ->. pose proof (on_root_lvl leb h f r lg HI _ _ _ H R). apply (nxt_lvl leb h f r lg HI) in Hz; auto. lia. }
    rewrite !E in * by auto. eapply (h_over _ _ _ _ _ HI); eauto.
  - intros x Hx A O. destruct (Nat.eq_dec x n) as [->|Ne]; [rewrite N in A; discriminate|].
    rewrite E in A, O |- * by auto. destruct (h_act _ _ _ _ _ HI x Hx A O); auto.
  - intros x o c0 om lo hi Hx Jx. eapply (g_hld h h' f f r lg HI n); eauto.
  - intros x Hx. eapply (g_fz h h' f f r lg HI n); eauto.
  - intros x o c0 om lo hi Hx Jx O. eapply (g_job h h' f f r (Some c) lg HI n); eauto.
Qed.

(** A new root above the old one. *)
Lemma step_top (h' : heap) n w : r = Some n -> live n -> (forall y, y <> f -> h' y = h y) ->
  h' f = node0 (S (lvl (h n))) [] 0 (UTo n) Locked w -> HInv h' (S f) (Some f) lg.
Proof.
  intros R Ll E0 N.
  assert (forall y, y < f -> h' y = h y) as E by (intros; apply E0; lia).
  destruct (h_root _ _ _ _ _ HI n R) as (Hn & Ln & On0).
  assert (forall k, nxt h' f k = Some n) as Nx.
  { intros k. unfold nxt, TcInv.nxt, TcRoute.nx. rewrite N. reflexivity. }
  assert (forall y k, y < f -> nxt h' y k = nxt h y k) as Nx'.
  { intros y k Hy. unfold nxt, TcInv.nxt. now rewrite E. }
  assert (forall k x, On h' (Some f) k x -> x = f \/ on k x) as O1.
  { intros k x. induction 1 as [m Hm|u z Hu IH Hz]; [left; congruence|right].
    destruct IH as [->|IH].
    - rewrite Nx in Hz. injection Hz as <-. now apply On_root.
    - rewrite Nx' in Hz by (eapply (on_lt leb h f r lg HI); eauto). eapply On_step; eauto. }
  assert (forall k x, on k x -> On h' (Some f) k x) as O2.
  { intros k x. induction 1 as [m Hm|u z Hu IH Hz].
    - replace m with n by congruence. eapply On_step; [now apply On_root|apply Nx].
    - eapply On_step; [apply IH|]. rewrite Nx'; auto. eapply (on_lt leb h f r lg HI); eauto. }
  assert (forall x, Live h' (Some f) x -> x = f \/ live x) as Lv.
  { intros x [k Hk]. apply O1 in Hk as [A|B]; auto. right. now exists k. }
  assert (forall x, live x -> x < f) as Lt by (intros x; apply (live_lt leb h f r lg HI)).
  assert (forall k x, on k x -> x < f) as Ot by (intros k x; apply (on_lt leb h f r lg HI)).
  assert (forall x, live x -> Live h' (Some f) x) as Lv2.
  { intros x [k Hk]. exists k. auto. }
  assert (f <= S f) as G0 by lia.
  assert (forall y, y < f -> y <> f -> h' y = h y) as G1 by auto.
  assert (f < f -> lvl (h' f) = lvl (h f) /\ own (h' f) = own (h f) /\ fz (h' f) = fz (h f)
    /\ jv (jb (h f)) = None /\ jv (jb (h' f)) = None /\ (forall y, ~ held h y f) /\ Fz h' f /\ (K -> live f)) as G2 by lia.
  assert (forall y, f <= y < S f -> jv (jb (h' y)) = None /\ Fz h' y) as G3.
  { intros y Hy. replace y with f by lia. unfold Fz. rewrite N. now split. }
  assert (forall y o c om lo hi k, y < f -> jv (jb (h y)) = Some (o, c, om, lo, hi) -> over (h y) = false ->
    on k c -> On h' (Some f) k c) as G4 by auto.
  assert (forall u, u < f -> ~ live u -> ~ Live h' (Some f) u) as G5.
  { intros u Hu A B. apply Lv in B as [->|]; [lia|auto]. }
  constructor.
  - intros x Hx. destruct (Nat.eq_dec x f) as [->|Ne].
    + constructor; rewrite N; cbn; auto; try discriminate; try lia; try tauto; try congruence.
      * intros c [<-|[]]. rewrite E by auto. split; lia.
      * split; [constructor|]. split; [constructor|]. intros e [].
      * repeat constructor. intros [].
    + eapply (g_wfo h h' f (S f) r lg HI f); eauto. lia.
  - intros n' [= <-]. rewrite N. cbn. repeat split; lia.
  - intros k1 k2 u v w' H1 N1 H2 N2. apply O1 in H1. apply O1 in H2.
    assert (forall k u, on k u -> nxt h' u k = Some n -> False) as Q.
    { intros k u' A B. rewrite Nx' in B by eauto. pose proof (on_root_lvl leb h f r lg HI _ _ _ A R).
      apply (nxt_lvl leb h f r lg HI) in B; auto. lia. }
    destruct H1 as [->|H1], H2 as [->|H2]; auto.
    + rewrite Nx in N1. injection N1 as <-. exfalso. eauto.
    + rewrite Nx in N2. injection N2 as <-. exfalso. eauto.
    + rewrite Nx' in N1, N2 by eauto. eapply (h_tree _ _ _ _ _ HI); eauto.
  - intros x s L Hs Wl. apply Lv in L as [->|L]; [rewrite N in Hs; destruct Hs|].
    rewrite E in Hs, Wl by auto. apply O2. eapply (h_sep _ _ _ _ _ HI); eauto.
  - intros x o c0 m lo hi Hx Jx I0 L Wl. apply Lv in L as [->|L]; [rewrite N in Jx; discriminate|].
    rewrite E in Jx, I0, Wl by auto. apply O2. eapply (h_mid _ _ _ _ _ HI); eauto.
  - intros x L. pose proof L as L0. apply Lv in L as [->|L].
    + destruct L0 as [k Hk]. exists k. split; auto. split.
      * unfold TcModel.pos. now rewrite N.
      * intros o c m lo hi J. rewrite N in J. discriminate.
    + destruct (h_wu _ _ _ _ _ HI x L) as (k & A & B & C). exists k. rewrite E by auto. auto.
  - intros x k L Hs Wl. apply Lv in L as [->|L]; [rewrite N in Hs; destruct Hs|].
    rewrite E in Hs, Wl by auto. apply O2. eapply (h_ent _ _ _ _ _ HI); eauto.
  - intros k x H. apply O1 in H as [->|H]; [now rewrite N|]. rewrite E by eauto. now apply (h_wl _ _ _ _ _ HI).
  - intros k x H. apply O1 in H as [->|H]; [rewrite N; discriminate|]. rewrite E by eauto. now apply (h_abs1 _ _ _ _ _ HI).
  - intros k A. destruct (h_abs2 _ _ _ _ _ HI k A) as (x & Hx & L0). exists x. rewrite E by eauto. auto.
  - intros k u z H Hz O. apply O1 in H as [->|H].
    + rewrite Nx in Hz. injection Hz as <-. rewrite E in O by auto. congruence.
    + rewrite Nx' in Hz by eauto. assert (z < f) as Hzf by (eapply Ot, On_step; eauto).
      rewrite !E in * by eauto. eapply (h_over _ _ _ _ _ HI); eauto.
  - intros x Hx A O. destruct (Nat.eq_dec x f) as [->|Ne].
    + left. destruct Ll as [k _]. exists k. now apply On_root.
    + rewrite E in A, O |- * by lia. destruct (h_act _ _ _ _ _ HI x ltac:(lia) A O); auto.
  - intros x o c0 om lo hi Hx Jx. eapply (g_hld h h' f (S f) r lg HI f); eauto.
  - intros x Hx. eapply (g_fz h h' f (S f) r lg HI f); eauto.
  - intros x o c0 om lo hi Hx Jx O. eapply (g_job h h' f (S f) r (Some f) lg HI f); eauto.
Qed.

(** A leaf node without a child gets one. *)
Lemma step_newleaf (h' : heap) x w : live x -> lvl (h x) = 1 -> ub (h x) = UNull ->
  (forall y, y <> f -> y <> x -> h' y = h y) -> h' x = set_ub (h x) (UTo f) -> h' f = leaf0 [] Open w ->
  HInv h' (S f) r lg.
Proof.
  intros Ll L1 U E0 N Nf.
  assert (x < f) as Hx by (eapply live_lt; eauto).
  assert (forall y, y < f -> y <> x -> h' y = h y) as E by (intros; apply E0; lia).
  pose proof (h_wf _ _ _ _ _ HI x Hx) as W.
  assert (cells (h x) = []) as Cx by (apply (w_ub _ _ _ _ W); congruence).
  assert (forall k, nxt h x k = None) as Nx.
  { intros k. unfold nxt, TcInv.nxt, TcRoute.nx, TcModel.pos, meta_of. rewrite Cx. cbn. now rewrite U. }
  assert (forall k, nxt h' x k = Some f) as Nx1.
  { intros k. unfold nxt, TcInv.nxt, TcRoute.nx, TcModel.pos, meta_of. rewrite N. cbn. now rewrite Cx. }
  assert (forall k, nxt h' f k = None) as Nxf.
  { intros k. unfold nxt, TcInv.nxt, TcRoute.nx. now rewrite Nf. }
  assert (forall y k, y < f -> y <> x -> nxt h' y k = nxt h y k) as Nx'.
  { intros y k Hy Ne. unfold nxt, TcInv.nxt. now rewrite E. }
  assert (forall k y, on k y -> y < f) as Ot by (intros k y; apply (on_lt leb h f r lg HI)).
  assert (forall y, live y -> y < f) as Lt by (intros y; apply (live_lt leb h f r lg HI)).
  assert (forall k y, On h' r k y -> on k y \/ y = f /\ on k x) as O1.
  { intros k y. induction 1 as [m Hm|u z Hu IH Hz]; [left; now apply On_root|].
    destruct IH as [IH|[-> _]]; [|rewrite Nxf in Hz; discriminate].
    destruct (Nat.eq_dec u x) as [->|Ne].
    - rewrite Nx1 in Hz. injection Hz as <-. auto.
    - left. rewrite Nx' in Hz by eauto. eapply On_step; eauto. }
  assert (forall k y, on k y -> On h' r k y) as O2.
  { intros k y. induction 1 as [m Hm|u z Hu IH Hz]; [now apply On_root|].
    eapply On_step; [apply IH|]. destruct (Nat.eq_dec u x) as [->|Ne]; [rewrite Nx in Hz; discriminate|].
    rewrite Nx'; eauto. }
  assert (forall k, on k x -> On h' r k f) as O3.
  { intros k H. eapply On_step; [apply O2, H|apply Nx1]. }
  assert (forall y, Live h' r y -> live y \/ y = f) as Lv.
  { intros y [k Hk]. apply O1 in Hk as [A|[B _]]; auto. left. now exists k. }
  assert (forall y, live y -> Live h' r y) as Lv2 by (intros y [k Hk]; exists k; auto).
  assert (jv (jb (h x)) = None) as Jx.
  { destruct (jv (jb (h x))) as [[[[[o c] om] lo] hi]|] eqn:J; auto.
    pose proof (l_ptr _ _ _ _ _ _ _ _ _ (h_hld _ _ _ _ _ HI _ _ _ _ _ _ Hx J)) as P.
    apply in_kids in P. unfold kids in P. rewrite Cx, U in P. destruct P. }
  assert (over (h x) = false) as Ox.
  { destruct (over (h x)) eqn:O; auto. destruct (w_over1 _ _ _ _ W O ltac:(lia)) as [[u A] _]. congruence. }
  assert (jv (jb (h' x)) = None) as Jx' by now rewrite N.
  assert (f <= S f) as G0 by lia.
  assert (x < f -> lvl (h' x) = lvl (h x) /\ own (h' x) = own (h x) /\ fz (h' x) = fz (h x)
    /\ jv (jb (h x)) = None /\ jv (jb (h' x)) = None /\ (forall y, ~ held h y x) /\ Fz h' x /\ (K -> live x)) as G2.
  { intros _. repeat split; auto; try (rewrite N; reflexivity).
    - intros y. apply jv_held; auto. lia.
    - unfold Fz. rewrite N. cbn. intros _. pose proof (w_commit _ _ _ _ W) as X.
      destruct (jb (h x)); try discriminate; auto. destruct X as ((X & _) & _). congruence. }
  assert (forall y, f <= y < S f -> jv (jb (h' y)) = None /\ Fz h' y) as G3.
  { intros y Hy. replace y with f by lia. unfold Fz. rewrite Nf. now split. }
  assert (forall y o c om lo hi k, y < f -> jv (jb (h y)) = Some (o, c, om, lo, hi) -> over (h y) = false ->
    on k c -> On h' r k c) as G4 by auto.
  assert (forall u, u < f -> ~ live u -> ~ Live h' r u) as G5.
  { intros u Hu A B. apply Lv in B as [| ->]; [auto|lia]. }
  constructor.
  - intros y Hy. destruct (Nat.eq_dec y f) as [->|Nyf]; [eapply wfo_leaf; eauto|].
    destruct (Nat.eq_dec y x) as [->|Ne].
    + destruct W as [W1 W2 W3 W4 W5 W6 W7 W8 W9 W10 W11].
      constructor; rewrite N; cbn; auto.
      * intros L. lia.
      * unfold kids. cbn. rewrite Cx. intros c [<-|[]]. rewrite Nf. cbn. split; lia.
      * intros Q. congruence.
      * unfold kids. cbn. rewrite Cx. cbn. destruct (jb (h x)) as [| | | | | | | | |j];
          try (repeat constructor; intros []). destruct W10 as (_ & pre & s & d & _ & B). congruence.
      * destruct (jb (h x)); auto. destruct W11 as ((A & _) & _). congruence.
    + eapply (g_wfo h h' f (S f) r lg HI x); eauto. lia.
  - intros n' R. destruct (h_root _ _ _ _ _ HI n' R) as (A & B & C).
    destruct (Nat.eq_dec n' x) as [->|Ne]; [rewrite N|rewrite E by auto]; cbn; auto.
  - intros k1 k2 u v w' H1 N1 H2 N2. apply O1 in H1 as [H1|[-> _]]; [|rewrite Nxf in N1; discriminate].
    apply O1 in H2 as [H2|[-> _]]; [|rewrite Nxf in N2; discriminate].
    assert (forall k y z, on k y -> nxt h y k = Some z -> z < f) as Q by (intros k y z A B; eapply Ot, On_step; eauto).
    destruct (Nat.eq_dec u x) as [->|Nu], (Nat.eq_dec v x) as [->|Nv]; auto.
    + rewrite Nx1 in N1. injection N1 as <-. rewrite Nx' in N2 by eauto. apply Q in N2; auto. lia.
    + rewrite Nx1 in N2. injection N2 as <-. rewrite Nx' in N1 by eauto. apply Q in N1; auto. lia.
    + rewrite Nx' in N1, N2 by eauto. eapply (h_tree _ _ _ _ _ HI); eauto.
  - intros y s L Hs Wl. apply Lv in L as [L| ->]; [|rewrite Nf in Hs; destruct Hs].
    destruct (Nat.eq_dec y x) as [->|Ne]; [rewrite N in Hs; cbn in Hs; rewrite Cx in Hs; destruct Hs|].
    rewrite E in Hs, Wl by auto. apply O2. eapply (h_sep _ _ _ _ _ HI); eauto.
  - intros y o c0 m lo hi Hy Jy I0 L Wl. apply Lv in L as [L| ->]; [|rewrite Nf in Jy; discriminate].
    destruct (Nat.eq_dec y x) as [->|Ne]; [congruence|].
    rewrite E in Jy, I0, Wl by auto. apply O2. eapply (h_mid _ _ _ _ _ HI); eauto.
  - intros y L. apply Lv in L as [L| ->].
    + destruct (h_wu _ _ _ _ _ HI y L) as (k & A & B & C). exists k. split; auto.
      destruct (Nat.eq_dec y x) as [->|Ne].
      * split; [|congruence]. unfold TcModel.pos, meta_of. rewrite N. cbn. now rewrite Cx.
      * rewrite E by auto. auto.
    + destruct Ll as [k Hk]. exists k. split; [auto|]. rewrite Nf. split; [reflexivity|discriminate].
  - intros y k L Hs Wl. apply Lv in L as [L| ->]; [|rewrite Nf in Hs; destruct Hs].
    destruct (Nat.eq_dec y x) as [->|Ne].
    { rewrite N in Hs. cbn in Hs. rewrite (w_node _ _ _ _ W) in Hs by lia. destruct Hs. }
    rewrite E in Hs, Wl by auto. apply O2. eapply (h_ent _ _ _ _ _ HI); eauto.
  - intros k y H. apply O1 in H as [H|[-> _]]; [|now rewrite Nf].
    pose proof (h_wl _ _ _ _ _ HI k y H).
    destruct (Nat.eq_dec y x) as [->|Ne]; [now rewrite N|rewrite E by eauto; auto].
  - intros k y H L0. apply O1 in H as [H|[-> H]].
    + destruct (Nat.eq_dec y x) as [->|Ne]; [rewrite N in L0; cbn in L0; lia|].
      rewrite E in L0 |- * by eauto. now apply (h_abs1 _ _ _ _ _ HI).
    + rewrite Nf. cbn. symmetry. eapply (no_leaf_abs leb h f r lg HI k x); eauto. lia.
  - intros k A. destruct (h_abs2 _ _ _ _ _ HI k A) as (y & Hy & L0). exists y. split; auto.
    destruct (Nat.eq_dec y x) as [->|Ne]; [lia|]. rewrite E by eauto. auto.
  - intros k u z H Hz O. apply O1 in H as [H|[-> H]]; [|rewrite Nxf in Hz; discriminate].
    destruct (Nat.eq_dec u x) as [->|Nu].
    { rewrite Nx1 in Hz. injection Hz as <-. rewrite Nf in O. discriminate. }
    rewrite Nx' in Hz by eauto. assert (z < f) as Hzf by (eapply Ot, On_step; eauto).
    destruct (Nat.eq_dec z x) as [->|Nz]; [rewrite N in O; cbn in O; congruence|].
    rewrite !E in * by eauto. eapply (h_over _ _ _ _ _ HI); eauto.
  - intros y Hy A O. destruct (Nat.eq_dec y f) as [->|Nyf]; [rewrite Nf in A; discriminate|].
    destruct (Nat.eq_dec y x) as [->|Ne]; [auto|].
    rewrite E in A, O |- * by lia. destruct (h_act _ _ _ _ _ HI y ltac:(lia) A O); auto.
  - intros y o c0 om lo hi Hy Jy. eapply (g_hld h h' f (S f) r lg HI x); eauto.
  - intros y Hy. eapply (g_fz h h' f (S f) r lg HI x); eauto.
  - intros y o c0 om lo hi Hy Jy O. eapply (g_job h h' f (S f) r r lg HI x); eauto.
Qed.

(** The entries of an open leaf change. *)
Lemma step_write (h' : heap) l k0 es b lg' : on k0 l -> lvl (h l) = 0 -> fz (h l) = Open ->
  (forall y, y <> l -> h' y = h y) -> h' l = set_ents (h l) es b -> (b = true -> es = []) ->
  (forall k, In k (map fst es) -> k = k0 \/ In k (map fst (ents (h l)))) ->
  (forall k, k <> k0 -> get leb es k = get leb (ents (h l)) k /\ abs leb lg' k = abs leb lg k) ->
  get leb es k0 = abs leb lg' k0 -> HInv h' f r lg'.
Proof.
  intros Ho L0 F E N Hb Hin Hk H0.
  assert (l < f) as Hl by (eapply on_lt; eauto).
  pose proof (h_wf _ _ _ _ _ HI l Hl) as W.
  assert (live l) as Ll by (exists k0; auto).
  destruct (w_leaf _ _ _ _ W L0) as (Cl & Ul & Jl).
  assert (over (h l) = false) as Ol.
  { destruct (over (h l)) eqn:O; auto. destruct (w_over0 _ _ _ _ W O L0). congruence. }
  pose proof (w_wlo _ _ _ _ W Ol) as Wl0.
  assert (forall y k, nxt h' y k = nxt h y k) as Nx.
  { intros y k. unfold nxt, TcInv.nxt. destruct (Nat.eq_dec y l) as [->|Ne]; [now rewrite N|now rewrite E]. }
  assert (forall k y, On h' r k y <-> on k y) as O1.
  { intros k y; split; (induction 1 as [m Hm|u z Hu IH Hz]; [now apply On_root|]).
    - rewrite Nx in Hz. eapply On_step; eauto.
    - eapply On_step; [eauto|]. now rewrite Nx. }
  assert (forall y, Live h' r y <-> live y) as Lv.
  { intros y; split; intros [k Q]; exists k; now apply O1. }
  assert (forall y, lvl (h' y) = lvl (h y) /\ fz (h' y) = fz (h y) /\ cells (h' y) = cells (h y) /\ ub (h' y) = ub (h y)
    /\ jb (h' y) = jb (h y) /\ over (h' y) = over (h y) /\ wlo (h' y) = wlo (h y)) as S0.
  { intros y. destruct (Nat.eq_dec y l) as [->|Ne]; [rewrite N|rewrite E by auto]; repeat split. }
  assert (forall y k, pos (h' y) k = pos (h y) k) as P0.
  { intros y k. unfold TcModel.pos, meta_of. destruct (S0 y) as (_ & _ & -> & _). auto. }
  assert (jv (jb (h l)) = None) as Jn by now rewrite Jl.
  assert (f <= f) as G0 by lia.
  assert (forall y, y < f -> y <> l -> h' y = h y) as G1 by auto.
  assert (l < f -> lvl (h' l) = lvl (h l) /\ own (h' l) = own (h l) /\ fz (h' l) = fz (h l)
    /\ jv (jb (h l)) = None /\ jv (jb (h' l)) = None /\ (forall y, ~ held h y l) /\ Fz h' l /\ (K -> live l)) as G2.
  { intros _. rewrite N. cbn. repeat split; auto.
    - intros y. now apply open_held.
    - unfold Fz. rewrite N. cbn. lia. }
  assert (forall y, f <= y < f -> jv (jb (h' y)) = None /\ Fz h' y) as G3 by lia.
  assert (forall y o c om lo hi k, y < f -> jv (jb (h y)) = Some (o, c, om, lo, hi) -> over (h y) = false ->
    on k c -> On h' r k c) as G4.
  { intros y o c om lo hi k _ _ _ Q. now apply O1. }
  assert (forall u, u < f -> ~ live u -> ~ Live h' r u) as G5.
  { intros u _ A B. now apply A, Lv. }
  assert (forall k, {k = k0} + {k <> k0}) as Kd.
  { intros k. destruct (leb k k0) eqn:A, (leb k0 k) eqn:B; [left; now apply (t_anti _ HO)|right|right|right];
      intros ->; rewrite (leb_refl leb HO) in *; congruence. }
  constructor.
  - intros x Hx. destruct (Nat.eq_dec x l) as [->|Ne].
    + destruct W as [W1 W2 W3 W4 W5 W6 W7 W8 W9 W10 W11].
      constructor; rewrite N; cbn; auto.
      * rewrite Cl, Ul. intros c [].
      * rewrite Jl. exact Logic.I.
    + eapply (g_wfo h h' f f r lg HI l); eauto.
  - intros n' R. destruct (S0 n') as (-> & _ & _ & _ & _ & -> & _). now apply (h_root _ _ _ _ _ HI).
  - intros k1 k2 u v w' H1 N1 H2 N2. rewrite O1 in H1, H2. rewrite Nx in N1, N2. eapply (h_tree _ _ _ _ _ HI); eauto.
  - intros x s L Hs Wl. rewrite Lv in L. destruct (S0 x) as (_ & _ & Ec & _ & _ & _ & Ew). rewrite Ec in Hs. rewrite Ew in Wl.
    apply O1. eapply (h_sep _ _ _ _ _ HI); eauto.
  - intros x o c0 m lo hi Hx Jx I0 L Wl. rewrite Lv in L. destruct (S0 x) as (_ & _ & _ & _ & Ej & _ & Ew).
    rewrite Ej in Jx, I0. rewrite Ew in Wl. apply O1. eapply (h_mid _ _ _ _ _ HI); eauto.
  - intros x L. rewrite Lv in L. destruct (h_wu _ _ _ _ _ HI x L) as (k & A & B & C). exists k.
    rewrite O1, P0. destruct (S0 x) as (_ & _ & _ & _ & -> & _). auto.
  - intros x k L Hs Wl. rewrite Lv in L. destruct (S0 x) as (_ & _ & _ & _ & _ & _ & Ew). rewrite Ew in Wl. apply O1.
    destruct (Nat.eq_dec x l) as [->|Ne].
    + rewrite N in Hs. cbn in Hs. destruct (Hin k Hs) as [->|Hs']; auto. eapply (h_ent _ _ _ _ _ HI); eauto.
    + rewrite E in Hs by auto. eapply (h_ent _ _ _ _ _ HI); eauto.
  - intros k x H. rewrite O1 in H. destruct (S0 x) as (_ & _ & _ & _ & _ & _ & ->). now apply (h_wl _ _ _ _ _ HI).
  - intros k x H Lx. rewrite O1 in H. destruct (S0 x) as (El & _). rewrite El in Lx.
    pose proof (h_abs1 _ _ _ _ _ HI k x H Lx) as A.
    destruct (Kd k) as [->|Nk].
    + rewrite (on_uniq leb h f r lg HI k0 x H l Ho ltac:(lia)). rewrite N. exact H0.
    + destruct (Hk k Nk) as [B C]. rewrite C, <- A. destruct (Nat.eq_dec x l) as [->|Ne]; [rewrite N|rewrite E by auto]; auto.
  - intros k A. destruct (Kd k) as [->|Nk].
    + exists l. rewrite O1, N. auto.
    + destruct (Hk k Nk) as [_ C]. rewrite C in A. destruct (h_abs2 _ _ _ _ _ HI k A) as (x & Hx & Lx). exists x.
      rewrite O1. destruct (S0 x) as (-> & _). auto.
  - intros k u z H Hz O. rewrite O1 in H. rewrite Nx in Hz.
    destruct (S0 u) as (_ & _ & _ & _ & -> & -> & ->). destruct (S0 z) as (_ & _ & _ & _ & _ & Eo & Ew).
    rewrite Eo in O. rewrite Ew. eapply (h_over _ _ _ _ _ HI); eauto.
  - intros x Hx A O. rewrite Lv. destruct (S0 x) as (_ & _ & _ & -> & Ej & Eo & _). rewrite Ej in A. rewrite Eo in O.
    now apply (h_act _ _ _ _ _ HI x Hx).
  - intros x o c0 om lo hi Hx Jx. eapply (g_hld h h' f f r lg HI l); eauto.
  - intros x Hx. eapply (g_fz h h' f f r lg HI l); eauto.
  - intros x o c0 om lo hi Hx Jx O. eapply (g_job h h' f f r r lg HI l); eauto.
Qed.
End grow.
