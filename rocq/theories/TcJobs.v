(** Steps that take and release locks, commit and roll back keep the invariant. *)
From Coq Require Import List Arith Bool Lia.
From Verif Require Import TcModel TcRoute TcSpec TcInv TcTree TcFrame TcKeep.
Import ListNotations.

Ltac ud := unfold upd in *;
  repeat match goal with
  | |- context [Nat.eqb ?a ?b] => destruct (Nat.eqb_spec a b); subst; cbn in *; auto; try lia; try tauto; try congruence
  | H : context [Nat.eqb ?a ?b] |- _ => destruct (Nat.eqb_spec a b); subst; cbn in *; auto; try lia; try tauto; try congruence
  end.

Section jobs.
Context {K V : Type} (leb : K -> K -> bool) (HO : tord leb).
Notation heap := (nat -> obj K V).
Notation pos := (pos leb).
Notation nxt := (nxt leb).
Notation On := (On leb).
Notation Live := (Live leb).
Notation wlt := (wlt leb).
Notation Job := (Job leb).
Notation HInv := (HInv leb).
Context (h : heap) (f : nat) (r : option nat) (lg : list (ev K V)) (HI : HInv h f r lg).
Notation "'on' k x" := (On h r k x) (at level 10, k at level 9, x at level 9).
Notation live := (Live h r).

Lemma jv_lvl y t : y < f -> jv (jb (h y)) = Some t -> lvl (h y) <> 0.
Proof.
  intros Hy J E. destruct (w_leaf _ _ _ _ (h_wf _ _ _ _ _ HI y Hy) E) as (_ & _ & J'). now rewrite J' in J.
Qed.
Lemma on_inv k x : on k x -> r = Some x \/ exists u, on k u /\ nxt h u k = Some x.
Proof. destruct 1; eauto. Qed.
Lemma held_nofull y q : held h y q -> lvl (h q) <> 0 -> ~ nofull h q.
Proof. unfold held, nofull. destruct (lvl (h q)); [tauto|]. now intros (? & ? & ? & ? & ? & ? & ->). Qed.
Lemma child_full y o q om lo hi : y < f -> jv (jb (h y)) = Some (o, q, om, lo, hi) -> lvl (h q) <> 0 -> ~ nofull h q.
Proof. intros Hy J. apply (held_nofull y). eapply l_held, (h_hld _ _ _ _ _ HI); eauto. Qed.
Lemma same_objs (a b : obj K V) : lvl a = lvl b -> ents a = ents b -> cells a = cells b -> ub a = ub b -> same a b.
Proof. repeat split; auto. Qed.

Lemma step_jb (h' : heap) n : n < f -> lvl (h n) <> 0 -> nofull h n ->
  jv (jb (h n)) = None -> jv (jb (h' n)) = None ->
  (forall y, y < f -> same (h' y) (h y) /\ ret (h' y) = ret (h y) /\ nsl (h' y) = nsl (h y)
    /\ over (h' y) = over (h y) /\ wlo (h' y) = wlo (h y) /\ own (h' y) = own (h y)) ->
  jbok h h' f n ->
  (forall y, y < f -> y <> n -> jb (h' y) = jb (h y) \/ (jb (h y) = NewLk /\ jb (h' y) = Idle)) ->
  (forall y, y < f -> over (h y) = true -> lvl (h y) = 0 -> fz (h' y) = fz (h y)) ->
  (forall y z, y < f -> y <> n -> own (h z) = y ->
    fz (h z) = Hold y \/ (fz (h z) = Open /\ ~ live z) -> fz (h' z) = fz (h z)) ->
  (forall y z, y <> n -> fz (h z) = Orig y -> fz (h' z) = fz (h z)) ->
  Fz h' n ->
  (active (jb (h' n)) = true -> over (h n) = false -> live n \/ ub (h n) = URet) ->
  HInv h' f r lg.
Proof.
  intros Hn Ln Nf J0 J1 Hs Hok Hj Hz0 Hz1 Hz3 Hz Ha.
  assert (forall y o q om lo hi, y < f -> jv (jb (h y)) = Some (o, q, om, lo, hi) ->
    jb (h' q) = jb (h q) /\ q <> n) as Hc.
  { intros y o q om lo hi Hy J. assert (q <> n) as Ne.
    { intros ->. now apply (child_full _ _ _ _ _ _ Hy J). }
    split; auto. destruct (jv_c_lt leb h f r lg HI _ _ _ _ _ _ Hy J) as [Hq _].
    destruct (Hj q Hq Ne) as [?|[E _]]; auto. exfalso.
    destruct (Nat.eq_dec (lvl (h q)) 0) as [L|L].
    - destruct (w_leaf _ _ _ _ (h_wf _ _ _ _ _ HI q Hq) L) as (_ & _ & E'). congruence.
    - apply (child_full _ _ _ _ _ _ Hy J L). unfold nofull. now rewrite E. }
  apply (keep2 leb HO h h' f f r lg HI n); auto; try congruence; try (intros; lia).
  - intros y Hy. destruct (Nat.eq_dec y n) as [->|Ne]; auto. destruct (Hj y Hy Ne) as [?|[E1 E2]]; auto.
    right. unfold jbok. rewrite E1, E2. split.
    + intros L. destruct (w_leaf _ _ _ _ (h_wf _ _ _ _ _ HI y Hy) L) as (_ & _ & E'). congruence.
    + split; [|repeat split; congruence].
      intros O. destruct (Nat.eq_dec (lvl (h y)) 0) as [L|L].
      * destruct (w_leaf _ _ _ _ (h_wf _ _ _ _ _ HI y Hy) L) as (_ & _ & E'). congruence.
      * destruct (w_over1 _ _ _ _ (h_wf _ _ _ _ _ HI y Hy) O L) as [_ X]. now rewrite E1 in X.
  - intros y c lo hi lns i Hy J _ L Hh.
    pose proof (w_commit _ _ _ _ (h_wf _ _ _ _ _ HI y Hy)) as W. rewrite J in W.
    destruct W as [_ W]. destruct (W L) as (Hc1 & Lc & _ & _).
    pose proof (held_nofull _ _ Hh Lc) as Nc. destruct (Nat.eq_dec c n) as [->|Ne]; [tauto|].
    destruct (Hj c Hc1 Ne) as [?|[E _]]; auto. destruct Nc. unfold nofull. now rewrite E.
  - intros y Hy Ne. left. destruct (Hj y Hy Ne) as [->|[-> ->]]; auto.
  - intros y o q om lo hi Hy Ne J _. eapply Hc; eauto.
  - intros y z Hy _ Ne _ A B. now apply (Hz1 y z).
  - intros y z _ Ne A. now apply (Hz3 y z).
  - intros y Hy Ne. destruct (Hj y Hy Ne) as [?|[E1 E2]]; auto. right. unfold Fz. now rewrite E2.
  - intros k z Hk Hz2 O. destruct (h_over _ _ _ _ _ HI _ _ _ Hk Hz2 O) as (? & ? & ? & ? & J & _). congruence.
Qed.

Lemma idle_noover n : n < f -> lvl (h n) <> 0 ->
  match jb (h n) with Full _ _ _ _ _ _ _ | Commit _ _ _ _ _ | Poison => False | _ => True end -> over (h n) = false.
Proof. apply (noover leb h f r lg HI). Qed.

Lemma step_lock n : n < f -> lvl (h n) <> 0 -> jb (h n) = Idle -> live n \/ ub (h n) = URet ->
  HInv (upd h n (set_jb Locked (h n))) f r lg.
Proof.
  intros Hn Ln J Hl. pose proof (idle_noover n Hn Ln) as O. rewrite J in O. specialize (O Logic.I).
  apply (step_jb _ n); auto; try (now rewrite J); try (unfold nofull; now rewrite J); try (intros; unfold Fz; ud; fail).
  - intros y Hy. ud; repeat split; auto.
  - unfold jbok. rewrite J. unfold upd. rewrite Nat.eqb_refl. cbn. repeat split; auto; congruence.
Qed.
Lemma step_unlock n : n < f -> lvl (h n) <> 0 -> jb (h n) = Locked ->
  HInv (upd h n (set_jb Idle (h n))) f r lg.
Proof.
  intros Hn Ln J. pose proof (idle_noover n Hn Ln) as O. rewrite J in O. specialize (O Logic.I).
  apply (step_jb _ n); auto; try (now rewrite J); try (unfold nofull; now rewrite J); try (intros; unfold Fz; ud; fail).
  - intros y Hy. ud; repeat split; auto.
  - unfold jbok. rewrite J. unfold upd. rewrite Nat.eqb_refl. cbn. repeat split; auto; congruence.
Qed.

(** Commit of a leaf node. *)
Lemma step_cthaw n c low high lns i z : n < f -> lvl (h n) = 1 -> jb (h n) = Commit c low high lns i ->
  i = 0 /\ z = low \/ i = 1 /\ z = high ->
  let h1 := upd h z (set_fz Open (h z)) in
  HInv (upd h1 n (set_jb (Commit c low high lns (S i)) (h1 n))) f r lg.
Proof.
  intros Hn Ln J Hx h1. assert (lvl (h n) <> 0) as Ln0 by lia.
  pose proof (h_fz _ _ _ _ _ HI n Hn Ln) as F. rewrite J in F. destruct F as (F1 & F2 & F3 & F4 & F5).
  pose proof (w_commit _ _ _ _ (h_wf _ _ _ _ _ HI n Hn)) as W. rewrite J in W. destruct W as [(W1 & W2 & W3) _].
  assert (fz (h z) = Hold n /\ z < f /\ own (h z) = n) as (Fz1 & Hz & Oz) by (destruct Hx as [[-> ->]|[-> ->]]; auto).
  subst h1. apply (step_jb _ n); auto; try (now rewrite J); try (unfold nofull; now rewrite J); try (ud; fail).
  - intros y Hy. ud; repeat split; auto.
  - unfold jbok. rewrite J. unfold upd. rewrite Nat.eqb_refl. cbn. repeat split; auto; try congruence; lia.
  - intros. ud.
  - intros y Hy O L. destruct (Nat.eq_dec y z) as [->|Ne]; [|ud].
    destruct (w_over0 _ _ _ _ (h_wf _ _ _ _ _ HI z Hy) O L). congruence.
  - intros y q Hy Ne Oq D. assert (q <> z) by (intros ->; congruence). ud.
  - intros y q Ne D. assert (q <> z) by (intros ->; congruence). ud.
  - unfold Fz, upd. rewrite Nat.eqb_refl. cbn. intros _. 
    destruct Hx as [[-> ->]|[-> ->]].
    + repeat split; auto; intros; ud.
    + repeat split; auto; intros; ud.
Qed.
Lemma step_cfree n c low high lns i o (h1 : heap) : n < f -> lvl (h n) = 1 ->
  jb (h n) = Commit c low high lns i -> 2 <= i ->
  ((exists z, jb (h z) = NewLk /\ h1 = upd h z (set_jb Idle (h z))) \/ h1 = h) ->
  o = Poison \/ (exists j, 2 <= j /\ o = Commit c low high lns j) ->
  HInv (upd h1 n (set_jb o (h1 n))) f r lg.
Proof.
  intros Hn Ln J Hi H1 Ho. assert (lvl (h n) <> 0) as Ln0 by lia.
  pose proof (h_fz _ _ _ _ _ HI n Hn Ln) as F. rewrite J in F. destruct F as (F1 & F2 & F3 & F4 & F5).
  pose proof (w_commit _ _ _ _ (h_wf _ _ _ _ _ HI n Hn)) as W. rewrite J in W. destruct W as [(W1 & W2 & W3) _].
  assert (h1 n = h n) as E1. { destruct H1 as [(z & E & ->)| ->]; auto. ud. }
  assert (forall y, same (h1 y) (h y) /\ ret (h1 y) = ret (h y) /\ nsl (h1 y) = nsl (h y)
    /\ over (h1 y) = over (h y) /\ wlo (h1 y) = wlo (h y) /\ own (h1 y) = own (h y) /\ fz (h1 y) = fz (h y)) as S1.
  { intros y. destruct H1 as [(z & E & ->)| ->]; [|repeat split; auto]. ud; repeat split; auto. }
  rewrite E1. apply (step_jb _ n); auto; try (now rewrite J); try (unfold nofull; now rewrite J).
  - unfold upd. rewrite Nat.eqb_refl. destruct Ho as [->|(j & _ & ->)]; auto.
  - intros y Hy. pose proof (S1 y) as X. ud; repeat split; auto; apply X.
  - unfold jbok. unfold upd. rewrite J, Nat.eqb_refl. cbn.
    destruct Ho as [->|(j & _ & ->)]; repeat split; auto; try congruence; lia.
  - intros y Hy Ne. unfold upd at 1 2. destruct (Nat.eqb_spec y n); [tauto|].
    destruct H1 as [(z & E & ->)| ->]; auto. ud.
  - intros y _ _ _. pose proof (S1 y) as X. ud; apply X.
  - intros _ y _ _ _ _. pose proof (S1 y) as X. ud; apply X.
  - intros _ y _ _. pose proof (S1 y) as X. ud; apply X.
  - unfold Fz. unfold upd at 1 2. rewrite Nat.eqb_refl. cbn. intros _.
    destruct Ho as [->|(j & Hj & ->)]; auto. unfold upd.
    destruct (S1 low) as (_ & _ & _ & _ & _ & A & _). destruct (S1 high) as (_ & _ & _ & _ & _ & B & _).
    repeat split; auto; try lia.
    + destruct (Nat.eqb_spec low n) as [E|_]; cbn; congruence.
    + destruct (Nat.eqb_spec high n) as [E|_]; cbn; congruence.
  - unfold upd. rewrite Nat.eqb_refl. destruct Ho as [->|(j & _ & ->)]; cbn; congruence.
Qed.

(** Commit of an internal node: its child is committed next. *)
Lemma step_commit2 n c low high lns i o d m lo hi lns' : n < f -> lvl (h n) <> 1 -> lvl (h n) <> 0 ->
  jb (h n) = Commit c low high lns i -> jb (h c) = Full o d m lo hi (Some n) lns' ->
  let h1 := upd h n (set_jb Poison (h n)) in
  HInv (upd h1 c (set_jb (Commit d lo hi lns' 0) (h1 c))) f r lg.
Proof.
  intros Hn Ln Ln0 J Jc h1.
  pose proof (w_commit _ _ _ _ (h_wf _ _ _ _ _ HI n Hn)) as W. rewrite J in W.
  destruct W as [(W1 & W2 & W3) W4]. destruct (W4 Ln) as (Hc & Lc & Hh & Oc).
  assert (jv (jb (h c)) = Some (o, d, Some m, lo, hi)) as Jv by now rewrite Jc.
  pose proof (h_hld _ _ _ _ _ HI _ _ _ _ _ _ Hc Jv) as Ld.
  destruct (jv_c_lt leb h f r lg HI _ _ _ _ _ _ Hc Jv) as [Hd Lcd].
  assert (n <> c) as Nnc by (intros ->; congruence).
  assert (d <> c) as Ndc by (intros ->; lia).
  assert (d <> n) as Ndn.
  { intros ->. apply (child_full _ _ _ _ _ _ Hc Jv); auto. unfold nofull. now rewrite J. }
  assert (~ live c) as Nl.
  { intros [k Hk]. assert (exists u, on k u /\ nxt h u k = Some c) as (u & Hu & Hz).
    { destruct (on_inv _ _ Hk) as [Hr|?]; auto.
      destruct (h_root _ _ _ _ _ HI c Hr) as (_ & _ & Oc'). congruence. }
    destruct (h_over _ _ _ _ _ HI _ _ _ Hu Hz Oc) as (o1 & om1 & lo1 & hi1 & J1 & _).
    assert (u < f) as Huf by (eapply on_lt; eauto).
    pose proof (l_held _ _ _ _ _ _ _ _ _ (h_hld _ _ _ _ _ HI _ _ _ _ _ _ Huf J1)) as Hh'.
    assert (u = n) by (eapply (held_uniq h u n c); eauto). subst. now rewrite J in J1. }
  assert (forall y, y <> n -> y <> c -> upd h1 c (set_jb (Commit d lo hi lns' 0) (h1 c)) y = h y) as Eo.
  { intros y A B. unfold h1. ud. }
  assert (upd h1 c (set_jb (Commit d lo hi lns' 0) (h1 c)) n = set_jb Poison (h n)) as En by (unfold h1; ud).
  assert (upd h1 c (set_jb (Commit d lo hi lns' 0) (h1 c)) c = set_jb (Commit d lo hi lns' 0) (h c)) as Ec.
  { unfold h1, upd. rewrite Nat.eqb_refl. destruct (Nat.eqb_spec c n); [congruence|auto]. }
  set (h' := upd h1 c (set_jb (Commit d lo hi lns' 0) (h1 c))) in *. clearbody h'. clear h1.
  assert (forall y, same (h' y) (h y) /\ ret (h' y) = ret (h y) /\ nsl (h' y) = nsl (h y)
    /\ over (h' y) = over (h y) /\ wlo (h' y) = wlo (h y) /\ own (h' y) = own (h y) /\ fz (h' y) = fz (h y)) as Hs.
  { intros y. destruct (Nat.eq_dec y n) as [->|A]; [rewrite En; repeat split; auto|].
    destruct (Nat.eq_dec y c) as [->|B]; [rewrite Ec; repeat split; auto|]. rewrite Eo; repeat split; auto. }
  assert (forall y q, y <> n -> held h y q -> lvl (h q) <> 0 -> q <> n /\ q <> c) as Hq.
  { intros y q Ny Hy Lq. split; intros ->.
    - apply (held_nofull _ _ Hy Lq). unfold nofull. now rewrite J.
    - apply Ny. eapply held_uniq; eauto. }
  apply (keep2 leb HO h h' f f r lg HI n); auto; try (intros; lia).
  - intros y _. pose proof (Hs y). tauto.
  - intros y Hy. destruct (Nat.eq_dec y n) as [->|A].
    { right. unfold jbok. rewrite En. cbn. repeat split; auto; congruence. }
    destruct (Nat.eq_dec y c) as [->|B]; [|left; now rewrite Eo].
    right. unfold jbok. rewrite Ec, Jc. cbn.
    split; auto. split; auto. split; [congruence|]. split; [congruence|].
    split; [split; [auto|split; [apply Ld|apply Ld]]|]. intros Lc1.
    split; auto. split; [lia|]. split; [|apply Ld; auto].
    pose proof (l_held _ _ _ _ _ _ _ _ _ Ld) as Hx. unfold held in *. now rewrite (Eo d).
  - intros y _ _ _. apply Hs.
  - intros y c1 lo1 hi1 lns1 i1 Hy J1 Ej L1 Hh1.
    pose proof (w_commit _ _ _ _ (h_wf _ _ _ _ _ HI y Hy)) as W. rewrite J1 in W.
    destruct W as [_ W]. destruct (W L1) as (Hc1 & Lc1 & _ & _).
    assert (y <> n) as Ny. { intros ->. rewrite En in Ej. cbn in Ej. congruence. }
    destruct (Hq y c1 Ny Hh1 Lc1). now rewrite Eo.
  - intros y Hy Ne. destruct (Nat.eq_dec y c) as [->|B]; [right; rewrite Ec; auto|left].
    rewrite Eo; auto.
  - intros y o1 q om lo1 hi1 Hy Ne J1 J2.
    assert (y <> c) as Nyc. { intros ->. rewrite Ec in J2. cbn in J2. congruence. }
    assert (q <> n /\ q <> c) as [A B].
    { destruct (Nat.eq_dec (lvl (h q)) 0) as [Lq|Lq]; [split; intros ->; tauto|].
      apply (Hq y q Ne); auto. eapply l_held, (h_hld _ _ _ _ _ HI); eauto. }
    rewrite Eo; auto.
  - intros y z _ _ _ _ _ _. apply Hs.
  - intros y z _ _ _. apply Hs.
  - intros y Hy Ne. destruct (Nat.eq_dec y c) as [->|B]; [right|left; now rewrite Eo].
    unfold Fz. rewrite Ec. cbn. intros L1.
    pose proof (h_fz _ _ _ _ _ HI c Hc L1) as F. rewrite Jc in F. destruct F as [Fa Fb].
    destruct (Hs lo) as (_ & _ & _ & _ & _ & -> & ->). destruct (Hs hi) as (_ & _ & _ & _ & _ & -> & ->).
    split; [apply Ld; congruence|]. repeat split; auto; apply Ld.
  - intros _ _. now rewrite En.
  - intros o1 c1 om lo1 hi1 _ E. rewrite En in E. cbn in E. congruence.
  - intros o1 c1 om lo1 hi1 _ E. rewrite En in E. cbn in E. congruence.
  - intros o1 c1 om lo1 hi1 _ E. rewrite En in E. cbn in E. congruence.
  - intros o1 c1 om lo1 hi1 _ E. rewrite En in E. cbn in E. congruence.
  - intros k z Hk Hz O. destruct (h_over _ _ _ _ _ HI _ _ _ Hk Hz O) as (? & ? & ? & ? & J1 & _).
    rewrite J in J1. cbn in J1. congruence.
  - rewrite En. cbn. congruence.
Qed.

(** The job of a node goes on, and leaves of the job are frozen or thawed. *)
Lemma step_jv (h' : heap) n : n < f -> lvl (h n) <> 0 -> nofull h n -> over (h n) = false ->
  jv (jb (h' n)) = jv (jb (h n)) -> isIns (jb (h' n)) = isIns (jb (h n)) -> active (jb (h' n)) = active (jb (h n)) ->
  jv (jb (h n)) <> None -> jb (h' n) <> jb (h n) ->
  (forall y, y < f -> same (h' y) (h y) /\ ret (h' y) = ret (h y) /\ nsl (h' y) = nsl (h y)
    /\ over (h' y) = over (h y) /\ wlo (h' y) = wlo (h y) /\ own (h' y) = own (h y)) ->
  (forall y, y < f -> y <> n -> jb (h' y) = jb (h y)) ->
  (forall z, fz (h' z) = fz (h z) \/ own (h z) = n /\ forall y, fz (h z) <> Orig y) ->
  Fz h' n ->
  HInv h' f r lg.
Proof.
  intros Hn Ln Nf On0 J1 J2 J3 Jn Jd Hs Hj Hz HF.
  assert (forall y q, held h y q -> lvl (h q) <> 0 -> q <> n) as Hq.
  { intros y q Hy Lq ->. now apply (held_nofull _ _ Hy Lq). }
  apply (keep2 leb HO h h' f f r lg HI f); auto; try (intros; lia).
  - intros y Hy. destruct (Nat.eq_dec y n) as [->|Ne]; auto. right.
    unfold jbok. split; auto. split; [congruence|].
    split; [intros j E; rewrite E in Jn; now apply Jn|].
    split; [intros j E; rewrite E in J1; cbn in J1; congruence|].
    destruct (jb (h' n)) eqn:E; auto. cbn in J1. congruence.
  - intros y Hy O L. destruct (Hz y) as [?|[_ N]]; auto.
    destruct (w_over0 _ _ _ _ (h_wf _ _ _ _ _ HI y Hy) O L) as [q E]. now destruct (N q).
  - intros y c lo hi lns i Hy J _ L Hh.
    pose proof (w_commit _ _ _ _ (h_wf _ _ _ _ _ HI y Hy)) as W. rewrite J in W.
    destruct W as [_ W]. destruct (W L) as (Hc1 & Lc1 & _ & _). apply Hj; auto. eapply Hq; eauto.
  - intros y Hy _. left. destruct (Nat.eq_dec y n) as [->|Ne]; auto. rewrite Hj; auto.
  - intros y o q om lo hi Hy _ J _. destruct (jv_c_lt leb h f r lg HI _ _ _ _ _ _ Hy J) as [Hqf _].
    split; [|lia]. destruct (Nat.eq_dec q n) as [->|Ne]; auto. exfalso.
    apply (child_full _ _ _ _ _ _ Hy J); auto.
  - intros y z Hy _ _ Ej Oz D. destruct (Hz z) as [?|[E _]]; auto. assert (y = n) as Ey by congruence. rewrite Ey in Ej. tauto.
  - intros y z _ _ D. destruct (Hz z) as [?|[_ N]]; auto. now destruct (N y).
  - intros y Hy _. destruct (Nat.eq_dec y n) as [->|Ne]; auto.
  - intros k z Hk. assert (f < f) by (eapply on_lt; eauto). lia.
Qed.

Lemma step_full n o c m low high : n < f -> jb (h n) = Split o c m low high ->
  let h1 := if lvl (h n) =? 1 then upd h high (set_fz (Hold n) (h high)) else h in
  HInv (upd h1 n (set_jb (Full o c m low high None None) (h1 n))) f r lg.
Proof.
  intros Hn J h1. assert (jv (jb (h n)) = Some (o, c, Some m, low, high)) as Jv by now rewrite J.
  pose proof (jv_lvl n _ Hn Jv) as Ln.
  pose proof (h_hld _ _ _ _ _ HI _ _ _ _ _ _ Hn Jv) as Ld.
  pose proof (l_ownhi _ _ _ _ _ _ _ _ _ Ld) as Oh.
  assert (low <> high) as Nlh by (apply Ld; congruence).
  pose proof (idle_noover n Hn Ln) as O. rewrite J in O. specialize (O Logic.I).
  pose proof (h_fz _ _ _ _ _ HI n Hn) as F. unfold Fz in F. rewrite J in F.
  assert (high <> n) as Nhn. { intros ->. pose proof (l_lvhi _ _ _ _ _ _ _ _ _ Ld).
    destruct (jv_c_lt leb h f r lg HI _ _ _ _ _ _ Hn Jv). lia. }
  assert (h1 n = h n) as E1. { unfold h1. destruct (lvl (h n) =? 1); auto. ud. }
  assert (forall y, jb (h1 y) = jb (h y)) as E2. { intros y. unfold h1. destruct (lvl (h n) =? 1); auto. ud. }
  assert (forall y, same (h1 y) (h y) /\ ret (h1 y) = ret (h y) /\ nsl (h1 y) = nsl (h y)
    /\ over (h1 y) = over (h y) /\ wlo (h1 y) = wlo (h y) /\ own (h1 y) = own (h y)) as S1.
  { intros y. unfold h1. destruct (lvl (h n) =? 1); [|repeat split; auto]. ud; repeat split; auto. }
  rewrite E1. apply (step_jv _ n); auto; try (unfold nofull; now rewrite J); try (unfold upd; rewrite Nat.eqb_refl, J; cbn; congruence).
  - intros y Hy. pose proof (S1 y) as X. ud; repeat split; auto; apply X.
  - intros y Hy Ne. unfold upd at 1. destruct (Nat.eqb_spec y n); [tauto|auto].
  - intros z. unfold upd at 1. destruct (Nat.eqb_spec z n) as [->|_]; auto.
    unfold h1. destruct (Nat.eqb_spec (lvl (h n)) 1) as [L1|]; auto.
    unfold upd. destruct (Nat.eqb_spec z high) as [->|_]; auto. right. split; auto.
    intros y. destruct (F L1). congruence.
  - unfold Fz. unfold upd at 1 2. rewrite Nat.eqb_refl. cbn. intros L1.
    specialize (F L1). assert (low <> n) as Nln. { intros ->. pose proof (l_lvlo _ _ _ _ _ _ _ _ _ Ld).
    destruct (jv_c_lt leb h f r lg HI _ _ _ _ _ _ Hn Jv). lia. }
    unfold h1. rewrite L1, Nat.eqb_refl. unfold upd.
    destruct (Nat.eqb_spec low n); [tauto|]. destruct (Nat.eqb_spec high n); [tauto|].
    destruct (Nat.eqb_spec low high); [tauto|]. rewrite Nat.eqb_refl. cbn. tauto.
Qed.
Lemma step_thaw n o c m low high : n < f -> lvl (h n) = 1 -> jb (h n) = Ins o c m low high false ->
  let h1 := upd h low (set_fz Open (h low)) in
  HInv (upd h1 n (set_jb (Ins o c m low high true) (h1 n))) f r lg.
Proof.
  intros Hn L1 J h1. assert (jv (jb (h n)) = Some (o, c, Some m, low, high)) as Jv by now rewrite J.
  pose proof (jv_lvl n _ Hn Jv) as Ln.
  pose proof (h_hld _ _ _ _ _ HI _ _ _ _ _ _ Hn Jv) as Ld.
  pose proof (l_ownlo _ _ _ _ _ _ _ _ _ Ld) as Oh.
  assert (low <> high) as Nlh by (apply Ld; congruence).
  pose proof (idle_noover n Hn Ln) as O. rewrite J in O. specialize (O Logic.I).
  pose proof (h_fz _ _ _ _ _ HI n Hn L1) as F. rewrite J in F. destruct F as [Fa Fb]. specialize (Fa eq_refl).
  destruct (jv_c_lt leb h f r lg HI _ _ _ _ _ _ Hn Jv) as [_ Lx].
  assert (high <> n) as Nhn. { intros ->. pose proof (l_lvhi _ _ _ _ _ _ _ _ _ Ld). lia. }
  assert (low <> n) as Nln. { intros ->. pose proof (l_lvlo _ _ _ _ _ _ _ _ _ Ld). lia. }
  assert (h1 n = h n) as E1. { unfold h1. ud. }
  rewrite E1. apply (step_jv _ n); auto; try (unfold nofull; now rewrite J); try (unfold upd; rewrite Nat.eqb_refl, J; cbn; congruence).
  - intros y Hy. unfold h1. ud; repeat split; auto.
  - intros y Hy Ne. unfold h1. ud.
  - intros z. unfold upd at 1. destruct (Nat.eqb_spec z n) as [->|_]; auto.
    unfold h1, upd. destruct (Nat.eqb_spec z low) as [->|_]; auto. right. split; auto. congruence.
  - unfold Fz. unfold upd at 1 2. rewrite Nat.eqb_refl. cbn. intros _. split; [congruence|].
    unfold h1. ud.
Qed.

(** Roll back. *)
Lemma step_roll (h' : heap) n o c m low high lns : n < f -> jb (h n) = Full o c m low high None lns ->
  h' n = set_jb Locked (h n) ->
  (lvl (h n) = 1 -> (forall y, y <> n -> y <> c -> y <> low -> y <> high -> h' y = h y)
    /\ h' c = set_fz Open (h c) /\ h' low = set_fz Gone (h low) /\ h' high = set_fz Gone (h high)) ->
  (lvl (h n) <> 1 -> (forall y, y <> n -> y <> c -> h' y = h y)
    /\ exists o' c' m' low' high' lns', jb (h c) = Full o' c' m' low' high' (Some n) lns'
       /\ h' c = set_jb (Full o' c' m' low' high' None lns') (h c)) ->
  HInv h' f r lg.
Proof.
  intros Hn J En H1 H2. assert (jv (jb (h n)) = Some (o, c, Some m, low, high)) as Jv by now rewrite J.
  pose proof (jv_lvl n _ Hn Jv) as Ln.
  pose proof (h_hld _ _ _ _ _ HI _ _ _ _ _ _ Hn Jv) as Ld.
  pose proof (l_ownlo _ _ _ _ _ _ _ _ _ Ld) as Ol. pose proof (l_ownhi _ _ _ _ _ _ _ _ _ Ld) as Oh.
  pose proof (l_held _ _ _ _ _ _ _ _ _ Ld) as Hh.
  destruct (jv_c_lt leb h f r lg HI _ _ _ _ _ _ Hn Jv) as [Hc Lc].
  assert (c <> n) as Ncn by (intros ->; lia).
  assert (over (h n) = false) as O.
  { destruct (over (h n)) eqn:E; auto. destruct (w_over1 _ _ _ _ (h_wf _ _ _ _ _ HI n Hn) E Ln) as [_ X].
    now rewrite J in X. }
  assert (over (h c) = false) as Oc by (eapply (job_c_over leb HO h f r lg HI n); eauto; now rewrite J).
  assert (lvl (h n) = 1 -> fz (h c) = Orig n /\ fz (h low) = Hold n /\ fz (h high) = Hold n) as F.
  { intros L1. split. { unfold held in Hh. now replace (lvl (h c)) with 0 in Hh by lia. }
    pose proof (h_fz _ _ _ _ _ HI n Hn L1) as F. now rewrite J in F. }
  assert (forall y, (h' y = h y \/ y = n /\ h' y = set_jb Locked (h y))
    \/ (lvl (h n) <> 1 /\ y = c /\ exists o' c' m' low' high' lns', jb (h c) = Full o' c' m' low' high' (Some n) lns'
       /\ h' c = set_jb (Full o' c' m' low' high' None lns') (h c))
    \/ (lvl (h n) = 1 /\ (y = c \/ own (h y) = n) /\ exists q, h' y = set_fz q (h y) /\
          (fz (h y) = Hold n \/ fz (h y) = Orig n /\ y = c))) as Hcs.
  { intros y. destruct (Nat.eq_dec y n) as [->|Ne]; [auto|].
    destruct (Nat.eq_dec (lvl (h n)) 1) as [L1|L1].
    - destruct (H1 L1) as (A1 & A2 & A3 & A4). destruct (F L1) as (F1 & F2 & F3).
      destruct (Nat.eq_dec y c) as [->|N1]; [right; right; split; auto; split; auto; exists Open; auto|].
      destruct (Nat.eq_dec y low) as [->|N2]; [right; right; split; auto; split; auto; exists Gone; auto|].
      destruct (Nat.eq_dec y high) as [->|N3]; [right; right; split; auto; split; auto; exists Gone; auto|].
      auto.
    - destruct (H2 L1) as (A1 & A2). destruct (Nat.eq_dec y c) as [->|N1]; [right; left; auto|].
      left. left. auto. }
  clear H1 H2.
  assert (forall y, same (h' y) (h y) /\ ret (h' y) = ret (h y) /\ nsl (h' y) = nsl (h y)
    /\ over (h' y) = over (h y) /\ wlo (h' y) = wlo (h y) /\ own (h' y) = own (h y)) as Hs.
  { intros y. destruct (Hcs y) as [[->|[_ ->]]|[(_ & -> & ? & ? & ? & ? & ? & ? & _ & ->)|(_ & _ & q & -> & _)]];
      repeat split; auto. }
  assert (forall y, y <> n -> y <> c \/ lvl (h n) = 1 -> jb (h' y) = jb (h y)) as Hj.
  { intros y Ne D. destruct (Hcs y) as [[->|[? _]]|[(? & ? & _)|(_ & _ & q & -> & _)]]; auto; tauto. }
  assert (forall y q, y <> n -> held h y q -> lvl (h q) <> 0 -> q <> n /\ q <> c) as Hq.
  { intros y q Ny Hy Lq. split; intros ->.
    - unfold held in Hy. destruct (lvl (h n)); [tauto|]. destruct Hy as (? & ? & ? & ? & ? & ? & E). congruence.
    - apply Ny. eapply held_uniq; eauto. }
  assert (jb (h' n) = Locked) as Jn by now rewrite En.
  apply (keep2 leb HO h h' f f r lg HI n); auto; try (intros; lia); try (intros; rewrite Jn in *; cbn in *; congruence).
  - intros y Hy. destruct (Nat.eq_dec y n) as [->|Ne].
    { right. unfold jbok. rewrite Jn, J. repeat split; auto; congruence. }
    destruct (Nat.eq_dec y c) as [->|Nc]; [|left; auto].
    destruct (Nat.eq_dec (lvl (h n)) 1) as [L1|L1]; [left; auto|right].
    destruct (Hcs c) as [[E|[? _]]|[(_ & _ & o1 & c1 & m1 & lo1 & hi1 & lns1 & E1 & E2)|(? & _)]]; try tauto.
    2:{ unfold jbok. rewrite E1, E2. cbn. repeat split; congruence || lia. }
    unfold jbok. rewrite E. rewrite Oc. 
    unfold held in Hh. destruct (lvl (h c)) eqn:El; [lia|]. destruct Hh as (? & ? & ? & ? & ? & ? & E').
    rewrite E'. repeat split; congruence.
  - intros y Hy Oy Ly. destruct (Hcs y) as [[->|[_ ->]]|[(_ & -> & ? & ? & ? & ? & ? & ? & _ & ->)|(_ & _ & q & _ & D)]]; auto.
    exfalso. destruct (w_over0 _ _ _ _ (h_wf _ _ _ _ _ HI y Hy) Oy Ly) as [w E].
    destruct D as [D|[D ->]]; congruence.
  - intros y c1 lo1 hi1 lns1 i1 Hy J1 Ej L1 Hh1.
    pose proof (w_commit _ _ _ _ (h_wf _ _ _ _ _ HI y Hy)) as W. rewrite J1 in W.
    destruct W as [_ W]. destruct (W L1) as (Hc1 & Lc1 & _ & _).
    assert (y <> n) as Ny. { intros ->. rewrite Jn in Ej. congruence. }
    destruct (Hq y c1 Ny Hh1 Lc1). auto.
  - intros y Hy Ne. left.
    destruct (Hcs y) as [[->|[? _]]|[(_ & -> & ? & ? & ? & ? & ? & ? & E1 & ->)|(_ & _ & q & -> & _)]]; auto; try tauto.
    cbn. rewrite E1. auto.
  - intros y o1 q om lo1 hi1 Hy Ne J1 J2.
    destruct (Nat.eq_dec (lvl (h q)) 0) as [Lq|Lq].
    { assert (q <> n) by (intros ->; tauto). split; auto. apply Hj; auto.
      destruct (Nat.eq_dec q c) as [->|]; auto. right. lia. }
    destruct (Hq y q Ne) as [A B]; auto. eapply l_held, (h_hld _ _ _ _ _ HI); eauto.
  - intros y z Hy _ Ne _ Oz D.
    destruct (Hcs z) as [[->|[_ ->]]|[(_ & -> & ? & ? & ? & ? & ? & ? & _ & ->)|(_ & _ & q & _ & D')]]; auto.
    exfalso. destruct D as [D|[D _]], D' as [D'|[D' _]]; congruence.
  - intros y z _ Ne D.
    destruct (Hcs z) as [[->|[_ ->]]|[(_ & -> & ? & ? & ? & ? & ? & ? & _ & ->)|(_ & _ & q & _ & D')]]; auto.
    exfalso. destruct D' as [D'|[D' _]]; congruence.
  - intros y Hy Ne.
    destruct (Hcs y) as [[->|[? _]]|[(L1 & -> & o1 & c1 & m1 & lo1 & hi1 & lns1 & E1 & E2)|(_ & _ & q & -> & _)]]; auto; try tauto.
    right. unfold Fz. rewrite E2. cbn. intros Lc1. pose proof (h_fz _ _ _ _ _ HI c Hc Lc1) as Fc. rewrite E1 in Fc.
    assert (jv (jb (h c)) = Some (o1, c1, Some m1, lo1, hi1)) as Jc by now rewrite E1.
    pose proof (h_hld _ _ _ _ _ HI _ _ _ _ _ _ Hc Jc) as Lc2.
    assert (forall z, fz (h z) = Hold c -> fz (h' z) = Hold c) as Ez.
    { intros z Ez. destruct (Hcs z) as [[->|[_ ->]]|[(_ & -> & ? & ? & ? & ? & ? & ? & _ & ->)|(? & _)]]; auto. lia. }
    destruct Fc. split; auto.
  - intros _ _. now rewrite Jn.
  - intros k z Hk Hz Oz. destruct (h_over _ _ _ _ _ HI _ _ _ Hk Hz Oz) as (? & ? & ? & ? & J1 & D).
    rewrite J in D. cbn in D. destruct D as [[D _]|[_ D]]; congruence.
  - intros _ _ _. apply (h_act _ _ _ _ _ HI n Hn); auto. now rewrite J.
Qed.
End jobs.
