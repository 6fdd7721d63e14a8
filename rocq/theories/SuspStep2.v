(** * Every step of a task preserves the invariant, continued *)

Require Import List Arith Bool Lia.
Import ListNotations.
Require Import Verif.SuspModel Verif.SuspSpec Verif.SuspFacts Verif.SuspFrame Verif.SuspStep.

Implicit Types (s : state) (k : task) (t a o i j p e q r g : nat).

Ltac nw Q := let W := fresh in intros ?o ?i [_ W]; rewrite Q in W; destruct W.
Ltac start s t H Q :=
  intros s' X;
  pose proof (v_ai s H) as HA; pose proof (v_ti s H t) as (T1 & T2 & T3);
  assert (Hd : at_ (tks s t) <> PDone) by congruence;
  unfold six in T2; rewrite Q in T2, T3.

(** Releasing one's own lock. *)
Lemma INV_unlock s s' t k' a i :
  INV s -> at_ (tks s t) <> PDone -> lk (arrs s a) i = Some t ->
  (forall t', tks s' t' = upd (tks s) t k' t') -> nt s' = nt s -> err s' = None ->
  na s' = na s -> clk s' = clk s -> cur s' = cur s -> arrs s' = arrs (set_lk s a i None) ->
  TI s' t k' ->
  (forall o j, works (tks s t) o j -> works k' o j) ->
  (closer s k' -> closer s (tks s t)) ->
  INV s'.
Proof.
  intros H Hd HL Ht Hnt He Hna Hc Hcu Ha HT HW HC.
  apply (INV_locks s s' t k'); auto.
  - lia.
  - intro b. rewrite Ha. destruct (set_lk_fields s a i None b) as (-> & -> & -> & -> & -> & -> & _ & -> & ->). auto 10.
  - intros b j X. rewrite Ha. destruct (set_lk_fields s a i None b) as (_ & _ & _ & _ & _ & _ & -> & _). exact X.
  - intros b j X Y. rewrite Ha in Y. destruct (set_lk_fields s a i None b) as (_ & _ & _ & _ & _ & _ & E & _).
    rewrite E in Y. congruence.
  - intros t' b j n X. rewrite Ha, set_lk_lk. destruct ((b =? a) && (j =? i)) eqn:Z; [|exact X].
    apply andb_true_iff in Z as [Z1 Z2]. apply Nat.eqb_eq in Z1, Z2. subst. congruence.
Qed.

(** Leaving the rehashing. *)
Lemma no_closer s t : INV s -> act s t (tks s t) -> forall t', ~ closer s (tks s t').
Proof.
  intros H (A & B & C) t' Y. destruct (closer_closing s t' H Y) as (C1 & C2 & C3 & _).
  assert (E : rf (tks s t') = rf (tks s t)) by congruence.
  assert (E' : old (tks s t') = old (tks s t)) by congruence. rewrite E' in C3. rewrite C3 in A. exact A.
Qed.

Lemma set_rh_fields s o q l b :
  ln (arrs (set_rh s o q l) b) = ln (arrs s b) /\ ad (arrs (set_rh s o q l) b) = ad (arrs s b) /\
  lnk (arrs (set_rh s o q l) b) = lnk (arrs s b) /\ par (arrs (set_rh s o q l) b) = par (arrs s b) /\
  rt (arrs (set_rh s o q l) b) = rt (arrs s b) /\ fr (arrs (set_rh s o q l) b) = fr (arrs s b) /\
  kl (arrs (set_rh s o q l) b) = kl (arrs s b) /\ lk (arrs (set_rh s o q l) b) = lk (arrs s b).
Proof.
  cbn. destruct (Nat.eq_dec b o) as [->|n]; [rewrite upd_eq|rewrite (upd_ne _ _ _ _ _ n)]; cbn; auto 10.
Qed.

Lemma set_rh_eq s o q l : pos (arrs (set_rh s o q l) o) = q /\ refs (arrs (set_rh s o q l) o) = l.
Proof. cbn. rewrite upd_eq. auto. Qed.

Lemma set_rh_ne s o q l b : b <> o -> arrs (set_rh s o q l) b = arrs s b.
Proof. intro n. cbn. now rewrite (upd_ne _ _ _ _ _ n). Qed.

Lemma INV_leave s s' t k' q :
  INV s -> at_ (tks s t) <> PDone -> act s t (tks s t) ->
  (forall t', tks s' t' = upd (tks s) t k' t') -> nt s' = nt s -> err s' = None ->
  na s' = na s -> clk s' = clk s -> cur s' = cur s ->
  arrs s' = arrs (set_rh s (old (tks s t)) q (drop_ref t (refs (arrs s (old (tks s t)))))) ->
  q <= pos (arrs s (old (tks s t))) ->
  (forall i, i < q -> works (tks s t) (old (tks s t)) i -> works k' (old (tks s t)) i) ->
  TI s' t k' -> INV s'.
Proof.
  intros H Hd HX Ht Hnt He Hna Hc Hcu Ha Hq HW HT.
  pose proof (v_ai s H) as HA. pose proof (no_closer s t H HX) as NC.
  set (o := old (tks s t)) in *. set (l := drop_ref t (refs (arrs s o))) in *.
  assert (FL : forall b, ln (arrs s' b) = ln (arrs s b) /\ ad (arrs s' b) = ad (arrs s b) /\
             lnk (arrs s' b) = lnk (arrs s b) /\ par (arrs s' b) = par (arrs s b) /\
             rt (arrs s' b) = rt (arrs s b) /\ fr (arrs s' b) = fr (arrs s b) /\
             kl (arrs s' b) = kl (arrs s b) /\ lk (arrs s' b) = lk (arrs s b)).
  { intro b. rewrite Ha. apply set_rh_fields. }
  apply (INV_master s s' t k'); auto.
  - lia.
  - apply (AI_locks s s' HA Hcu Hna).
    + intro x. destruct (FL x) as (A1 & A2 & A3 & A4 & A5 & A6 & _). auto 8.
    + intros x i Y. destruct (FL x) as (_ & _ & _ & _ & _ & _ & -> & _). exact Y.
    + intros x i Y. destruct (FL x) as (_ & _ & _ & _ & _ & _ & -> & _). reflexivity.
  - intros x _. destruct (FL x) as (A1 & A2 & A3 & A4 & A5 & A6 & _). auto.
  - intros x r _. destruct (FL x) as (_ & _ & _ & _ & -> & _). auto.
  - intros t' x i n Y. destruct (FL x) as (_ & _ & _ & _ & _ & _ & -> & ->). auto.
  - intros t' n (Y1 & Y2 & Y3). split; [|split; [congruence|]].
    + destruct (Nat.eq_dec (old (tks s t')) o) as [E|E].
      * rewrite E in *. rewrite Ha, (proj2 (set_rh_eq s o q l)). unfold l, drop_ref.
        apply in_in_remove; assumption.
      * rewrite Ha, (set_rh_ne _ _ _ _ _ E). exact Y1.
    + destruct (FL (rf (tks s t'))) as (_ & _ & -> & _). exact Y3.
  - intros t' n Y. exfalso. exact (NC t' Y).
  - intros x _ Y. destruct (FL x) as (_ & _ & -> & _). exact Y.
  - intros x _ Y. rewrite Ha, set_rh_ne; [reflexivity|]. intros ->.
    destruct (act_lt s t _ HA HX) as (_ & _ & Z & _). fold o in Z. congruence.
  - intros c o' i Y1 Y2 Y3 Y4 Y5. rewrite Hcu in Y1.
    destruct (FL c) as (_ & _ & E & _). rewrite E in Y2.
    destruct HX as (X1 & X2 & X3). fold o in X3.
    assert (c = rf (tks s t)) by congruence. subst c. assert (o' = o) by congruence. subst o'.
    destruct (FL o) as (E1 & _ & _ & _ & _ & _ & E2 & _). rewrite E1 in Y4. rewrite E2 in Y5.
    rewrite Ha, (proj1 (set_rh_eq s o q l)) in Y3.
    destruct (v_cov s H _ o i Y1 Y2 (Nat.lt_le_trans _ _ _ Y3 Hq) Y4 Y5) as [t' W]. exists t'. rewrite Ht.
    destruct (Nat.eq_dec t' t) as [->|n]; [rewrite upd_eq; exact (HW i Y3 W)|].
    rewrite (upd_ne _ _ _ _ _ n). exact W.
  - assert (E : forall t', t' <> t -> closer s' (tks s' t') -> False).
    { intros t' n Y. rewrite Ht, (upd_ne _ _ _ _ _ n) in Y. apply (NC t'). unfold closer in *.
      destruct (at_ (tks s t')); auto. destruct (FL (old (tks s t'))) as (Z & _). rewrite Z in Y. exact Y. }
    intros t1 t2 Y1 Y2.
    destruct (Nat.eq_dec t1 t) as [->|n1]; [|exfalso; exact (E t1 n1 Y1)].
    destruct (Nat.eq_dec t2 t) as [->|n2]; [reflexivity|exfalso; exact (E t2 n2 Y2)].
Qed.

Section Step.
Variable bidx : nat -> nat -> nat.
Hypothesis Hbx : indexes bidx.

Lemma end_ok s t p : INV s -> at_ (tks s t) = PEnd p -> forall b, good (task_step bidx s t b).
Proof.
  intros H Q b. start s t H Q. unfold task_step in X. rewrite Q in X. cbv zeta in X.
  destruct (act_lt s t _ HA T3) as (Hr & Ho & Hp & Fr & Fo).
  rewrite (deref_ok _ _ _ _ Fo) in X. injection X as <-.
  set (o := old (tks s t)) in *. set (l := drop_ref t (refs (arrs s o))).
  set (p' := match l with [] => PEnd2 (pos (arrs s o)) | _ => PIdx end).
  set (s1 := goto (set_rh s o (pos (arrs s o)) l) t p').
  apply (INV_leave s s1 t (with_pc (tks s t) p') (pos (arrs s o))); auto; try reflexivity.
  - exact (v_err s H).
  - intros i _ [_ W]. rewrite Q in W. destruct W.
  - assert (FL : forall b, ln (arrs s1 b) = ln (arrs s b) /\ lnk (arrs s1 b) = lnk (arrs s b) /\
                           fr (arrs s1 b) = fr (arrs s b) /\ kl (arrs s1 b) = kl (arrs s b)).
    { intro x. destruct (set_rh_fields s o (pos (arrs s o)) l x) as (A1 & A2 & A3 & A4 & A5 & A6 & A7 & _). auto. }
    assert (TI1 : forall g, gd (with_pc (tks s t) p') = Some g -> g < clk s1) by exact T1.
    assert (S1 : rf (tks s t) < na s1 /\ fr (arrs s1 (rf (tks s t))) = false).
    { destruct (FL (rf (tks s t))) as (_ & _ & -> & _). auto. }
    assert (S6 : is_scan (kd (tks s t)) = true -> rf (tks s t) < na s1 /\ pl (tks s t) = ln (arrs s1 (rf (tks s t))) /\ ix (tks s t) < pl (tks s t)).
    { intro S. destruct (FL (rf (tks s t))) as (-> & _). exact (T2 S). }
    split; [exact TI1|]. unfold six.
    destruct l as [|x l'] eqn:L; subst p'; cbn [at_ with_pc].
    + split; [exact S6|]. split; [exact Hr|]. split; [exact Ho|]. split; [apply S1|].
      split; [destruct (FL o) as (_ & _ & E & _); exact (eq_trans E Fo)|].
      intro C. change (ln (arrs s1 o) <= pos (arrs s o)) in C.
      destruct T3 as (A1 & A2 & A3).
      destruct (set_rh_eq s o (pos (arrs s o)) []) as [R1 R2].
      destruct (FL o) as (E1 & _ & _ & E4). destruct (FL (rf (tks s t))) as (_ & E3 & _).
      split; [exact A2|]. split; [exact (eq_trans E3 A3)|]. split; [exact R2|].
      split; [change (ln (arrs s1 o) <= pos (arrs s1 o)); change (pos (arrs s1 o)) with (pos (arrs (set_rh s o (pos (arrs s o)) []) o)); rewrite R1; exact C|].
      change (forall i, i < ln (arrs s1 o) -> kl (arrs s1 o) i = true). rewrite E1, E4.
      intros i Hi. destruct (kl (arrs s o) i) eqn:K; [reflexivity|]. exfalso.
      assert (Hi' : i < pos (arrs s o)) by (rewrite E1 in C; lia).
      destruct (v_cov s H _ o i A2 A3 Hi' Hi K) as [t' W].
      assert (n : t' <> t). { intros ->. destruct W as [_ W]. rewrite Q in W. exact W. }
      assert (A : act s t' (tks s t')).
      { destruct (v_ti s H t') as (_ & _ & T). destruct W as [W1 W2].
        destruct (at_ (tks s t')) as [| | | |? ? ? ?|[? ?|?] ?|? [? ?|?] ? ? ? ?| | | | | | | | | | | | |]; try contradiction.
        - apply T.
        - apply T.
        - destruct T as (T & _). apply T. }
      destruct A as (A & _). assert (E : old (tks s t') = o) by apply W. rewrite E in A.
      assert (Z : In t' (drop_ref t (refs (arrs s o)))) by (apply in_in_remove; assumption).
      fold l in Z. rewrite L in Z. exact Z.
    + split; [exact S6|exact S1].
Qed.

Lemma end2_ok s t q : INV s -> at_ (tks s t) = PEnd2 q -> forall b, good (task_step bidx s t b).
Proof.
  intros H Q b. start s t H Q. unfold task_step in X. rewrite Q in X. cbv zeta in X.
  destruct T3 as (A & B & C & D & E).
  rewrite (deref_ok _ _ _ _ D) in X. injection X as <-.
  destruct (ln (arrs s (old (tks s t))) <=? q) eqn:L.
  - apply Nat.leb_le in L.
    assert (CL1 : closer s (tks s t)) by (unfold closer; rewrite Q; exact L).
    apply INV_goto; [exact H|exact Hd| |nw Q|intro Z; exact CL1].
    split; [exact T1|split; [exact T2|]]. exact (E CL1).
  - apply INV_goto; [exact H|exact Hd| |nw Q|intro Z; destruct Z].
    split; [exact T1|split; [exact T2|]]. split; [exact A|exact C].
Qed.

Lemma unl_ok s t : INV s -> at_ (tks s t) = PUnl -> forall b, good (task_step bidx s t b).
Proof.
  intros H Q b. start s t H Q. unfold task_step in X. rewrite Q in X. cbv zeta in X.
  destruct T3 as (C1 & C2 & C3 & C4 & C5). pose proof (cur_lt s _ HA C1) as Hr.
  rewrite (deref_ok _ _ _ _ (cur_fr s _ HA C1)), C2 in X. injection X as <-.
  set (a := rf (tks s t)) in *. set (o := old (tks s t)) in *.
  destruct (a_lnk s HA a o Hr C2) as (_ & Ho & Hp & _).
  assert (CT : closer s (tks s t)) by (unfold closer; now rewrite Q).
  set (k' := mkT (gd (tks s t)) a o (kd (tks s t)) (ix (tks s t)) (pl (tks s t)) PUnl2).
  set (s1 := set_task (set_lnk s a None) t k').
  assert (FL : forall b, ln (arrs s1 b) = ln (arrs s b) /\ par (arrs s1 b) = par (arrs s b) /\
             rt (arrs s1 b) = rt (arrs s b) /\ fr (arrs s1 b) = fr (arrs s b) /\
             kl (arrs s1 b) = kl (arrs s b) /\ lk (arrs s1 b) = lk (arrs s b)).
  { intro x. subst s1. cbn. destruct (Nat.eq_dec x a) as [->|n]; [rewrite upd_eq|rewrite (upd_ne _ _ _ _ _ n)]; cbn; auto 10. }
  assert (LN : lnk (arrs s1 a) = None) by (subst s1; cbn; now rewrite upd_eq).
  assert (ON : forall t', t' <> t -> ~ closer s (tks s t')).
  { intros t' n Y. exact (n (v_cl s H t' t Y CT)). }
  apply (INV_master s s1 t k'); auto; try reflexivity.
  - exact (v_err s H).
  - apply (AI_task (set_lnk s a None) s1); try reflexivity. exact (AI_unlink s a o HA Hr C2 C5).
  - intros x _. destruct (FL x) as (A1 & A2 & A3 & A4 & A5 & A6). auto.
  - intros x r _. destruct (FL x) as (_ & _ & -> & _). auto.
  - intros t' x i n Y. destruct (FL x) as (_ & _ & _ & _ & -> & ->). auto.
  - intros t' n (Y1 & Y2 & Y3). exfalso.
    assert (E : rf (tks s t') = a) by congruence. rewrite E in Y3.
    assert (E' : old (tks s t') = o) by congruence. rewrite E', C3 in Y1. exact Y1.
  - intros t' n Y. exfalso. exact (ON t' n Y).
  - intros x _ Y. destruct (Nat.eq_dec x a) as [->|n]; [exact LN|].
    subst s1. cbn. now rewrite (upd_ne _ _ _ _ _ n).
  - intros x _ _. subst s1. cbn. unfold upd. destruct (x =? a) eqn:E; [apply Nat.eqb_eq in E; now subst|reflexivity].
  - split; [exact T1|]. split.
    + intro S. destruct (FL a) as (E & _). cbn [at_ k' rf ix pl]. unfold k'; cbn [rf ix pl at_]. rewrite E. exact (T2 S).
    + unfold k' at 1. cbn [at_]. split; [exact Hr|]. split; [exact Ho|].
      split; [destruct (FL a) as (_ & _ & _ & E & _); exact (eq_trans E (cur_fr s _ HA C1))|].
      split; [destruct (FL o) as (_ & E & _); exact (eq_trans E Hp)|exact LN].
  - intros c o' i Y1 Y2. exfalso. change (cur s1) with (cur s) in Y1.
    assert (c = a) by congruence. subst c. congruence.
  - assert (E : forall t', closer s1 (tks s1 t') -> False).
    { intros t' Y. subst s1. cbn in Y. destruct (Nat.eq_dec t' t) as [->|n].
      - rewrite upd_eq in Y. exact Y.
      - rewrite (upd_ne _ _ _ _ _ n) in Y. apply (ON t' n). unfold closer in *.
        destruct (at_ (tks s t')); auto. cbn in Y.
        destruct (FL (old (tks s t'))) as (Z & _). cbn in Z. rewrite Z in Y. exact Y. }
    intros t1 t2 Y1 Y2. exfalso. exact (E t1 Y1).
Qed.

Lemma unl2_ok s t : INV s -> at_ (tks s t) = PUnl2 -> forall b, good (task_step bidx s t b).
Proof.
  intros H0 Q0 b s' X. unfold task_step in X. rewrite Q0 in X. cbv zeta in X. injection X as <-.
  assert (H : INV (guard s t)) by (apply INV_guard; [exact H0|congruence|congruence]).
  destruct (guard_fields s t) as (G1 & G2 & G3 & G4 & G5 & G6 & G7 & G8 & G9 & G10 & G11 & Q). rewrite Q0 in Q.
  rewrite <- G8. clear G1 G2 G3 G4 G5 G6 G7 G8 G9 G10 G11.
  revert H Q. generalize (guard s t). clear s H0 Q0. intros s H Q.
  pose proof (v_ai s H) as HA; pose proof (v_ti s H t) as (T1 & T2 & T3);
  assert (Hd : at_ (tks s t) <> PDone) by congruence;
  unfold six in T2; rewrite Q in T2, T3.
  destruct T3 as (A & B & C & D & E). unfold old_ok in D.
  set (a := rf (tks s t)) in *. set (o := old (tks s t)) in *.
  set (k' := with_pc (tks s t) PIdx). set (s1 := goto (retire s o) t PIdx).
  assert (FL : forall b, ln (arrs s1 b) = ln (arrs s b) /\ par (arrs s1 b) = par (arrs s b) /\
             lnk (arrs s1 b) = lnk (arrs s b) /\ fr (arrs s1 b) = fr (arrs s b) /\
             kl (arrs s1 b) = kl (arrs s b) /\ lk (arrs s1 b) = lk (arrs s b) /\
             pos (arrs s1 b) = pos (arrs s b) /\ refs (arrs s1 b) = refs (arrs s b)).
  { intro x. subst s1. cbn. destruct (Nat.eq_dec x o) as [->|n]; [rewrite upd_eq|rewrite (upd_ne _ _ _ _ _ n)]; cbn; auto 10. }
  apply (INV_master s s1 t k'); auto; try reflexivity.
  - exact (v_err s H).
  - subst s1. cbn. lia.
  - apply (AI_task (retire s o) s1); try reflexivity. apply AI_retire; [exact HA|exact B| |].
    + intro Y. destruct (a_cur s HA o Y) as (_ & _ & Z & _). congruence.
    + intros c Hc Y. destruct (a_lnk s HA c o Hc Y) as (_ & _ & Z & _). congruence.
  - intros x _. destruct (FL x) as (A1 & A2 & A3 & A4 & A5 & A6 & _). auto.
  - intros x r Hx Y. destruct (Nat.eq_dec x o) as [->|n].
    + subst s1. cbn in Y. rewrite upd_eq in Y. cbn in Y. injection Y as <-. right. lia.
    + left. subst s1. cbn in Y. now rewrite (upd_ne _ _ _ _ _ n) in Y.
  - intros t' x i n Y. destruct (FL x) as (_ & _ & _ & _ & -> & -> & _). auto.
  - intros t' n (Y1 & Y2 & Y3). unfold act.
    destruct (FL (old (tks s t'))) as (_ & _ & _ & _ & _ & _ & _ & ->).
    destruct (FL (rf (tks s t'))) as (_ & _ & -> & _). auto.
  - intros t' n _ (Y1 & Y2 & Y3 & Y4 & Y5). unfold closing.
    destruct (FL (old (tks s t'))) as (-> & _ & _ & _ & -> & _ & -> & ->).
    destruct (FL (rf (tks s t'))) as (_ & _ & -> & _). auto 6.
  - intros x _ Y. destruct (FL x) as (_ & _ & -> & _). exact Y.
  - intros x _ _. apply (FL x).
  - split; [intros g Y; pose proof (T1 g Y); subst s1; cbn; lia|]. split.
    + intro S. destruct (FL a) as (Y & _). unfold k'. cbn [at_ with_pc rf ix pl]. fold a. rewrite Y. exact (T2 S).
    + split; [exact A|]. destruct (FL a) as (_ & _ & _ & Y & _). exact (eq_trans Y C).
  - intros c o' i Y1 Y2 Y3 Y4 Y5.
    destruct (FL c) as (_ & _ & Z1 & _). rewrite Z1 in Y2.
    destruct (FL o') as (Z2 & _ & _ & _ & Z3 & _ & Z4 & _). rewrite Z2 in Y4. rewrite Z3 in Y5. rewrite Z4 in Y3.
    destruct (v_cov s H c o' i Y1 Y2 Y3 Y4 Y5) as [t' W]. exists t'.
    assert (n : t' <> t). { intros ->. destruct W as [_ W]. rewrite Q in W. exact W. }
    subst s1. rewrite goto_tks, (upd_ne _ _ _ _ _ n). exact W.
  - assert (Z : forall t', closer s1 (tks s1 t') -> t' <> t /\ closer s (tks s t')).
    { intros t' Y. subst s1. rewrite goto_tks in Y. destruct (Nat.eq_dec t' t) as [->|n].
      - rewrite upd_eq in Y. destruct Y.
      - rewrite (upd_ne _ _ _ _ _ n) in Y. split; [exact n|]. unfold closer in *.
        change (tks (retire s o) t') with (tks s t') in Y.
        destruct (at_ (tks s t')); auto.
        destruct (FL (old (tks s t'))) as (Z & _). rewrite Z in Y. exact Y. }
    intros t1 t2 Y1 Y2. apply (v_cl s H); [apply (Z t1 Y1)|apply (Z t2 Y2)].
Qed.

End Step.
