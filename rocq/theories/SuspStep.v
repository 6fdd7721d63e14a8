(** * Every step of a task preserves the invariant *)

Require Import List Arith Bool Lia.
Import ListNotations.
Require Import Verif.SuspModel Verif.SuspSpec Verif.SuspFacts Verif.SuspFrame.

Implicit Types (s : state) (k : task) (t a o i j p e q r g : nat).

Lemma deref_ok s t a (r : option state) : fr (arrs s a) = false -> deref s t a r = r.
Proof. unfold deref. now intros ->. Qed.

Lemma goto_tks s t (p : pc) t' : tks (goto s t p) t' = upd (tks s) t (with_pc (tks s t) p) t'.
Proof. reflexivity. Qed.

Lemma prot_fr s k a : prot s k a -> fr (arrs s a) = false.
Proof. intros (g & _ & _ & X & _). exact X. Qed.

Lemma prot_lt s k a : prot s k a -> a < na s.
Proof. intros (g & _ & X & _). exact X. Qed.

(** A plain change of program point. *)
Lemma INV_goto s t (p : pc) :
  INV s -> at_ (tks s t) <> PDone ->
  TI s t (with_pc (tks s t) p) ->
  (forall o i, works (tks s t) o i -> kl (arrs s o) i = true \/ works (with_pc (tks s t) p) o i) ->
  (closer s (with_pc (tks s t) p) -> closer s (tks s t)) ->
  INV (goto s t p).
Proof.
  intros H Hd HT HW HL.
  apply (INV_pure s (goto s t p) t (with_pc (tks s t) p)); auto; try reflexivity.
  exact (v_err s H).
Qed.

Lemma no_works k o i : works k o i -> forall P : Prop,
  (forall p e, (exists w j, at_ k = PRb w p e j) \/ (exists j, at_ k = PRel (KR p e) j) \/
               (exists w j lo hi l, at_ k = PTgt w (KR p e) j lo hi l) -> P) -> P.
Proof.
  intros (_ & W) P HP. destruct (at_ k) as [| | | |w p e j|[p e|hi] j|w [p e|h] j lo hi l| | | | | | | | | | | | |];
    try contradiction.
  - apply (HP p e). left. eauto.
  - apply (HP p e). right. left. eauto.
  - apply (HP p e). right. right. eauto 6.
Qed.

Ltac nw Q := let W := fresh in intros ?o ?i [_ W]; rewrite Q in W; destruct W.

(** ** Locking *)

Lemma lock_cases s t a i (w b : bool) killed got wait s' :
  INV s -> a < na s -> i < ln (arrs s a) -> (w = false -> fr (arrs s a) = false) ->
  lock s t a i w b killed got wait = Some s' ->
  (kl (arrs s a) i = true /\ killed = Some s') \/
  (kl (arrs s a) i = false /\ lk (arrs s a) i = None /\ fr (arrs s a) = false /\
   s' = goto (set_lk s a i (Some t)) t got) \/
  (w = false /\ kl (arrs s a) i = false /\ s' = goto (reset s t) t wait).
Proof.
  intros H Ha Hi Hw. unfold lock.
  destruct (negb w && fr (arrs s a)) eqn:Q.
  { exfalso. apply andb_true_iff in Q as [Q1 Q2]. destruct w; [discriminate|]. rewrite (Hw eq_refl) in Q2. discriminate. }
  destruct (negb w && (ln (arrs s a) <=? i)) eqn:Q'.
  { exfalso. apply andb_true_iff in Q' as [_ Q2]. apply Nat.leb_le in Q2. lia. }
  destruct (kl (arrs s a) i) eqn:K; [now left|].
  destruct (live_bucket s a i (v_ai s H) Ha Hi K) as [_ F]. rewrite F.
  destruct (lk (arrs s a) i) eqn:L.
  - destruct w; [discriminate|]. destruct b; [|discriminate]. intro X. injection X as <-. right. right. auto.
  - intro X. injection X as <-. right. left. auto.
Qed.

Definition waiting k (p : pc) : task := mkT None (rf k) (old k) (kd k) (ix k) (pl k) p.

Lemma goto_reset s t (p : pc) t' : tks (goto (reset s t) t p) t' = upd (tks s) t (waiting (tks s t) p) t'.
Proof.
  cbn. unfold upd. destruct (t' =? t) eqn:Q; [|reflexivity]. rewrite Nat.eqb_refl. reflexivity.
Qed.

(** Taking a lock. *)
Lemma INV_got s t a i (p : pc) :
  INV s -> at_ (tks s t) <> PDone -> lk (arrs s a) i = None ->
  TI (set_lk s a i (Some t)) t (with_pc (tks s t) p) ->
  (forall o i, works (tks s t) o i -> works (with_pc (tks s t) p) o i) ->
  (forall s, ~ closer s (with_pc (tks s t) p)) ->
  INV (goto (set_lk s a i (Some t)) t p).
Proof.
  intros H Hd HL HT HW HC.
  assert (L : forall b, let x := upd (arrs s) a (mkA (ln (arrs s a)) (ad (arrs s a)) (lnk (arrs s a))
      (pos (arrs s a)) (refs (arrs s a)) (kl (arrs s a)) (upd (lk (arrs s a)) i (Some t)) (par (arrs s a))
      (rt (arrs s a)) (fr (arrs s a))) b in
    ln x = ln (arrs s b) /\ ad x = ad (arrs s b) /\ lnk x = lnk (arrs s b) /\ par x = par (arrs s b) /\
    rt x = rt (arrs s b) /\ fr x = fr (arrs s b) /\ pos x = pos (arrs s b) /\ refs x = refs (arrs s b) /\
    kl x = kl (arrs s b)).
  { intro b. cbv zeta. destruct (Nat.eq_dec b a) as [->|n]; [rewrite upd_eq|rewrite (upd_ne _ _ _ _ _ n)]; cbn; auto 10. }
  apply (INV_locks s _ t (with_pc (tks s t) p)); auto; try reflexivity.
  - exact (v_err s H).
  - intro b. destruct (L b) as (A & B & C & D & E & F & G & I & _). auto 10.
  - intros b j X. destruct (L b) as (_ & _ & _ & _ & _ & _ & _ & _ & Y). cbn. cbn in Y. rewrite Y. exact X.
  - intros b j X Y. destruct (L b) as (_ & _ & _ & _ & _ & _ & _ & _ & Z). cbn in Y, Z. rewrite Z in Y. congruence.
  - intros t' b j n X. cbn. destruct (Nat.eq_dec b a) as [->|m]; [rewrite upd_eq|rewrite (upd_ne _ _ _ _ _ m); exact X].
    cbn. destruct (Nat.eq_dec j i) as [->|m]; [congruence|rewrite (upd_ne _ _ _ _ _ m)]. exact X.
  - intro X. exfalso. exact (HC s X).
Qed.

(** Waiting. *)
Lemma INV_wait s t (p : pc) :
  INV s -> at_ (tks s t) <> PDone ->
  TI s t (waiting (tks s t) p) ->
  (forall o i, works (tks s t) o i -> works (waiting (tks s t) p) o i) ->
  (forall s, ~ closer s (waiting (tks s t) p)) ->
  INV (goto (reset s t) t p).
Proof.
  intros H Hd HT HW HC.
  apply (INV_pure s _ t (waiting (tks s t) p)); auto; try reflexivity.
  - apply goto_reset.
  - exact (v_err s H).
  - intro X. exfalso. exact (HC s X).
Qed.

(** The fields of the arrays, after a lock was taken or released. *)
Lemma set_lk_fields s a i x b :
  ln (arrs (set_lk s a i x) b) = ln (arrs s b) /\ par (arrs (set_lk s a i x) b) = par (arrs s b) /\
  fr (arrs (set_lk s a i x) b) = fr (arrs s b) /\ rt (arrs (set_lk s a i x) b) = rt (arrs s b) /\
  lnk (arrs (set_lk s a i x) b) = lnk (arrs s b) /\ refs (arrs (set_lk s a i x) b) = refs (arrs s b) /\
  kl (arrs (set_lk s a i x) b) = kl (arrs s b) /\ pos (arrs (set_lk s a i x) b) = pos (arrs s b) /\
  ad (arrs (set_lk s a i x) b) = ad (arrs s b).
Proof.
  cbn. destruct (Nat.eq_dec b a) as [->|n]; [rewrite upd_eq|rewrite (upd_ne _ _ _ _ _ n)]; cbn; auto 10.
Qed.

Lemma set_lk_lk s a i x b j :
  lk (arrs (set_lk s a i x) b) j = if (b =? a) && (j =? i) then x else lk (arrs s b) j.
Proof.
  cbn. unfold upd at 1. destruct (b =? a) eqn:Q; cbn; [|reflexivity].
  apply Nat.eqb_eq in Q. subst. reflexivity.
Qed.

Lemma set_lk_hold s t a i : a < na s -> i < ln (arrs s a) -> kl (arrs s a) i = false ->
  hold (set_lk s a i (Some t)) t a i.
Proof.
  intros A B C. destruct (set_lk_fields s a i (Some t) a) as (L1 & _ & _ & _ & _ & _ & L2 & _).
  split; [exact A|]. rewrite L1, L2, set_lk_lk, !Nat.eqb_refl. auto.
Qed.

Lemma act_lk s t a i x k : act (set_lk s a i x) t k <-> act s t k.
Proof.
  unfold act. destruct (set_lk_fields s a i x (old k)) as (_ & _ & _ & _ & _ & -> & _).
  destruct (set_lk_fields s a i x (rf k)) as (_ & _ & _ & _ & -> & _). reflexivity.
Qed.

Lemma prot_lk s a i x k b : prot (set_lk s a i x) k b <-> prot s k b.
Proof.
  unfold prot. destruct (set_lk_fields s a i x b) as (_ & _ & -> & -> & _). reflexivity.
Qed.

Lemma six_lk s a i x k : six (set_lk s a i x) k <-> six s k.
Proof.
  unfold six. destruct (set_lk_fields s a i x (rf k)) as (-> & _). reflexivity.
Qed.

Lemma hold_lk s t a i b j : hold s t b j -> lk (arrs s a) i = None -> hold (set_lk s a i (Some t)) t b j.
Proof.
  intros (A & B & C & D) N. destruct (set_lk_fields s a i (Some t) b) as (L1 & _ & _ & _ & _ & _ & L2 & _).
  split; [exact A|]. rewrite L1, L2, set_lk_lk. split; [exact B|]. split; [exact C|].
  destruct ((b =? a) && (j =? i)); auto.
Qed.

Section Step.
Variable bidx : nat -> nat -> nat.
Hypothesis Hbx : indexes bidx.

Definition good (r : option state) : Prop := forall s', r = Some s' -> INV s'.

Lemma ln_pos s a : AI s -> a < na s -> 0 < ln (arrs s a).
Proof. intros H X. destruct (a_ln s H a X) as [e ->]. apply pow_pos. Qed.

(** The range of a bucket in the other array. *)
Lemma range_arr s a o i : AI s -> a < na s -> o < na s -> i < ln (arrs s a) ->
  fst (index_range (ln (arrs s a)) (ln (arrs s o)) i) < snd (index_range (ln (arrs s a)) (ln (arrs s o)) i) /\
  snd (index_range (ln (arrs s a)) (ln (arrs s o)) i) <= ln (arrs s o).
Proof.
  intros H A B C. destruct (a_ln s H a A) as [e1 E1]. destruct (a_ln s H o B) as [e2 E2].
  rewrite E1, E2 in *. pose proof (range_lt e1 e2 i C) as R.
  destruct (index_range (2 ^ e1) (2 ^ e2) i). exact R.
Qed.

Lemma act_lt s t k : AI s -> act s t k -> rf k < na s /\ old k < na s /\ par (arrs s (old k)) = Some (rf k) /\
  fr (arrs s (rf k)) = false /\ fr (arrs s (old k)) = false.
Proof.
  intros H (_ & A & B). pose proof (cur_lt s _ H A) as X.
  destruct (a_lnk s H _ _ X B) as (_ & Y & Z & W).
  split; [exact X|]. split; [exact Y|]. split; [exact Z|].
  split; [exact (cur_fr s _ H A)|exact (a_fr s H _ Y W)].
Qed.

Lemma cur_prot s k c g : AI s -> cur s = Some c -> gd k = Some g -> prot s k c.
Proof.
  intros H X G. destruct (a_cur s H c X) as (A & B & _). exists g. split; [exact G|]. split; [exact A|].
  split; [exact (a_fr s H c A B)|]. intros r R. congruence.
Qed.

Lemma lnk_prot s k a o g : AI s -> a < na s -> lnk (arrs s a) = Some o -> gd k = Some g -> prot s k o.
Proof.
  intros H X L G. destruct (a_lnk s H a o X L) as (_ & A & _ & B). exists g. split; [exact G|]. split; [exact A|].
  split; [exact (a_fr s H o A B)|]. intros r R. congruence.
Qed.

Lemma done_ok s t (k' : task) : INV s -> at_ (tks s t) <> PDone ->
  gd k' = None -> at_ k' = PDone ->
  (forall o i, ~ works (tks s t) o i) ->
  INV (set_task s t k').
Proof.
  intros H Hd G Q W.
  apply (INV_pure s _ t k'); auto; try reflexivity.
  - exact (v_err s H).
  - split; [intros g X; congruence|]. split; [intro X; now rewrite Q|]. now rewrite Q.
  - intros o i X. exfalso. exact (W o i X).
  - intro X. unfold closer in X. rewrite Q in X. contradiction.
Qed.

(** PLoad *)
Lemma load_ok s t : INV s -> at_ (tks s t) = PLoad -> good (load s t).
Proof.
  intros H Q s' X. unfold load in X. cbv zeta in X.
  assert (Hd : at_ (tks s t) <> PDone) by congruence.
  assert (H1 : INV (guard s t)) by (apply INV_guard; [exact H|exact Hd|congruence]).
  destruct (guard_fields s t) as (_ & _ & _ & _ & _ & [g G] & _ & _ & _ & _ & _ & Q1). rewrite Q in Q1.
  revert X. generalize dependent (guard s t). clear s H Q Hd. intros s H G Q X.
  assert (Hd : at_ (tks s t) <> PDone) by congruence.
  pose proof (v_ti s H t) as (T1 & T2 & _). pose proof (v_ai s H) as HA.
  destruct (cur s) as [c|] eqn:C.
  - rewrite (deref_ok s t c _ (cur_fr s c HA C)) in X. injection X as <-.
    set (i := match kd (tks s t) with Key _ => _ | _ => _ end). 
    set (k' := mkT _ _ _ _ _ _ _).
    pose proof (cur_lt s c HA C) as Hc.
    assert (Hi : is_scan (kd (tks s t)) = true -> i < ln (arrs s c)).
    { intro S. specialize (T2 S). rewrite Q in T2. subst i.
      destruct (a_ln s HA c Hc) as [e2 E2].
      assert (R : ((if (pl (tks s t) =? 0) || (pl (tks s t) =? ln (arrs s c)) then ix (tks s t)
         else fst (index_range (pl (tks s t)) (ln (arrs s c)) (ix (tks s t)))) < ln (arrs s c))).
      { destruct T2 as [[A B]|(e1 & E1 & L)].
        - rewrite A, B. cbn. apply (ln_pos s c HA Hc).
        - destruct (pl (tks s t) =? 0) eqn:Z1; [apply Nat.eqb_eq in Z1; pose proof (pow_pos e1); lia|].
          destruct (pl (tks s t) =? ln (arrs s c)) eqn:Z2; cbn [orb]; [apply Nat.eqb_eq in Z2; lia|].
          rewrite E2, E1 in *. pose proof (range_lt e1 e2 _ L) as R.
          destruct (index_range (2 ^ e1) (2 ^ e2) (ix (tks s t))). cbn. lia. }
      destruct (kd (tks s t)); [discriminate S|exact R|exact R]. }
    apply (INV_pure s _ t k'); auto; try reflexivity.
    + exact (v_err s H).
    + split; [intros g' Y; exact (T1 g' Y)|].
      assert (P : prot s k' c) by exact (cur_prot s k' c g HA C G).
      split.
      * intro S. specialize (Hi S). unfold six. subst k'. cbn in S |- *.
        destruct (kd (tks s t)); [discriminate S| |]; cbn; lia.
      * subst k'. cbn. destruct (kd (tks s t)); exact P.
    + nw Q.
    + unfold closer. subst k'. cbn. destruct (kd (tks s t)); contradiction.
  - injection X as <-. apply done_ok; auto. nw Q.
Qed.

(** The task's own facts. *)
Ltac start s t H Q :=
  intros s' X; 
  pose proof (v_ai s H) as HA; pose proof (v_ti s H t) as (T1 & T2 & T3);
  assert (Hd : at_ (tks s t) <> PDone) by congruence;
  unfold six in T2; rewrite Q in T2, T3.

Lemma has_ok s t : INV s -> at_ (tks s t) = PHas -> forall b, good (task_step bidx s t b).
Proof.
  intros H Q b. start s t H Q. unfold task_step in X. rewrite Q in X. cbv zeta in X.
  rewrite (deref_ok _ _ _ _ (prot_fr _ _ _ T3)) in X. injection X as <-.
  destruct (lnk (arrs s (rf (tks s t)))); (apply INV_goto; [exact H|exact Hd| |nw Q|intro X; destruct X]);
    (split; [exact T1|split; [exact T2|exact T3]]).
Qed.

Lemma rh_ok s t : INV s -> at_ (tks s t) = PRh -> forall b, good (task_step bidx s t b).
Proof.
  intros H Q b. start s t H Q. unfold task_step in X. rewrite Q in X. cbv zeta in X.
  pose proof (prot_fr _ _ _ T3) as F. pose proof (prot_lt _ _ _ T3) as L.
  rewrite (deref_ok _ _ _ _ F) in X.
  assert (GI : INV (goto s t PIdx)).
  { apply INV_goto; [exact H|exact Hd| |nw Q|intro Y; destruct Y].
    split; [exact T1|split; [exact T2|]]. split; [exact L|exact F]. }
  destruct (lnk (arrs s (rf (tks s t)))) as [o|] eqn:K; [|injection X as <-; exact GI].
  rewrite (deref_ok _ _ _ _ (lnk_fr s _ o HA L K)) in X.
  destruct (start_rehash s t o) as [[s1 p]|] eqn:R; [|injection X as <-; exact GI].
  unfold start_rehash in R.
  destruct ((ln (arrs s o) <=? pos (arrs s o) + length (refs (arrs s o)))
            || (length (refs (arrs s o)) =? chunk - 1)) eqn:B; [discriminate R|].
  injection R as <- <-. apply orb_false_iff in B as [B _]. apply Nat.leb_gt in B.
  injection X as <-.
  destruct (a_lnk s HA _ o L K) as (Hc & Ho & Hp & Hr).
  assert (Hne : o <> rf (tks s t)).
  { intros E. destruct (a_cur s HA _ Hc) as (_ & _ & Y & _). congruence. }
  set (p := pos (arrs s o)). set (e := Nat.min (p + chunk) (ln (arrs s o))).
  set (k' := mkT (gd (tks s t)) (rf (tks s t)) o (kd (tks s t)) (ix (tks s t)) (pl (tks s t)) (PRb false p e p)).
  set (s1 := set_task _ t k').
  assert (FL : forall b, ln (arrs s1 b) = ln (arrs s b) /\ ad (arrs s1 b) = ad (arrs s b) /\
             lnk (arrs s1 b) = lnk (arrs s b) /\ par (arrs s1 b) = par (arrs s b) /\
             rt (arrs s1 b) = rt (arrs s b) /\ fr (arrs s1 b) = fr (arrs s b) /\
             kl (arrs s1 b) = kl (arrs s b) /\ lk (arrs s1 b) = lk (arrs s b)).
  { intro x. subst s1. cbn. destruct (Nat.eq_dec x o) as [->|n]; [rewrite upd_eq|rewrite (upd_ne _ _ _ _ _ n)]; cbn; auto 10. }
  assert (R1 : pos (arrs s1 o) = p + chunk /\ refs (arrs s1 o) = t :: refs (arrs s o)).
  { subst s1. cbn. rewrite upd_eq. auto. }
  assert (R2 : forall b, b <> o -> pos (arrs s1 b) = pos (arrs s b) /\ refs (arrs s1 b) = refs (arrs s b)).
  { intros x n. subst s1. cbn. rewrite (upd_ne _ _ _ _ _ n). auto. }
  assert (NC : forall t', ~ closer s (tks s t')).
  { intros t' Y. destruct (closer_closing s t' H Y) as (C1 & C2 & _ & C3 & _).
    assert (rf (tks s t') = rf (tks s t)) by congruence.
    assert (old (tks s t') = o) by congruence. rewrite H1 in C3. lia. }
  apply (INV_master s s1 t k'); auto; try reflexivity.
  - exact (v_err s H).
  - apply (AI_locks s s1 HA); try reflexivity.
    + intro x. destruct (FL x) as (A1 & A2 & A3 & A4 & A5 & A6 & _). auto 8.
    + intros x i Y. destruct (FL x) as (_ & _ & _ & _ & _ & _ & -> & _). exact Y.
    + intros x i Y. destruct (FL x) as (_ & _ & _ & _ & _ & _ & -> & _). reflexivity.
  - intros x _. destruct (FL x) as (A1 & A2 & A3 & A4 & A5 & A6 & _). auto.
  - intros x r _. destruct (FL x) as (_ & _ & _ & _ & -> & _). auto.
  - intros t' x i n Y. destruct (FL x) as (_ & _ & _ & _ & _ & _ & -> & ->). auto.
  - intros t' n (Y1 & Y2 & Y3). split; [|split; [exact Y2|]].
    + destruct (Nat.eq_dec (old (tks s t')) o) as [E|E].
      * rewrite E in *. rewrite (proj2 R1). right. exact Y1.
      * rewrite (proj2 (R2 _ E)). exact Y1.
    + destruct (FL (rf (tks s t'))) as (_ & _ & -> & _). exact Y3.
  - intros t' n Y. exfalso. exact (NC t' Y).
  - intros x _ Y. destruct (FL x) as (_ & _ & -> & _). exact Y.
  - intros x _ Y. apply R2. intros ->. congruence.
  - split; [exact T1|]. split.
    + intro S. specialize (T2 S). unfold k' in *. cbn [at_ rf pl ix] in *.
      destruct (FL (rf (tks s t))) as (-> & _). exact T2.
    + unfold k' at 1. cbn [at_]. split; [|split; [lia|]].
      * split; [unfold k'; cbn [old]; rewrite (proj2 R1); now left|]. split; [exact Hc|].
        unfold k'; cbn [old rf]. destruct (FL (rf (tks s t))) as (_ & _ & -> & _). exact K.
      * split; [unfold e, p, chunk; lia|]. unfold range_ok, k'. cbn [old]. destruct (FL o) as (-> & _). reflexivity.
  - intros c o' i Y1 Y2 Y3 Y4 Y5.
    destruct (FL c) as (_ & _ & E & _). rewrite E in Y2. change (cur s1) with (cur s) in Y1.
    assert (c = rf (tks s t)) by congruence. subst c. assert (o' = o) by congruence. subst o'.
    destruct (FL o) as (E1 & _ & _ & _ & _ & _ & E2 & _). rewrite E1 in Y4. rewrite E2 in Y5.
    rewrite (proj1 R1) in Y3.
    destruct (lt_dec i p) as [Z|Z].
    + destruct (v_cov s H _ o i Y1 Y2 Z Y4 Y5) as [t' W]. exists t'.
      assert (n : t' <> t). { intros ->. destruct W as [_ W]. rewrite Q in W. exact W. }
      subst s1. cbn. rewrite (upd_ne _ _ _ _ _ n). exact W.
    + exists t. subst s1. cbn. rewrite upd_eq. split; [reflexivity|]. cbn. unfold e. lia.
  - intros t1 t2 Y1 Y2.
    assert (E : forall t', closer s1 (tks s1 t') -> False).
    { intros t' Y. subst s1. cbn in Y. destruct (Nat.eq_dec t' t) as [->|n].
      - rewrite upd_eq in Y. exact Y.
      - rewrite (upd_ne _ _ _ _ _ n) in Y. apply (NC t'). unfold closer in *.
        destruct (at_ (tks s t')); auto. cbn in Y.
        destruct (FL (old (tks s t'))) as (Z & _). cbn in Z. rewrite Z in Y. exact Y. }
    exfalso. exact (E t1 Y1).
Qed.

Lemma rb_ok s t w p e i : INV s -> at_ (tks s t) = PRb w p e i -> forall b, good (task_step bidx s t b).
Proof.
  intros H Q b. start s t H Q. unfold task_step in X. rewrite Q in X. cbv zeta in X.
  destruct T3 as (A & P1 & P2 & P3). destruct (act_lt s t _ HA A) as (Hr & Ho & Hp & Fr & Fo).
  destruct (i <? e) eqn:I.
  - apply Nat.ltb_lt in I.
    assert (Hi : i < ln (arrs s (old (tks s t)))). { unfold range_ok in P3. lia. }
    destruct (lock_cases s t _ i w b _ _ _ s' H Ho Hi (fun _ => Fo) X) as [[K Y]|[(K & L & F & ->)|(-> & K & ->)]].
    + injection Y as <-. apply INV_goto; [exact H|exact Hd| |
        |intro Z; destruct Z].
      * split; [exact T1|split; [exact T2|]]. split; [exact A|]. split; [lia|]. split; [lia|exact P3].
      * intros o j [W1 W2]. rewrite Q in W2. subst o.
        destruct (Nat.eq_dec j i) as [->|n]; [now left|right]. split; [reflexivity|]. cbn. lia.
    + apply INV_got; [exact H|exact Hd|exact L| | |intros ? Z; exact Z].
      * split; [exact T1|]. split; [apply six_lk; exact T2|].
        split; [exact (set_lk_hold s t _ i Ho Hi K)|].
        destruct (set_lk_fields s (old (tks s t)) i (Some t) (old (tks s t))) as (L1 & L2 & _).
        split; [exact (eq_trans L2 Hp)|]. split; [exact Hr|].
        split; [apply act_lk; exact A|]. split; [exact P1|]. split; [exact I|].
        unfold range_ok. exact (eq_trans P3 (f_equal (Nat.min (p + chunk)) (eq_sym L1))).
      * intros o j [W1 W2]. rewrite Q in W2. subst o. split; [reflexivity|]. exact W2.
    + apply INV_wait; [exact H|exact Hd| | |intros ? Z; exact Z].
      * split; [intros g Y; discriminate Y|]. split; [exact T2|]. split; [exact A|auto].
      * intros o j [W1 W2]. rewrite Q in W2. subst o. split; [reflexivity|]. exact W2.
  - apply Nat.ltb_ge in I. injection X as <-.
    apply INV_goto; [exact H|exact Hd| | |intro Z; destruct Z].
    + split; [exact T1|split; [exact T2|exact A]].
    + intros o j [W1 W2]. rewrite Q in W2. exfalso. lia.
Qed.


(** ** Relocating a bucket *)

Lemma unlock_fields n : forall s a lo,
  cur (unlock_from s a lo n) = cur s /\ na (unlock_from s a lo n) = na s /\
  tks (unlock_from s a lo n) = tks s /\ nt (unlock_from s a lo n) = nt s /\
  clk (unlock_from s a lo n) = clk s /\ err (unlock_from s a lo n) = err s /\
  (forall b, ln (arrs (unlock_from s a lo n) b) = ln (arrs s b) /\
     ad (arrs (unlock_from s a lo n) b) = ad (arrs s b) /\
     lnk (arrs (unlock_from s a lo n) b) = lnk (arrs s b) /\
     par (arrs (unlock_from s a lo n) b) = par (arrs s b) /\
     rt (arrs (unlock_from s a lo n) b) = rt (arrs s b) /\
     fr (arrs (unlock_from s a lo n) b) = fr (arrs s b) /\
     pos (arrs (unlock_from s a lo n) b) = pos (arrs s b) /\
     refs (arrs (unlock_from s a lo n) b) = refs (arrs s b) /\
     kl (arrs (unlock_from s a lo n) b) = kl (arrs s b)) /\
  (forall b j, lk (arrs (unlock_from s a lo n) b) j =
     if (b =? a) && ((lo <=? j) && (j <? lo + n)) then None else lk (arrs s b) j).
Proof.
  induction n as [|n IH]; intros s a lo.
  - cbn [unlock_from]. repeat split; auto.
    intros b j. destruct (b =? a); [|reflexivity]. cbn [andb].
    destruct (lo <=? j) eqn:A; [|reflexivity]. destruct (j <? lo + 0) eqn:B; [|reflexivity].
    apply Nat.leb_le in A. apply Nat.ltb_lt in B. lia.
  - cbn [unlock_from]. destruct (IH (set_lk s a lo None) a (S lo)) as (A & B & C & D & E & F & G & I).
    rewrite A, B, C, D, E, F. repeat (split; [reflexivity|]). split.
    + intro b. destruct (G b) as (-> & -> & -> & -> & -> & -> & -> & -> & ->).
      destruct (set_lk_fields s a lo None b) as (-> & -> & -> & -> & -> & -> & -> & -> & ->). auto 10.
    + intros b j. rewrite I, set_lk_lk. destruct (b =? a); [|reflexivity]. cbn [andb].
      destruct (Nat.eq_dec j lo) as [->|N].
      * rewrite Nat.eqb_refl, (Nat.leb_refl lo). 
        replace (S lo <=? lo) with false by (symmetry; apply Nat.leb_gt; lia).
        replace (lo <? lo + S n) with true by (symmetry; apply Nat.ltb_lt; lia). reflexivity.
      * replace (j =? lo) with false by (symmetry; apply Nat.eqb_neq; exact N).
        replace (lo <=? j) with (S lo <=? j).
        -- replace (lo + S n) with (S lo + n) by lia. reflexivity.
        -- destruct (S lo <=? j) eqn:U; destruct (lo <=? j) eqn:V; auto;
             rewrite ?Nat.leb_le, ?Nat.leb_gt in *; lia.
Qed.

Lemma kill_fields s o i b :
  ln (arrs (kill s o i) b) = ln (arrs s b) /\ ad (arrs (kill s o i) b) = ad (arrs s b) /\
  lnk (arrs (kill s o i) b) = lnk (arrs s b) /\ par (arrs (kill s o i) b) = par (arrs s b) /\
  rt (arrs (kill s o i) b) = rt (arrs s b) /\ fr (arrs (kill s o i) b) = fr (arrs s b) /\
  pos (arrs (kill s o i) b) = pos (arrs s b) /\ refs (arrs (kill s o i) b) = refs (arrs s b).
Proof.
  cbn. destruct (Nat.eq_dec b o) as [->|n]; [rewrite upd_eq|rewrite (upd_ne _ _ _ _ _ n)]; cbn; auto 10.
Qed.

Lemma kill_kl s o i b j :
  kl (arrs (kill s o i) b) j = if (b =? o) && (j =? i) then true else kl (arrs s b) j.
Proof.
  cbn. unfold upd at 1. destruct (b =? o) eqn:Q; cbn; [|reflexivity].
  apply Nat.eqb_eq in Q. subst. unfold upd. destruct (j =? i); reflexivity.
Qed.

Lemma kill_lk s o i b j :
  lk (arrs (kill s o i) b) j = if (b =? o) && (j =? i) then None else lk (arrs s b) j.
Proof.
  cbn. unfold upd at 1. destruct (b =? o) eqn:Q; cbn; [|reflexivity].
  apply Nat.eqb_eq in Q. subst. unfold upd. destruct (j =? i); reflexivity.
Qed.

Lemma kill_next s t (c : cont) i lo n :
  INV s -> (exists g, gd (tks s t) = Some g) -> at_ (tks s t) <> PDone ->
  six s (with_pc (tks s t) (next c i)) ->
  cont_ok s t (tks s t) c i ->
  (forall o j, works (tks s t) o j -> o = old (tks s t) /\
     match c with KR p e => p <= j /\ j < e /\ i <= j | KD _ => False end) ->
  (forall j, lo <= j -> j < lo + n -> lk (arrs s (rf (tks s t))) j = Some t) ->
  INV (goto (kill (unlock_from s (rf (tks s t)) lo n) (old (tks s t)) i) t (next c i)).
Proof.
  intros H [g G] Hd S6 (HO & Hp & Hr & HC) HW HU.
  pose proof (v_ai s H) as HA. pose proof (v_ti s H t) as (T1 & _ & _).
  assert (Ho : old (tks s t) < na s) by apply HO.
  assert (Hi : i < ln (arrs s (old (tks s t)))) by apply HO.
  assert (Hk : kl (arrs s (old (tks s t))) i = false) by apply HO.
  assert (Hl : lk (arrs s (old (tks s t))) i = Some t) by apply HO.
  destruct (live_old s _ _ i HA Ho Hi Hk Hp) as [C1 C2].
  destruct (unlock_fields n s (rf (tks s t)) lo) as (U1 & U2 & U3 & U4 & U5 & U6 & U7 & U8).
  set (s1 := unlock_from s (rf (tks s t)) lo n) in *.
  set (a := rf (tks s t)) in *. set (o := old (tks s t)) in *.
  assert (FL : forall b, ln (arrs (kill s1 o i) b) = ln (arrs s b) /\ ad (arrs (kill s1 o i) b) = ad (arrs s b) /\
    lnk (arrs (kill s1 o i) b) = lnk (arrs s b) /\ par (arrs (kill s1 o i) b) = par (arrs s b) /\
    rt (arrs (kill s1 o i) b) = rt (arrs s b) /\ fr (arrs (kill s1 o i) b) = fr (arrs s b) /\
    pos (arrs (kill s1 o i) b) = pos (arrs s b) /\ refs (arrs (kill s1 o i) b) = refs (arrs s b)).
  { intro b. destruct (kill_fields s1 o i b) as (-> & -> & -> & -> & -> & -> & -> & ->).
    destruct (U7 b) as (-> & -> & -> & -> & -> & -> & -> & -> & _). auto 10. }
  assert (Hk' : tks (kill s1 o i) = tks s) by exact U3.
  assert (Hcu : cur (kill s1 o i) = cur s) by exact U1.
  assert (Hna : na (kill s1 o i) = na s) by exact U2.
  apply (INV_locks s _ t (with_pc (tks s t) (next c i))); auto.
  - intro t'. rewrite goto_tks, Hk'. reflexivity.
  - cbn. rewrite U6. exact (v_err s H).
  - cbn. lia.
  - intros b j X. change (kl (arrs (kill s1 o i) b) j = true). rewrite kill_kl.
    destruct (U7 b) as (_ & _ & _ & _ & _ & _ & _ & _ & ->). rewrite X. now destruct ((b =? o) && (j =? i)).
  - intros b j X Y. change (kl (arrs (kill s1 o i) b) j = true) in Y. rewrite kill_kl in Y.
    destruct (U7 b) as (_ & _ & _ & _ & _ & _ & _ & _ & E). rewrite E, X in Y.
    destruct ((b =? o) && (j =? i)) eqn:Z; [|discriminate Y].
    apply andb_true_iff in Z as [Z1 Z2]. apply Nat.eqb_eq in Z1, Z2. subst b j. split; [exact Hl|].
    intro Z. destruct (a_cur s HA o Z) as (_ & _ & W & _). congruence.
  - intros t' b j N X. change (lk (arrs (kill s1 o i) b) j = Some t'). rewrite kill_lk.
    destruct ((b =? o) && (j =? i)) eqn:Z.
    { apply andb_true_iff in Z as [Z1 Z2]. apply Nat.eqb_eq in Z1, Z2. subst b j. congruence. }
    rewrite U8. destruct ((b =? a) && ((lo <=? j) && (j <? lo + n))) eqn:W; [|exact X].
    apply andb_true_iff in W as [W1 W2]. apply andb_true_iff in W2 as [W2 W3].
    apply Nat.eqb_eq in W1. apply Nat.leb_le in W2. apply Nat.ltb_lt in W3. subst b.
    rewrite (HU j W2 W3) in X. congruence.
  - assert (PR : forall b, prot s (tks s t) b -> prot (goto (kill s1 o i) t (next c i)) (with_pc (tks s t) (next c i)) b).
    { intros b (g' & X1 & X2 & X3 & X4). exists g'. split; [exact X1|]. split; [cbn; lia|].
      destruct (FL b) as (_ & _ & _ & _ & E1 & E2 & _). cbn [arrs goto set_task] in *.
      rewrite E1, E2. auto. }
    split; [intros g' Y; cbn; rewrite U5; exact (T1 g' Y)|]. split.
    + intro S. specialize (S6 S). destruct (FL a) as (E & _).
      assert (X : a < na (kill s1 o i) /\ pl (tks s t) = ln (arrs (kill s1 o i) a) /\
                  ix (tks s t) < pl (tks s t)).
      { rewrite E, Hna. destruct c; exact S6. }
      destruct c; exact X.
    + destruct c as [p e|hi]; cbn [next with_pc at_].
      * destruct HC as ((A1 & A2 & A3) & B1 & B2 & B3). split.
        -- unfold act. cbn [arrs goto set_task cur with_pc rf old]. fold a o.
           destruct (FL o) as (_ & _ & _ & _ & _ & _ & _ & ->). destruct (FL a) as (_ & _ & -> & _).
           rewrite Hcu. auto.
        -- split; [lia|]. split; [lia|]. unfold range_ok in *. cbn [arrs goto set_task with_pc old].
           fold o. destruct (FL o) as (-> & _). exact B3.
      * split; [apply PR; exact (cur_prot s _ _ g HA C1 G)|].
        split; [apply PR; exact (lnk_prot s _ _ _ g HA Hr C2 G)|].
        unfold old_ok. cbn [arrs goto set_task with_pc old rf]. fold o a.
        destruct (FL o) as (-> & _ & _ & -> & _). split; [exact Hp|]. apply HC.
  - intros o' j W. destruct (HW o' j W) as [-> W']. fold o.
    change (kl (arrs (kill s1 o i) o) j = true \/ works (with_pc (tks s t) (next c i)) o j).
    rewrite kill_kl, Nat.eqb_refl. cbn [andb].
    destruct (Nat.eq_dec j i) as [->|N]; [rewrite Nat.eqb_refl; now left|right].
    destruct c as [p e|hi]; [|contradiction]. split; [reflexivity|]. cbn. lia.
  - destruct c; intro X; destruct X.
Qed.

Lemma rel_ok s t (c : cont) i : INV s -> at_ (tks s t) = PRel c i -> forall b, good (task_step bidx s t b).
Proof.
  intros H Q b. start s t H Q. unfold task_step in X. rewrite Q in X. cbv zeta in X.
  assert (HO : hold s t (old (tks s t)) i) by apply T3.
  destruct HO as (O1 & O2 & O3 & O4).
  destruct (live_bucket s _ i HA O1 O2 O3) as [_ Fo].
  assert (Hp : par (arrs s (old (tks s t))) = Some (rf (tks s t))) by apply T3.
  destruct (live_old s _ _ i HA O1 O2 O3 Hp) as [C1 C2].
  rewrite (deref_ok _ _ _ _ Fo) in X. destruct b.
  - injection X as <-.
    assert (H1 : INV (guard s t)) by (apply INV_guard; [exact H|exact Hd|congruence]).
    destruct (guard_fields s t) as (G1 & G2 & G3 & G4 & G5 & G6 & G7 & G8 & G9 & G10 & G11 & G12).
    assert (K : INV (goto (kill (unlock_from (guard s t) (rf (tks (guard s t) t)) 0 0)
                 (old (tks (guard s t) t)) i) t (next c i))).
    { apply kill_next; [exact H1|exact G6|congruence| | | |].
      - intro S. unfold with_pc in S |- *. cbn [kd at_ pl ix rf] in *. rewrite G9 in S. specialize (T2 S).
        rewrite G2, G3, G7, G10, G11. destruct c; cbn [next]; exact T2.
      - unfold cont_ok, hold, act, range_ok. rewrite G1, G2, G3, G7, G8. exact T3.
      - intros o j [W1 W2]. rewrite G12, Q in W2. destruct c; [|contradiction]. auto.
      - intros j A B. lia. }
    cbn [unlock_from] in K. rewrite G8 in K. exact K.
  - rewrite (deref_ok _ _ _ _ (cur_fr s _ HA C1)) in X.
    assert (Hr : rf (tks s t) < na s) by apply T3.
    pose proof (range_arr s _ (rf (tks s t)) i HA O1 Hr O2) as R.
    destruct (index_range (ln (arrs s (old (tks s t)))) (ln (arrs s (rf (tks s t)))) i) as [lo hi].
    cbn [fst snd] in R. injection X as <-.
    apply INV_goto; [exact H|exact Hd| | |intro Z; destruct Z].
    + split; [exact T1|split; [exact T2|]]. split; [exact T3|]. split; [lia|]. split; [lia|].
      split; [exact (proj2 R)|]. intros j' A B. lia.
    + intros o j [W1 W2]. rewrite Q in W2. right. destruct c; [|contradiction]. split; [exact W1|exact W2].
Qed.

Lemma tgt_ok s t w (c : cont) i lo hi j : INV s -> at_ (tks s t) = PTgt w c i lo hi j ->
  forall b, good (task_step bidx s t b).
Proof.
  intros H Q b. start s t H Q. unfold task_step in X. rewrite Q in X. cbv zeta in X.
  destruct T3 as (CK & P1 & P2 & P3 & P4).
  assert (HO : hold s t (old (tks s t)) i) by apply CK.
  destruct HO as (O1 & O2 & O3 & O4).
  assert (Hp : par (arrs s (old (tks s t))) = Some (rf (tks s t))) by apply CK.
  assert (Hr : rf (tks s t) < na s) by apply CK.
  destruct (live_old s _ _ i HA O1 O2 O3 Hp) as [C1 C2].
  assert (Hne : old (tks s t) <> rf (tks s t)).
  { intro E. destruct (a_cur s HA _ C1) as (_ & _ & Y & _). congruence. }
  destruct (j <? hi) eqn:J.
  - apply Nat.ltb_lt in J. assert (Hj : j < ln (arrs s (rf (tks s t)))) by lia.
    destruct (a_cur s HA _ C1) as (_ & _ & _ & KL).
    destruct (lock_cases s t _ j w b _ _ _ s' H Hr Hj (fun _ => cur_fr s _ HA C1) X) as [[K Y]|[(K & L & F & ->)|(-> & K & ->)]].
    + rewrite KL in K. discriminate K.
    + apply INV_got; [exact H|exact Hd|exact L| | |intros ? Z; exact Z].
      * split; [exact T1|]. split; [apply six_lk; exact T2|].
        split; [|split; [lia|split; [lia|]]].
        -- destruct CK as (D1 & D2 & D3 & D4). split; [exact (hold_lk s t _ _ _ _ D1 L)|].
           destruct (set_lk_fields s (rf (tks s t)) j (Some t) (old (tks s t))) as (L1 & L2 & _).
           split; [exact (eq_trans L2 D2)|]. split; [exact D3|]. destruct c as [p e|h].
           ++ destruct D4 as (E1 & E2 & E3 & E4). split; [apply act_lk; exact E1|].
              split; [exact E2|]. split; [exact E3|]. unfold range_ok in *.
              exact (eq_trans E4 (f_equal (Nat.min (p + chunk)) (eq_sym L1))).
           ++ destruct D4 as (E1 & E2). split; [exact E1|].
              change (h <= ln (arrs (set_lk s (rf (tks s t)) j (Some t)) (old (tks s t)))). now rewrite L1.
        -- change (hi <= ln (arrs (set_lk s (rf (tks s t)) j (Some t)) (rf (tks s t))) /\
             (forall j', lo <= j' -> j' < S j -> lk (arrs (set_lk s (rf (tks s t)) j (Some t)) (rf (tks s t))) j' = Some t)).
           destruct (set_lk_fields s (rf (tks s t)) j (Some t) (rf (tks s t))) as (L1 & _). rewrite L1.
           split; [exact P3|]. intros j' A B. rewrite set_lk_lk, Nat.eqb_refl. cbn [andb].
           destruct (j' =? j) eqn:E; [reflexivity|]. apply Nat.eqb_neq in E. apply P4; lia.
      * intros o j' [W1 W2]. rewrite Q in W2. split; [exact W1|exact W2].
    + apply INV_wait; [exact H|exact Hd| | |intros ? Z; exact Z].
      * split; [intros g Y; discriminate Y|]. split; [exact T2|]. split; [exact CK|auto].
      * intros o j' [W1 W2]. rewrite Q in W2. split; [exact W1|exact W2].
  - apply Nat.ltb_ge in J.
    assert (H1 : INV (guard s t)) by (apply INV_guard; [exact H|exact Hd|congruence]).
    destruct (guard_fields s t) as (G1 & G2 & G3 & G4 & G5 & G6 & G7 & G8 & G9 & G10 & G11 & G12).
    assert (F1 : fr (arrs (guard s t) (rf (tks s t))) = false) by (rewrite G2; exact (cur_fr s _ HA C1)).
    rewrite (deref_ok _ _ _ _ F1), G2, C2 in X.
    assert (F2 : fr (arrs (guard s t) (old (tks s t))) = false) by (rewrite G2; exact (lnk_fr s _ _ HA Hr C2)).
    rewrite (deref_ok _ _ _ _ F2) in X. injection X as <-.
    assert (K : INV (goto (kill (unlock_from (guard s t) (rf (tks (guard s t) t)) lo (hi - lo))
                 (old (tks (guard s t) t)) i) t (next c i))).
    { apply kill_next; [exact H1|exact G6|congruence| | | |].
      - intro S. unfold with_pc in S |- *. cbn [kd at_ pl ix rf] in *. rewrite G9 in S. specialize (T2 S).
        rewrite G2, G3, G7, G10, G11. destruct c; cbn [next]; exact T2.
      - unfold cont_ok, hold, act, range_ok. rewrite G1, G2, G3, G7, G8. exact CK.
      - intros o j' [W1 W2]. rewrite G12, Q in W2. destruct c; [|contradiction]. auto.
      - intros j' A B. rewrite G2, G7. apply P4; lia. }
    rewrite G7, G8 in K. exact K.
Qed.

End Step.
