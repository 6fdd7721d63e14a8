(** * Every step preserves the invariant *)

Require Import List Arith Bool Lia.
Import ListNotations.
Require Import Verif.SuspModel Verif.SuspSpec Verif.SuspFacts Verif.SuspFrame Verif.SuspStep Verif.SuspStep2.

Implicit Types (s : state) (k : task) (t a o i j p e q r g : nat).

Section Step.
Variable bidx : nat -> nat -> nat.
Hypothesis Hbx : indexes bidx.

Lemma retry_TI s t k :
  (forall g, gd k = Some g -> g < clk s) ->
  (is_scan (kd k) = true -> rf k < na s /\ pl k = ln (arrs s (rf k)) /\ ix k < pl k) ->
  rsafe s k ->
  TI s t (with_pc k (retry (kd k))).
Proof.
  intros A B C. split; [exact A|]. split.
  - intro S. cbn in S. specialize (B S). destruct (kd k); [discriminate S|exact B|exact B].
  - destruct (kd k) eqn:Q; cbn.
    + exact Logic.I.
    + unfold rsafe in *. cbn. rewrite Q in *. exact C.
    + unfold rsafe in *. cbn. rewrite Q in *. exact C.
Qed.

Lemma retry_closer s k : ~ closer s (with_pc k (retry (kd k))).
Proof. unfold closer. cbn. destruct (kd k); cbn; auto. Qed.

Lemma idx_ok s t : INV s -> at_ (tks s t) = PIdx -> forall b, good (task_step bidx s t b).
Proof.
  intros H Q b. start s t H Q. unfold task_step in X. rewrite Q in X. cbv zeta in X.
  destruct T3 as (A & B). destruct (kd (tks s t)) eqn:K.
  - rewrite (deref_ok _ _ _ _ B) in X. injection X as <-.
    apply INV_goto; [exact H|exact Hd| |nw Q|intro Z; destruct Z].
    split; [exact T1|]. split; [intro S; cbn in S; rewrite K in S; discriminate S|].
    split; [exact A|]. split; [exact B|]. apply Hbx. exact (ln_pos s _ HA A).
  - injection X as <-. apply INV_goto; [exact H|exact Hd| |nw Q|intro Z; destruct Z].
    destruct (T2 eq_refl) as (S1 & S2 & S3).
    split; [exact T1|]. split; [intro S; exact (T2 eq_refl)|].
    split; [exact A|]. split; [exact B|]. cbn. lia.
  - injection X as <-. apply INV_goto; [exact H|exact Hd| |nw Q|intro Z; destruct Z].
    destruct (T2 eq_refl) as (S1 & S2 & S3).
    split; [exact T1|]. split; [intro S; exact (T2 eq_refl)|].
    split; [exact A|]. split; [exact B|]. cbn. lia.
Qed.

Lemma chk_ok s t j : INV s -> at_ (tks s t) = PChk j -> forall b, good (task_step bidx s t b).
Proof.
  intros H0 Q0 b s' X. unfold task_step in X. rewrite Q0 in X. cbv zeta in X.
  assert (H : INV (guard s t)) by (apply INV_guard; [exact H0|congruence|congruence]).
  destruct (guard_fields s t) as (_ & _ & _ & _ & _ & [g G] & G7 & G8 & G9 & G10 & G11 & Q). rewrite Q0 in Q.
  rewrite <- G7, <- G8, <- G9, <- G10, <- G11 in X. clear G7 G8 G9 G10 G11.
  revert H Q G X. generalize (guard s t). clear s H0 Q0. intros s H Q G X.
  pose proof (v_ai s H) as HA; pose proof (v_ti s H t) as (T1 & T2 & T3);
  assert (Hd : at_ (tks s t) <> PDone) by congruence;
  unfold six in T2; rewrite Q in T2, T3.
  destruct T3 as (A & B & C).
  assert (RI : INV (goto s t (retry (kd (tks s t))))).
  { apply INV_goto; [exact H|exact Hd| |nw Q|intro Z; destruct (retry_closer _ _ Z)].
    apply retry_TI; [exact T1|exact T2|]. split; [exact A|intro; exact B]. }
  destruct (cur s) as [c|] eqn:CU; [|injection X as <-; exact RI].
  destruct (ad (arrs s c) =? ad (arrs s (rf (tks s t)))) eqn:E; [|injection X as <-; exact RI].
  apply Nat.eqb_eq in E.
  assert (EQ : c = rf (tks s t)).
  { apply (a_ad s HA); auto; [exact (cur_lt s c HA CU)|exact (cur_fr s c HA CU)]. }
  subst c. rewrite (deref_ok _ _ _ _ B) in X.
  pose proof (cur_prot s (tks s t) _ g HA CU G) as PR.
  destruct (lnk (arrs s (rf (tks s t)))) as [o|] eqn:L.
  - rewrite (deref_ok _ _ _ _ (lnk_fr s _ o HA A L)) in X.
    destruct (a_lnk s HA _ o A L) as (_ & Ho & Hp & _).
    pose proof (range_arr s _ o j HA A Ho C) as R.
    destruct (index_range (ln (arrs s (rf (tks s t)))) (ln (arrs s o)) j) as [lo hi]. cbn [fst snd] in R.
    injection X as <-.
    set (k' := mkT (gd (tks s t)) (rf (tks s t)) o (kd (tks s t)) (ix (tks s t)) (pl (tks s t)) (PDd false lo hi)).
    apply (INV_pure s _ t k'); auto; try reflexivity.
    + exact (v_err s H).
    + split; [exact T1|]. split; [exact T2|]. unfold k' at 1. cbn [at_].
      split; [exact PR|]. split; [exact (lnk_prot s k' _ o g HA A L G)|]. split; [exact Hp|exact (proj2 R)].
    + nw Q.
    + intro Z. destruct Z.
  - injection X as <-.
    set (k' := mkT (gd (tks s t)) (rf (tks s t)) (old (tks s t)) (kd (tks s t)) (ix (tks s t)) (pl (tks s t)) PLock).
    apply (INV_pure s _ t k'); auto; try reflexivity.
    + exact (v_err s H).
    + split; [exact T1|]. split; [exact T2|exact PR].
    + nw Q.
    + intro Z. destruct Z.
Qed.

Lemma dd_ok s t w i hi : INV s -> at_ (tks s t) = PDd w i hi -> forall b, good (task_step bidx s t b).
Proof.
  intros H Q b. start s t H Q. unfold task_step in X. rewrite Q in X. cbv zeta in X.
  assert (D : rf (tks s t) < na s /\ old (tks s t) < na s /\ old_ok s (tks s t) /\ hi <= ln (arrs s (old (tks s t))) /\
              (w = false -> fr (arrs s (rf (tks s t))) = false /\ fr (arrs s (old (tks s t))) = false)).
  { destruct w.
    - destruct T3 as (_ & (D1 & _) & D2 & D3 & _ & D4). split; [exact D1|]. split; [exact D2|]. split; [exact D3|].
      split; [exact D4|discriminate].
    - destruct T3 as (D1 & D2 & D3 & D4). split; [exact (prot_lt _ _ _ D1)|]. split; [exact (prot_lt _ _ _ D2)|].
      split; [exact D3|]. split; [exact D4|]. intros _. split; [exact (prot_fr _ _ _ D1)|exact (prot_fr _ _ _ D2)]. }
  destruct D as (Hr & Ho & Hp & Hh & Fr).
  destruct (i <? hi) eqn:I.
  - apply Nat.ltb_lt in I. assert (Hi : i < ln (arrs s (old (tks s t)))) by lia.
    destruct (lock_cases s t _ i w b _ _ _ s' H Ho Hi (fun E => proj2 (Fr E)) X) as [[K Y]|[(K & L & F & ->)|(-> & K & ->)]].
    + injection Y as <-. destruct (gd (tks s t)) as [g|] eqn:G.
      * destruct w; [destruct T3 as (N & _); discriminate N|].
        apply INV_goto; [exact H|exact Hd| |nw Q|intro Z; destruct Z].
        split; [rewrite <- G in T1; exact T1|split; [exact T2|exact T3]].
      * destruct w.
        -- apply INV_goto; [exact H|exact Hd| |nw Q|intro Z; destruct (retry_closer _ _ Z)].
           apply retry_TI; [rewrite G; exact T1|exact T2|]. destruct T3 as (_ & R & _). exact R.
        -- destruct T3 as ((g & N & _) & _). congruence.
    + apply INV_got; [exact H|exact Hd|exact L| | |intros ? Z; exact Z].
      * split; [exact T1|]. split; [apply six_lk; exact T2|].
        split; [exact (set_lk_hold s t _ i Ho Hi K)|].
        destruct (set_lk_fields s (old (tks s t)) i (Some t) (old (tks s t))) as (L1 & L2 & _).
        split; [exact (eq_trans L2 Hp)|]. split; [exact Hr|]. split; [exact I|].
        change (hi <= ln (arrs (set_lk s (old (tks s t)) i (Some t)) (old (tks s t)))). now rewrite L1.
      * intros o j [_ W]. rewrite Q in W. destruct W.
    + apply INV_wait; [exact H|exact Hd| | |intros ? Z; exact Z].
      * split; [intros g Y; discriminate Y|]. split; [exact T2|]. split; [reflexivity|].
        split; [split; [exact Hr|intro; apply (Fr eq_refl)]|]. split; [exact Ho|]. split; [exact Hp|]. split; [exact I|exact Hh].
      * intros o j [_ W]. rewrite Q in W. destruct W.
  - destruct w.
    { apply Nat.ltb_ge in I. destruct T3 as (_ & _ & _ & _ & D & _). lia. }
    injection X as <-. apply INV_goto; [exact H|exact Hd| |nw Q|intro Z; destruct Z].
    split; [exact T1|split; [exact T2|apply T3]].
Qed.

Lemma dc_ok s t i hi : INV s -> at_ (tks s t) = PDc i hi -> forall b, good (task_step bidx s t b).
Proof.
  intros H Q b. start s t H Q. unfold task_step in X. rewrite Q in X. cbv zeta in X.
  destruct T3 as (D1 & D2 & D3 & D4).
  rewrite (deref_ok _ _ _ _ (prot_fr _ _ _ D1)) in X. injection X as <-.
  destruct (lnk (arrs s (rf (tks s t)))); (apply INV_goto; [exact H|exact Hd| |nw Q|intro Z; destruct Z]).
  - split; [exact T1|split; [exact T2|]]. split; [exact D1|auto].
  - split; [exact T1|split; [exact T2|exact D1]].
Qed.

Lemma lock_ok s t : INV s -> at_ (tks s t) = PLock -> forall b, good (task_step bidx s t b).
Proof.
  intros H Q b. start s t H Q. unfold task_step in X. rewrite Q in X. cbv zeta in X.
  rewrite (deref_ok _ _ _ _ (prot_fr _ _ _ T3)) in X. injection X as <-.
  apply INV_goto; [exact H|exact Hd| |nw Q|intro Z; destruct Z].
  split; [exact T1|split; [exact T2|]]. split; [exact T3|].
  pose proof (prot_lt _ _ _ T3) as L. destruct (kd (tks s t)) eqn:K; cbn.
  - apply Hbx. exact (ln_pos s _ HA L).
  - destruct (T2 eq_refl) as (_ & S2 & S3). lia.
  - destruct (T2 eq_refl) as (_ & S2 & S3). lia.
Qed.

Lemma lk_ok s t w i : INV s -> at_ (tks s t) = PLk w i -> forall b, good (task_step bidx s t b).
Proof.
  intros H Q b. start s t H Q. unfold task_step in X. rewrite Q in X. cbv zeta in X.
  assert (D : rsafe s (tks s t) /\ i < ln (arrs s (rf (tks s t))) /\ (w = false -> fr (arrs s (rf (tks s t))) = false)).
  { destruct w.
    - destruct T3 as (D1 & D2). split; [exact D1|]. split; [exact D2|discriminate].
    - destruct T3 as (D1 & D2). pose proof (prot_fr _ _ _ D1) as F. split; [split; [exact (prot_lt _ _ _ D1)|intro; exact F]|].
      split; [exact D2|intro; exact F]. }
  destruct D as (RS & Hi & Fr). assert (Hr : rf (tks s t) < na s) by apply RS.
  destruct (lock_cases s t _ i w b _ _ _ s' H Hr Hi Fr X) as [[K Y]|[(K & L & F & ->)|(-> & K & ->)]].
  - injection Y as <-. apply INV_goto; [exact H|exact Hd| |nw Q|intro Z; destruct (retry_closer _ _ Z)].
    apply retry_TI; [exact T1|exact T2|exact RS].
  - apply INV_got; [exact H|exact Hd|exact L| | |intros ? Z; exact Z].
    + split; [exact T1|]. split; [apply six_lk; exact T2|]. exact (set_lk_hold s t _ i Hr Hi K).
    + intros o j [_ W]. rewrite Q in W. destruct W.
  - apply INV_wait; [exact H|exact Hd| | |intros ? Z; exact Z].
    + split; [intros g Y; discriminate Y|]. split; [exact T2|]. split; [exact RS|exact Hi].
    + intros o j [_ W]. rewrite Q in W. destruct W.
Qed.

(** The scan has its bucket: it holds a guard and checks that the array is current. *)
Lemma got_scan s t i : INV s -> at_ (tks s t) = PGot i -> is_scan (kd (tks s t)) = true ->
  (exists g, gd (tks s t) = Some g) ->
  forall s', match cur s with
  | None => Some (goto (set_lk s (rf (tks s t)) i None) t PBrk)
  | Some c =>
      if ad (arrs s c) =? ad (arrs s (rf (tks s t)))
      then deref s t (rf (tks s t))
             (Some (set_task (set_lk s (rf (tks s t)) i None) t (mkT (gd (tks s t)) (rf (tks s t)) (old (tks s t)) (kd (tks s t)) (S (ix (tks s t))) (pl (tks s t)) PNext)))
      else Some (goto (set_lk s (rf (tks s t)) i None) t PBrk)
  end = Some s' -> INV s'.
Proof.
  intros H Q SC [g G]. start s t H Q. destruct T3 as (A & B & C & D).
  destruct (live_bucket s _ i HA A B C) as [R F]. destruct (T2 SC) as (S1 & S2 & S3).
  set (a := rf (tks s t)) in *.
  assert (BR : INV (goto (set_lk s a i None) t PBrk)).
  { apply (INV_unlock s _ t (with_pc (tks s t) PBrk) a i); auto; try reflexivity.
    - exact (v_err s H).
    - destruct (set_lk_fields s a i None a) as (L1 & _ & L3 & _).
      split; [exact T1|]. split; [intros _; cbn [at_ with_pc rf pl ix]; fold a; split; [exact A|]; split; [exact (eq_trans S2 (eq_sym L1))|exact S3]|].
      split; [exact A|]. intros _. exact (eq_trans L3 F).
    - nw Q.
    - intro Z. destruct Z. }
  destruct (cur s) as [c|] eqn:CU; [|injection X as <-; exact BR].
  destruct (ad (arrs s c) =? ad (arrs s a)) eqn:E; [|injection X as <-; exact BR].
  rewrite (deref_ok _ _ _ _ F) in X. injection X as <-.
  set (k' := mkT _ _ _ _ _ _ _).
  apply (INV_unlock s _ t k' a i); auto; try reflexivity.
  - exact (v_err s H).
  - destruct (set_lk_fields s a i None a) as (L1 & _ & L3 & L4 & _).
    split; [exact T1|]. split.
    + intros _. subst k'. cbn [at_ pl ix rf]. change (tks (set_lk s a i None) t) with (tks s t). fold a.
      split; [exact (eq_trans S2 (eq_sym L1))|lia].
    + exists g. split; [exact G|]. split; [exact A|]. split; [exact (eq_trans L3 F)|].
      intros r Hr. change (rt (arrs (set_lk s a i None) a) = Some r) in Hr. rewrite L4 in Hr. congruence.
  - nw Q.
  - intro Z. destruct Z.
Qed.

Lemma got_ok s t i : INV s -> at_ (tks s t) = PGot i -> forall b, good (task_step bidx s t b).
Proof.
  intros H Q b. start s t H Q. unfold task_step in X. rewrite Q in X. cbv zeta in X.
  assert (H1 : INV (guard s t)) by (apply INV_guard; [exact H|congruence|congruence]).
  destruct (guard_fields s t) as (_ & _ & _ & _ & _ & G & G7 & G8 & G9 & G10 & G11 & Q1). rewrite Q in Q1.
  destruct (kd (tks s t)) eqn:K.
  - destruct T3 as (A & B & C & D). destruct (live_bucket s _ i HA A B C) as [_ F].
    rewrite (deref_ok _ _ _ _ F) in X. injection X as <-.
    set (k' := mkT _ _ _ _ _ _ _).
    apply (INV_unlock s _ t k' (rf (tks s t)) i); auto; try reflexivity.
    + exact (v_err s H).
    + split; [intros g Z; discriminate Z|]. split; [intros _; exact Logic.I|reflexivity].
    + nw Q.
    + intro Z. destruct Z.
  - rewrite <- G7, <- G8, <- G10, <- G11 in X.
    apply (got_scan (guard s t) t i H1 Q1); [rewrite G9; reflexivity|exact G|rewrite G9; exact X].
  - rewrite <- G7, <- G8, <- G10, <- G11 in X.
    apply (got_scan (guard s t) t i H1 Q1); [rewrite G9; reflexivity|exact G|rewrite G9; exact X].
Qed.

Lemma next_ok s t : INV s -> at_ (tks s t) = PNext -> forall b, good (task_step bidx s t b).
Proof.
  intros H Q b. start s t H Q. unfold task_step in X. rewrite Q in X. cbv zeta in X.
  assert (GO : ix (tks s t) < pl (tks s t) -> INV (goto s t PHas)).
  { intro L. apply INV_goto; [exact H|exact Hd| |nw Q|intro Z; destruct Z].
    split; [exact T1|]. split; [|exact T3]. intro S. destruct (T2 S) as [E _].
    cbn [at_ with_pc rf pl ix]. split; [exact (prot_lt _ _ _ T3)|]. split; [exact E|exact L]. }
  assert (DN : forall k', gd k' = None -> at_ k' = PDone -> INV (set_task s t k')).
  { intros k' A B. apply done_ok; auto. nw Q. }
  assert (C : forall n, n = pl (tks s t) ->
    INV (if ix (tks s t) <? n then goto s t PHas
         else set_task s t (mkT None (rf (tks s t)) (old (tks s t)) (kd (tks s t)) (ix (tks s t)) (pl (tks s t)) PDone))).
  { intros n ->. destruct (ix (tks s t) <? pl (tks s t)) eqn:L; [apply GO, Nat.ltb_lt, L|apply DN; reflexivity]. }
  destruct (kd (tks s t)) eqn:K; try rewrite (deref_ok _ _ _ _ (prot_fr _ _ _ T3)) in X; injection X as <-; apply C; auto.
  symmetry. apply (T2 eq_refl).
Qed.

Lemma brk_ok s t : INV s -> at_ (tks s t) = PBrk -> forall b, good (task_step bidx s t b).
Proof.
  intros H Q b. start s t H Q. unfold task_step in X. rewrite Q in X. cbv zeta in X.
  assert (GO : INV (goto s t PLoad)).
  { apply INV_goto; [exact H|exact Hd| |nw Q|intro Z; destruct Z].
    split; [exact T1|]. split; [|exact Logic.I]. intro S. destruct (T2 S) as (A & E & L).
    cbn [at_ with_pc rf pl ix]. right. destruct (a_ln s HA _ A) as [e Y]. exists e. split; congruence || exact L. }
  assert (DN : forall k', gd k' = None -> at_ k' = PDone -> INV (set_task s t k')).
  { intros k' A B. apply done_ok; auto. nw Q. }
  assert (C : forall n k', gd k' = None -> at_ k' = PDone ->
    INV (if ix (tks s t) =? n then set_task s t k' else goto s t PLoad)).
  { intros n k' A B. destruct (ix (tks s t) =? n); [apply DN; assumption|exact GO]. }
  destruct T3 as [R1 R2].
  destruct (kd (tks s t)) eqn:K; try rewrite (deref_ok _ _ _ _ (R2 eq_refl)) in X; injection X as <-; apply C; reflexivity.
Qed.

Lemma task_ok s t b : INV s -> good (task_step bidx s t b).
Proof.
  intro H. destruct (at_ (tks s t)) eqn:Q.
  - intros s' X. unfold task_step in X. rewrite Q in X. discriminate X.
  - intros s' X. unfold task_step in X. rewrite Q in X. exact (load_ok s t H Q s' X).
  - eapply has_ok; eassumption.
  - eapply rh_ok; eassumption.
  - eapply rb_ok; eassumption.
  - eapply rel_ok; eassumption.
  - eapply tgt_ok; eassumption.
  - eapply end_ok; eassumption.
  - eapply end2_ok; eassumption.
  - eapply unl_ok; eassumption.
  - eapply unl2_ok; eassumption.
  - apply idx_ok; assumption.
  - eapply chk_ok; eassumption.
  - eapply dd_ok; eassumption.
  - eapply dc_ok; eassumption.
  - apply lock_ok; assumption.
  - eapply lk_ok; eassumption.
  - eapply got_ok; eassumption.
  - apply next_ok; assumption.
  - apply brk_ok; assumption.
Qed.

(** ** Cancellation *)

Lemma give_back_ok s t p e i s' : INV s -> (exists w, at_ (tks s t) = PRb w p e i) ->
  deref s t (old (tks s t)) (Some (set_task (give_back s t (old (tks s t)) p) t (waiting (tks s t) PDone))) = Some s' ->
  INV s'.
Proof.
  intros H [w Q] X. 
  pose proof (v_ai s H) as HA; pose proof (v_ti s H t) as (T1 & T2 & T3);
  assert (Hd : at_ (tks s t) <> PDone) by congruence; rewrite Q in T3.
  destruct T3 as (A & P1 & P2 & P3). destruct (act_lt s t _ HA A) as (Hr & Ho & Hp & Fr & Fo).
  rewrite (deref_ok _ _ _ _ Fo) in X. injection X as <-. unfold give_back.
  set (q := Nat.min (pos (arrs s (old (tks s t)))) p).
  apply (INV_leave s _ t (waiting (tks s t) PDone) q); auto; try reflexivity.
  - exact (v_err s H).
  - unfold q. lia.
  - intros j L [_ W]. rewrite Q in W. unfold q in L. lia.
  - split; [intros g Z; discriminate Z|]. split; [intros _; exact Logic.I|reflexivity].
Qed.
End Step.
