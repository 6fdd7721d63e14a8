(** * Every run that is careful about reclamation is harmless *)

Require Import List Arith Bool Lia.
Import ListNotations.
Require Import Verif.SuspModel Verif.SuspSpec Verif.SuspFacts Verif.SuspFrame Verif.SuspStep Verif.SuspStep2 Verif.SuspStep3.

Implicit Types (s : state) (k : task) (t a o i j p e q r g : nat).

Lemma upd_upd A (f : nat -> A) x v v' y : upd (upd f x v) x v' y = upd f x v' y.
Proof. unfold upd. destruct (y =? x); reflexivity. Qed.

(** ** Cancellation *)

Lemma cancel_ok s t : INV s -> good (cancel_step s t).
Proof.
  intros H s' X. unfold cancel_step in X. cbv zeta in X.
  pose proof (v_ai s H) as HA; pose proof (v_ti s H t) as (T1 & T2 & T3).
  destruct (at_ (tks s t)) as [| | | |[|] p e i|c i|[|] [p e|h] i lo hi j|p|q| | | |j|[|] i hi|i hi| |[|] i|i| |] eqn:Q;
    try discriminate X.
  - apply (give_back_ok s t p e i s' H); [exists true; exact Q|exact X].
  - destruct T3 as (CK & _).
    assert (Hd : at_ (tks s t) <> PDone) by congruence.
    destruct CK as (HO & Hp & Hr & AC & P1 & P2 & P3).
    destruct (act_lt s t _ HA AC) as (_ & Ho & _ & _ & Fo).
    rewrite (deref_ok _ _ _ _ Fo) in X. injection X as <-.
    set (o := old (tks s t)) in *.
    set (k1 := with_pc (tks s t) (PRb true p e i)).
    set (s1 := set_task (set_lk s o i None) t k1).
    assert (H1 : INV s1).
    { apply (INV_unlock s s1 t k1 o i); auto; try reflexivity.
      - apply HO.
      - exact (v_err s H).
      - split; [exact T1|]. split.
        + unfold six in *. rewrite Q in T2. intro S. specialize (T2 S).
          destruct (set_lk_fields s o i None (rf (tks s t))) as (L & _).
          cbn [at_ k1 with_pc rf pl ix]. change (arrs s1) with (arrs (set_lk s o i None)).
          unfold k1. cbn [at_ with_pc rf pl ix]. rewrite L. exact T2.
        + split; [apply (act_lk s t o i None (tks s t)); exact AC|]. split; [exact P1|]. split; [lia|].
          unfold range_ok. change (e = Nat.min (p + chunk) (ln (arrs (set_lk s o i None) o))).
          destruct (set_lk_fields s o i None o) as (-> & _). exact P3.
      - intros o' j' [W1 W2]. rewrite Q in W2. split; [exact W1|exact W2].
      - intro Z. destruct Z. }
    assert (E1 : tks s1 t = k1) by (unfold s1; cbn; apply upd_eq).
    assert (A1 : act s1 t k1) by (apply (act_lk s t o i None (tks s t)); exact AC).
    apply (INV_leave s1 _ t (waiting (tks s t) PDone) (Nat.min (pos (arrs s o)) p)).
    + exact H1.
    + rewrite E1. discriminate.
    + rewrite E1. exact A1.
    + intro t'. unfold s1. cbn [tks set_task give_back set_rh set_arr set_lk]. now rewrite upd_upd.
    + reflexivity.
    + exact (v_err s H).
    + reflexivity.
    + reflexivity.
    + reflexivity.
    + rewrite E1. change (old k1) with o. change (arrs s1) with (arrs (set_lk s o i None)).
      unfold give_back. change (arrs (set_task (set_rh (set_lk s o i None) o
        (Nat.min (pos (arrs (set_lk s o i None) o)) p) (drop_ref t (refs (arrs (set_lk s o i None) o)))) t (waiting (tks s t) PDone)))
        with (arrs (set_rh (set_lk s o i None) o
        (Nat.min (pos (arrs (set_lk s o i None) o)) p) (drop_ref t (refs (arrs (set_lk s o i None) o))))).
      destruct (set_lk_fields s o i None o) as (_ & _ & _ & _ & _ & _ & _ & E & _). rewrite E. reflexivity.
    + rewrite E1. change (old k1) with o. change (arrs s1) with (arrs (set_lk s o i None)).
      destruct (set_lk_fields s o i None o) as (_ & _ & _ & _ & _ & _ & _ & -> & _). lia.
    + rewrite E1. intros i' L [_ W]. cbn in W. lia.
    + split; [intros g Z; discriminate Z|]. split; [intros _; exact Logic.I|reflexivity].
  - destruct T3 as (CK & _).
    assert (Hd : at_ (tks s t) <> PDone) by congruence.
    destruct CK as (HO & Hp & Hr & P).
    assert (Fo : fr (arrs s (old (tks s t))) = false).
    { destruct HO as (A & B & C & D). exact (proj2 (live_bucket s _ i HA A B C)). }
    rewrite (deref_ok _ _ _ _ Fo) in X. injection X as <-.
    apply (INV_unlock s _ t (waiting (tks s t) PDone) (old (tks s t)) i); auto; try reflexivity.
    + apply HO.
    + exact (v_err s H).
    + split; [intros g Z; discriminate Z|]. split; [intros _; exact Logic.I|reflexivity].
    + nw Q.
    + intro Z. destruct Z.
  - injection X as <-. apply done_ok; auto; [congruence|]. nw Q.
  - injection X as <-. apply done_ok; auto; [congruence|]. nw Q.
Qed.

Lemma start_ok s t (k : kind) : INV s -> good (start_step s t k).
Proof.
  intros H s' X. unfold start_step in X.
  destruct (at_ (tks s t)) eqn:Q; try discriminate X.
  destruct (t <? nt s) eqn:L; [|discriminate X]. apply Nat.ltb_lt in L. injection X as <-.
  apply (INV_pure s _ t (mkT None 0 0 k 0 0 PLoad)); auto; try reflexivity.
  - exact (v_err s H).
  - split; [intros g Z; discriminate Z|]. split; [intros _; now left|exact Logic.I].
  - nw Q.
  - intro Z. destruct Z.
Qed.

(** ** The environment *)

Lemma addr_ok_spec s d : addr_ok s d = true -> forall a, a < na s -> fr (arrs s a) = false -> ad (arrs s a) <> d.
Proof.
  intros H a A F E. unfold addr_ok in H. rewrite forallb_forall in H.
  assert (I : In a (seq 0 (na s))) by (apply in_seq; lia). specialize (H a I). cbn beta in H.
  rewrite F, E, Nat.eqb_refl in H. discriminate H.
Qed.

(** A new array [x] becomes current; [ar] are the arrays, with the former current one noted as old. *)
Lemma INV_fresh s ar x :
  INV s ->
  (forall a, ln (ar a) = ln (arrs s a) /\ ad (ar a) = ad (arrs s a) /\ lnk (ar a) = lnk (arrs s a) /\
             rt (ar a) = rt (arrs s a) /\ fr (ar a) = fr (arrs s a) /\ kl (ar a) = kl (arrs s a) /\
             lk (ar a) = lk (arrs s a) /\ pos (ar a) = pos (arrs s a) /\ refs (ar a) = refs (arrs s a)) ->
  (forall a c, par (arrs s a) = Some c -> par (ar a) = Some c) ->
  (forall c, cur s = Some c -> lnk (arrs s c) = None /\ lnk x = Some c /\ par (ar c) = Some (na s)) ->
  (cur s = None -> lnk x = None) ->
  (exists e, ln x = 2 ^ e) -> rt x = None -> fr x = false -> par x = None -> pos x = 0 ->
  (forall i, kl x i = false) ->
  (forall a, a < na s -> fr (arrs s a) = false -> ad (arrs s a) <> ad x) ->
  INV (mkS (Some (na s)) (upd ar (na s) x) (S (na s)) (tks s) (nt s) (clk s) (err s)).
Proof.
  intros H FL HP HC HN HL HR HF HPx HPo HK HAd. pose proof (v_ai s H) as HA.
  set (s1 := mkS _ _ _ _ _ _ _).
  assert (OLD : forall a, a < na s -> arrs s1 a = ar a).
  { intros a A. subst s1. cbn. apply upd_ne. lia. }
  assert (NEW : arrs s1 (na s) = x) by (subst s1; cbn; apply upd_eq).
  assert (NL : forall a o, a < na s -> lnk (arrs s a) <> Some o).
  { intros a o A E. destruct (a_lnk s HA a o A E) as (C & _). destruct (HC a C) as (N & _). congruence. }
  assert (C5 : forall a, a < na s -> a = na s -> False) by (intros; lia).
  assert (HAI : AI s1).
  { split.
    - intros c E. injection E as <-. rewrite NEW. cbn. split; [lia|auto].
    - intros a o A E. destruct (Nat.eq_dec a (na s)) as [->|n].
      + rewrite NEW in E. destruct (cur s) as [c|] eqn:CU.
        * destruct (HC c eq_refl) as (N1 & N2 & N3). assert (o = c) by congruence. subst o.
          destruct (a_cur s HA c CU) as (D1 & D2 & _). split; [reflexivity|]. split; [cbn; lia|].
          rewrite (OLD c D1). destruct (FL c) as (_ & _ & _ & -> & _). auto.
        * rewrite (HN eq_refl) in E. discriminate E.
      + assert (A' : a < na s) by (cbn in A; lia). rewrite (OLD a A') in E.
        destruct (FL a) as (_ & _ & E' & _). rewrite E' in E. exfalso. exact (NL a o A' E).
    - intros a i A I K. destruct (Nat.eq_dec a (na s)) as [->|n]; [now left|].
      assert (A' : a < na s) by (cbn in A; lia). rewrite (OLD a A') in I, K.
      destruct (FL a) as (E1 & _ & _ & _ & _ & E2 & _). rewrite E1 in I. rewrite E2 in K.
      destruct (a_kl s HA a i A' I K) as [Y|(c & Y & Z)].
      + right. exists (na s). split; [reflexivity|]. rewrite NEW. apply (HC a Y).
      + exfalso. exact (NL c a (cur_lt s c HA Y) Z).
    - intros a A. destruct (Nat.eq_dec a (na s)) as [->|n]; [rewrite NEW; exact HL|].
      assert (A' : a < na s) by (cbn in A; lia). rewrite (OLD a A').
      destruct (FL a) as (-> & _). exact (a_ln s HA a A').
    - intros a b A B F1 F2 E.
      destruct (Nat.eq_dec a (na s)) as [->|n]; destruct (Nat.eq_dec b (na s)) as [->|m]; [reflexivity| | |].
      + assert (B' : b < na s) by (cbn in B; lia). rewrite (OLD b B') in *. rewrite NEW in *.
        destruct (FL b) as (_ & E1 & _ & _ & E2 & _). rewrite E1 in E. rewrite E2 in F2.
        exfalso. exact (HAd b B' F2 (eq_sym E)).
      + assert (A' : a < na s) by (cbn in A; lia). rewrite (OLD a A') in *. rewrite NEW in *.
        destruct (FL a) as (_ & E1 & _ & _ & E2 & _). rewrite E1 in E. rewrite E2 in F1.
        exfalso. exact (HAd a A' F1 E).
      + assert (A' : a < na s) by (cbn in A; lia). assert (B' : b < na s) by (cbn in B; lia).
        rewrite (OLD a A'), (OLD b B') in *.
        destruct (FL a) as (_ & E1 & _ & _ & E2 & _). destruct (FL b) as (_ & E3 & _ & _ & E4 & _).
        rewrite E1, E3 in E. rewrite E2 in F1. rewrite E4 in F2. exact (a_ad s HA a b A' B' F1 F2 E).
    - intros a A R. destruct (Nat.eq_dec a (na s)) as [->|n]; [rewrite NEW; exact HF|].
      assert (A' : a < na s) by (cbn in A; lia). rewrite (OLD a A') in *.
      destruct (FL a) as (_ & _ & _ & E1 & E2 & _). rewrite E1 in R. rewrite E2. exact (a_fr s HA a A' R). }
  assert (NA : forall t k, ~ act s t k).
  { intros t k (_ & Y & Z). exact (NL _ _ (cur_lt s _ HA Y) Z). }
  assert (NCL : forall t, ~ closer s (tks s t)).
  { intros t Y. destruct (closer_closing s t H Y) as (D1 & D2 & _). exact (NL _ _ (cur_lt s _ HA D1) D2). }
  split.
  - exact HAI.
  - intro t. apply (TI_frame s s1); auto.
    + subst s1. cbn. lia.
    + intros a A. rewrite (OLD a A). apply FL.
    + intros a c A E. rewrite (OLD a A). exact (HP a c E).
    + intros a r A E. left. rewrite (OLD a A) in E. destruct (FL a) as (_ & _ & _ & E1 & _). congruence.
    + intros a A F _. rewrite (OLD a A). destruct (FL a) as (_ & _ & _ & _ & -> & _). exact F.
    + intros a i A I L. rewrite (OLD a A). destruct (FL a) as (_ & _ & _ & _ & _ & -> & -> & _). auto.
    + intro Y. exfalso. exact (NA _ _ Y).
    + intro Y. exfalso. exact (NCL _ Y).
    + intros a A E. rewrite (OLD a A). destruct (FL a) as (_ & _ & -> & _). exact E.
    + exact (v_ti s H t).
  - intros c o i E1 E2 E3 E4 E5. exfalso. cbn in E1. injection E1 as <-. rewrite NEW in E2.
    destruct (cur s) as [c|] eqn:CU.
    + destruct (HC c eq_refl) as (N1 & N2 & N3). assert (o = c) by congruence. subst o.
      destruct (a_cur s HA c CU) as (D1 & D2 & D3 & _). rewrite (OLD c D1) in E3.
      destruct (FL c) as (_ & _ & _ & _ & _ & _ & _ & E & _). rewrite E, (v_pos s H c D1 D3) in E3. lia.
    + rewrite (HN eq_refl) in E2. discriminate E2.
  - intros t1 t2 Y1 Y2. exfalso.
    assert (Z : forall t, closer s1 (tks s t) -> False).
    { intros t Y. apply (NCL t). destruct (v_ti s H t) as (_ & _ & T). unfold closer in *.
      destruct (at_ (tks s t)); auto. destruct T as (_ & T & _). rewrite (OLD _ T) in Y.
      destruct (FL (old (tks s t))) as (E & _). rewrite E in Y. exact Y. }
    exact (Z t1 Y1).
  - intros a A P. destruct (Nat.eq_dec a (na s)) as [->|n]; [rewrite NEW; exact HPo|].
    assert (A' : a < na s) by (cbn in A; lia). rewrite (OLD a A') in *.
    destruct (FL a) as (_ & _ & _ & _ & _ & _ & _ & -> & _). apply (v_pos s H a A').
    destruct (par (arrs s a)) as [c|] eqn:E; [|reflexivity]. rewrite (HP a c E) in P. discriminate P.
  - exact (v_nt s H).
  - exact (v_err s H).
Qed.

Lemma new_ok s e d : INV s -> good (new_step s e d).
Proof.
  intros H s' X. unfold new_step in X. destruct (cur s) eqn:C; [discriminate X|].
  destruct (addr_ok s d) eqn:A; [|discriminate X]. injection X as <-.
  apply INV_fresh; auto; try reflexivity.
  - intro a. auto 10.
  - intros c E. congruence.
  - exists e. reflexivity.
  - intros a L F. exact (addr_ok_spec s d A a L F).
Qed.

Lemma resize_ok s e d : INV s -> good (resize_step s e d).
Proof.
  intros H s' X. unfold resize_step in X. destruct (cur s) as [c|] eqn:C; [|discriminate X].
  destruct (lnk (arrs s c)) eqn:L; [discriminate X|].
  destruct (addr_ok s d) eqn:A; [|discriminate X]. cbv zeta in X. injection X as <-. rewrite <- L.
  destruct (a_cur s (v_ai s H) c C) as (D1 & D2 & D3 & _).
  apply INV_fresh; auto; try reflexivity.
  - intro a. unfold upd. destruct (a =? c) eqn:E; [apply Nat.eqb_eq in E; subst a; cbn; auto 10|auto 10].
  - intros a b E. unfold upd. destruct (a =? c) eqn:E'; [apply Nat.eqb_eq in E'; subst a; congruence|exact E].
  - intros c' E. rewrite C in E. injection E as <-. rewrite upd_eq. auto.
  - congruence.
  - exists e. reflexivity.
  - intros a Q F. exact (addr_ok_spec s d A a Q F).
Qed.

(** A state without the current array [c], which is killed and retired. *)
Lemma drop_ok s : INV s -> good (drop_step s).
Proof.
  intros H s' X. unfold drop_step in X. destruct (cur s) as [c|] eqn:C; [|discriminate X]. cbv zeta in X.
  destruct (lnk (arrs s c)) eqn:L; [discriminate X|].
  destruct (forallb _ _) eqn:A in X; [|discriminate X]. injection X as <-.
  pose proof (v_ai s H) as HA. destruct (a_cur s HA c C) as (D1 & D2 & D3 & D4).
  set (x := mkA (ln (arrs s c)) (ad (arrs s c)) None (pos (arrs s c)) (refs (arrs s c)) (fun _ => true)
    (lk (arrs s c)) (par (arrs s c)) (Some (clk s)) (fr (arrs s c))).
  set (s1 := mkS _ _ _ _ _ _ _).
  assert (NEW : arrs s1 c = x).
  { subst s1 x. cbn. rewrite !upd_eq. reflexivity. }
  assert (OLD : forall a, a <> c -> arrs s1 a = arrs s a).
  { intros a n. subst s1. cbn. now rewrite !(upd_ne _ _ _ _ _ n). }
  clearbody x. assert (FX : ln (arrs s1 c) = ln (arrs s c) /\ ad (arrs s1 c) = ad (arrs s c) /\ lnk (arrs s1 c) = None /\
    pos (arrs s1 c) = pos (arrs s c) /\ (forall i, kl (arrs s1 c) i = true) /\ lk (arrs s1 c) = lk (arrs s c) /\
    par (arrs s1 c) = par (arrs s c) /\ rt (arrs s1 c) = Some (clk s) /\ fr (arrs s1 c) = fr (arrs s c)).
  { subst s1. cbn. rewrite !upd_eq. cbn. auto 10. }
  assert (NL : forall a o, a < na s -> lnk (arrs s a) <> Some o).
  { intros a o Q E. destruct (a_lnk s HA a o Q E) as (Y & _). congruence. }
  assert (UL : forall i, i < ln (arrs s c) -> lk (arrs s c) i = None).
  { intros i I. rewrite forallb_forall in A. assert (J : In i (seq 0 (ln (arrs s c)))) by (apply in_seq; lia).
    specialize (A i J). cbn beta in A. destruct (lk (arrs s c) i); [discriminate A|reflexivity]. }
  assert (LN : forall a, ln (arrs s1 a) = ln (arrs s a) /\ ad (arrs s1 a) = ad (arrs s a) /\
     par (arrs s1 a) = par (arrs s a) /\ fr (arrs s1 a) = fr (arrs s a) /\ lk (arrs s1 a) = lk (arrs s a) /\ pos (arrs s1 a) = pos (arrs s a)).
  { intro a. destruct (Nat.eq_dec a c) as [->|n]; [|rewrite (OLD a n); auto 8].
    destruct FX as (F1 & F2 & F3 & F4 & F5 & F6 & F7 & F8 & F9). auto 8. }
  assert (LK : forall a, a < na s -> lnk (arrs s1 a) = None).
  { intros a Q. destruct (Nat.eq_dec a c) as [->|n]; [apply FX|]. rewrite (OLD a n).
    destruct (lnk (arrs s a)) eqn:E; [destruct (NL a _ Q E)|reflexivity]. }
  assert (NA : forall t k, ~ act s t k).
  { intros t k (_ & Y & Z). exact (NL _ _ (cur_lt s _ HA Y) Z). }
  assert (NCL : forall t, ~ closer s (tks s t)).
  { intros t Y. destruct (closer_closing s t H Y) as (E1 & E2 & _). exact (NL _ _ (cur_lt s _ HA E1) E2). }
  split.
  - split.
    + intros c' E. discriminate E.
    + intros a o Q E. rewrite (LK a Q) in E. discriminate E.
    + intros a i Q I K. exfalso. destruct (Nat.eq_dec a c) as [->|n].
      * destruct FX as (_ & _ & _ & _ & F5 & _). rewrite F5 in K. discriminate K.
      * rewrite (OLD a n) in *. destruct (a_kl s HA a i Q I K) as [Y|(c' & Y & Z)]; [congruence|].
        exact (NL _ _ (cur_lt s _ HA Y) Z).
    + intros a Q. destruct (LN a) as (-> & _). exact (a_ln s HA a Q).
    + intros a b Q R F1 F2 E. destruct (LN a) as (_ & E1 & _ & E2 & _). destruct (LN b) as (_ & E3 & _ & E4 & _).
      rewrite E1, E3 in E. rewrite E2 in F1. rewrite E4 in F2. exact (a_ad s HA a b Q R F1 F2 E).
    + intros a Q R. destruct (Nat.eq_dec a c) as [->|n].
      * destruct FX as (_ & _ & _ & _ & _ & _ & _ & F8 & _). congruence.
      * rewrite (OLD a n) in *. exact (a_fr s HA a Q R).
  - intro t. apply (TI_frame s s1); auto.
    + subst s1. cbn. lia.
    + intros a _. apply LN.
    + intros a b _ E. destruct (LN a) as (_ & _ & -> & _). exact E.
    + intros a r _ E. destruct (Nat.eq_dec a c) as [->|n].
      * right. destruct FX as (_ & _ & _ & _ & _ & _ & _ & F8 & _). rewrite F8 in E. injection E as <-. lia.
      * left. now rewrite (OLD a n) in E.
    + intros a _ F _. destruct (LN a) as (_ & _ & _ & -> & _). exact F.
    + intros a i _ I E. destruct (LN a) as (_ & _ & _ & _ & -> & _). split; [exact E|].
      destruct (Nat.eq_dec a c) as [->|n]; [rewrite (UL i I) in E; discriminate E|now rewrite (OLD a n)].
    + intro Y. exfalso. exact (NA _ _ Y).
    + intro Y. exfalso. exact (NCL _ Y).
    + exact (v_ti s H t).
  - intros c' o i E. discriminate E.
  - intros t1 t2 Y1 Y2. exfalso. apply (NCL t1). unfold closer in *. change (tks s1 t1) with (tks s t1) in Y1.
    destruct (at_ (tks s t1)); auto. destruct (LN (old (tks s t1))) as (E & _). rewrite E in Y1. exact Y1.
  - intros a Q P. destruct (LN a) as (_ & _ & E1 & _ & _ & ->). rewrite E1 in P. exact (v_pos s H a Q P).
  - exact (v_nt s H).
  - exact (v_err s H).
Qed.

(** Reclamation, provided that nobody is exposed to the array. *)
Lemma free_ok s x : INV s -> (forall t, t < nt s -> exposed (tks s t) x = false) -> good (free_step s x).
Proof.
  intros H HE s' X. unfold free_step in X. cbv zeta in X.
  destruct (rt (arrs s x)) as [r|] eqn:R; [|discriminate X].
  destruct ((x <? na s) && _) eqn:B; [|discriminate X]. apply andb_true_iff in B as [B1 B2].
  apply Nat.ltb_lt in B1. injection X as <-. pose proof (v_ai s H) as HA.
  assert (GD : forall t g, gd (tks s t) = Some g -> r < g).
  { intros t g G. destruct (lt_dec t (nt s)) as [T|T].
    - rewrite forallb_forall in B2. assert (J : In t (seq 0 (nt s))) by (apply in_seq; lia).
      specialize (B2 t J). cbn beta in B2. rewrite G in B2. apply Nat.ltb_lt, B2.
    - assert (D : at_ (tks s t) = PDone) by (apply (v_nt s H); lia).
      destruct (v_ti s H t) as (_ & _ & T3). rewrite D in T3. congruence. }
  set (s1 := set_arr s x _).
  assert (FL : forall a, ln (arrs s1 a) = ln (arrs s a) /\ ad (arrs s1 a) = ad (arrs s a) /\ lnk (arrs s1 a) = lnk (arrs s a) /\
             rt (arrs s1 a) = rt (arrs s a) /\ kl (arrs s1 a) = kl (arrs s a) /\ par (arrs s1 a) = par (arrs s a) /\
             lk (arrs s1 a) = lk (arrs s a) /\ pos (arrs s1 a) = pos (arrs s a) /\ refs (arrs s1 a) = refs (arrs s a)).
  { intro a. subst s1. cbn. unfold upd. destruct (a =? x) eqn:E; [apply Nat.eqb_eq in E; subst a; cbn; auto 10|auto 10]. }
  assert (FR : forall a, a <> x -> fr (arrs s1 a) = fr (arrs s a)).
  { intros a n. subst s1. cbn. now rewrite (upd_ne _ _ _ _ _ n). }
  assert (FR' : forall a, fr (arrs s1 a) = false -> fr (arrs s a) = false).
  { intros a F. destruct (Nat.eq_dec a x) as [->|n]; [subst s1; cbn in F; rewrite upd_eq in F; discriminate F|now rewrite (FR a n) in F]. }
  split.
  - split.
    + intros c E. destruct (FL c) as (_ & _ & _ & -> & -> & -> & _). exact (a_cur s HA c E).
    + intros a o Q E. destruct (FL a) as (_ & _ & E1 & _). rewrite E1 in E.
      destruct (FL o) as (_ & _ & _ & -> & _ & -> & _). exact (a_lnk s HA a o Q E).
    + intros a i Q I K. destruct (FL a) as (E1 & _ & _ & _ & E2 & _). rewrite E1 in I. rewrite E2 in K.
      destruct (a_kl s HA a i Q I K) as [Y|(c & Y & Z)]; [now left|]. right. exists c.
      destruct (FL c) as (_ & _ & -> & _). auto.
    + intros a Q. destruct (FL a) as (-> & _). exact (a_ln s HA a Q).
    + intros a b Q Q' F1 F2 E. destruct (FL a) as (_ & E1 & _). destruct (FL b) as (_ & E2 & _).
      rewrite E1, E2 in E. exact (a_ad s HA a b Q Q' (FR' a F1) (FR' b F2) E).
    + intros a Q E. destruct (FL a) as (_ & _ & _ & E1 & _). rewrite E1 in E.
      assert (n : a <> x) by congruence. rewrite (FR a n). exact (a_fr s HA a Q E).
  - intro t. change (tks s1 t) with (tks s t). apply (TI_frame s s1); auto.
    + intros a _. apply FL.
    + intros a c _ E. destruct (FL a) as (_ & _ & _ & _ & _ & -> & _). exact E.
    + intros a r' _ E. left. destruct (FL a) as (_ & _ & _ & E1 & _). congruence.
    + intros a Q F P. destruct (Nat.eq_dec a x) as [->|n]; [exfalso|rewrite (FR a n); exact F].
      destruct P as [(g & G1 & G2 & G3 & G4)|P].
      * specialize (G4 r R). pose proof (GD t g G1). lia.
      * change (exposed (tks s t) x = true) in P.
        destruct (lt_dec t (nt s)) as [T|T]; [rewrite (HE t T) in P; discriminate P|].
        assert (D : at_ (tks s t) = PDone) by (apply (v_nt s H); lia).
        unfold exposed in P. rewrite D in P. discriminate P.
    + intros a i _ _ E. destruct (FL a) as (_ & _ & _ & _ & -> & _ & -> & _). auto.
    + intros (A1 & A2 & A3). unfold act. destruct (FL (old (tks s t))) as (_ & _ & _ & _ & _ & _ & _ & _ & ->).
      destruct (FL (rf (tks s t))) as (_ & _ & -> & _). auto.
    + intros _ (A1 & A2 & A3 & A4 & A5). unfold closing.
      destruct (FL (old (tks s t))) as (-> & _ & _ & _ & -> & _ & _ & -> & ->).
      destruct (FL (rf (tks s t))) as (_ & _ & -> & _). auto 6.
    + intros a _ E. destruct (FL a) as (_ & _ & -> & _). exact E.
    + exact (v_ti s H t).
  - intros c o i E1 E2 E3 E4 E5. destruct (FL c) as (_ & _ & Z1 & _). rewrite Z1 in E2.
    destruct (FL o) as (Z2 & _ & _ & _ & Z3 & _ & _ & Z4 & _). rewrite Z2 in E4. rewrite Z3 in E5. rewrite Z4 in E3.
    exact (v_cov s H c o i E1 E2 E3 E4 E5).
  - intros t1 t2 Y1 Y2. apply (v_cl s H); unfold closer in *; change (tks s1) with (tks s) in *.
    + destruct (at_ (tks s t1)); auto. destruct (FL (old (tks s t1))) as (E & _). rewrite E in Y1. exact Y1.
    + destruct (at_ (tks s t2)); auto. destruct (FL (old (tks s t2))) as (E & _). rewrite E in Y2. exact Y2.
  - intros a Q P. destruct (FL a) as (_ & _ & _ & _ & _ & E1 & _ & -> & _). rewrite E1 in P. exact (v_pos s H a Q P).
  - exact (v_nt s H).
  - exact (v_err s H).
Qed.

Lemma nt_step bidx s x s' : INV s -> step bidx s x = Some s' -> nt s' = nt s.
Proof.
  intros H. unfold step. rewrite (v_err s H).
  assert (G : forall s t, nt (guard s t) = nt s) by (intros; apply guard_fields).
  assert (U : forall s a lo n, nt (unlock_from s a lo n) = nt s) by (intros; apply unlock_fields).
  destruct x as [t k|t b|t|e d|e d| |a].
  - unfold start_step. destruct (at_ (tks s t)); try discriminate. destruct (t <? nt s); [|discriminate].
    intro X. injection X as <-. reflexivity.
  - assert (SR : forall t o s1 p, start_rehash s t o = Some (s1, p) -> nt s1 = nt s).
    { intros t' o s1 p. unfold start_rehash. cbv zeta. destruct (_ || _); [discriminate|].
      intro Y. injection Y as <- _. reflexivity. }
    unfold task_step, load, deref, lock. cbv zeta.
    destruct (at_ (tks s t));
    repeat match goal with
    | |- context [match start_rehash ?a ?b ?c with _ => _ end] =>
        let E := fresh "E" in destruct (start_rehash a b c) as [[? ?]|] eqn:E
    | |- context [match ?c with _ => _ end] => destruct c
    end; intro X; try discriminate X; injection X as <-; cbn [nt goto set_task set_lk set_arr kill retire tick reset set_rh set_lnk fail]; rewrite ?U; try reflexivity; try (apply G); try (eapply SR; eassumption).
  - unfold cancel_step, deref. cbv zeta. destruct (at_ (tks s t)) as [| | | |[|] p e i|c i|[|] [p e|h] i lo hi j|p|q| | | |j|[|] i hi|i hi| |[|] i|i| |];
      try discriminate; try destruct (fr _); intro X; injection X as <-; reflexivity.
  - unfold new_step. destruct (cur s); [discriminate|]. destruct (addr_ok s d); [|discriminate].
    intro X. injection X as <-. reflexivity.
  - unfold resize_step. destruct (cur s); [|discriminate]. destruct (lnk _); [discriminate|].
    destruct (addr_ok s d); [|discriminate]. intro X. injection X as <-. reflexivity.
  - unfold drop_step. destruct (cur s); [|discriminate]. cbv zeta. destruct (lnk _); [discriminate|].
    destruct (forallb _ _); [|discriminate]. intro X. injection X as <-. reflexivity.
  - unfold free_step. cbv zeta. destruct (rt _); [|discriminate]. destruct (_ && _); [|discriminate].
    intro X. injection X as <-. reflexivity.
Qed.

Section Run.
Variable bidx : nat -> nat -> nat.
Hypothesis Hbx : indexes bidx.

Lemma step_ok s x s' : INV s ->
  (forall a t, x = AFree a -> t < nt s -> exposed (tks s t) a = false) ->
  step bidx s x = Some s' -> INV s'.
Proof.
  intros H HE X. unfold step in X. rewrite (v_err s H) in X. destruct x as [t k|t b|t|e d|e d| |a].
  - exact (start_ok s t k H s' X).
  - exact (task_ok bidx Hbx s t b H s' X).
  - exact (cancel_ok s t H s' X).
  - exact (new_ok s e d H s' X).
  - exact (resize_ok s e d H s' X).
  - exact (drop_ok s H s' X).
  - exact (free_ok s a H (fun t => HE a t eq_refl) s' X).
Qed.

Lemma run_app l1 : forall s l2, run bidx s (l1 ++ l2) =
  match run bidx s l1 with None => None | Some s1 => run bidx s1 l2 end.
Proof.
  induction l1 as [|x l1 IH]; intros s l2; [reflexivity|]. cbn [run app].
  destruct (step bidx s x); [apply IH|reflexivity].
Qed.

Lemma careful_inv n l : careful bidx n l -> forall s, run bidx (init n) l = Some s -> INV s /\ nt s = n.
Proof.
  induction l as [|x l IH] using rev_ind; intros HC s X.
  - cbn in X. injection X as <-. split; [apply INV_init|reflexivity].
  - rewrite run_app in X. destruct (run bidx (init n) l) as [s1|] eqn:R; [|discriminate X].
    cbn [run] in X. destruct (step bidx s1 x) as [s2|] eqn:S; [|discriminate X]. injection X as <-.
    destruct (IH) with (s := s1) as [H N]; [|reflexivity|].
    { intros l1 y l2 s3 E R3. apply (HC l1 y (l2 ++ [x]) s3); [|exact R3]. rewrite E, <- app_assoc. reflexivity. }
    split.
    + apply (step_ok s1 x s2 H); [|exact S]. intros a t -> T. apply (HC l a [] s1 eq_refl R). lia.
    + rewrite (nt_step bidx s1 x s2 H S). exact N.
Qed.

Lemma careful_harmless n l : careful bidx n l -> harmless bidx n l.
Proof. intros HC s X. destruct (careful_inv n l HC s X) as [H _]. exact (v_err s H). Qed.

End Run.
