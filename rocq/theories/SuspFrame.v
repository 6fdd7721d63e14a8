(** * What a step of one task leaves true of the others *)

Require Import List Arith Bool Lia.
Import ListNotations.
Require Import Verif.SuspModel Verif.SuspSpec Verif.SuspFacts.

Implicit Types (s : state) (k : task) (t a o c i j p e q r g : nat).

Lemma TI_frame s s' t k :
  na s <= na s' -> clk s <= clk s' ->
  (forall a, a < na s -> ln (arrs s' a) = ln (arrs s a)) ->
  (forall a c, a < na s -> par (arrs s a) = Some c -> par (arrs s' a) = Some c) ->
  (forall a r, a < na s -> rt (arrs s' a) = Some r -> rt (arrs s a) = Some r \/ clk s <= r) ->
  (forall a, a < na s -> fr (arrs s a) = false -> prot s k a \/ exposed k a = true ->
             fr (arrs s' a) = false) ->
  (forall a i, a < na s -> i < ln (arrs s a) -> lk (arrs s a) i = Some t ->
               lk (arrs s' a) i = Some t /\ kl (arrs s' a) i = kl (arrs s a) i) ->
  (act s t k -> act s' t k) ->
  (closer s k -> closing s k -> closing s' k) ->
  (forall a, a < na s -> lnk (arrs s a) = None -> lnk (arrs s' a) = None) ->
  AI s -> TI s t k -> TI s' t k.
Proof.
  intros Hn Hc Hln Hpar Hrt Hfr Hlk Hact Hcl Hlnk HA (T1 & T2 & T3).
  assert (P : forall a, prot s k a -> prot s' k a).
  { intros a (g & G1 & G2 & G3 & G4). exists g. split; [exact G1|]. split; [lia|]. split.
    - apply Hfr; [exact G2|exact G3|]. left. exists g. auto.
    - intros r Hr. destruct (Hrt a r G2 Hr) as [X|X]; [exact (G4 r X)|]. specialize (T1 g G1). lia. }
  assert (HO : forall a i, hold s t a i -> hold s' t a i).
  { intros a i (A & B & C & D). destruct (Hlk a i A B D) as [X Y].
    split; [lia|]. rewrite (Hln a A), Y. auto. }
  assert (AC : act s t k -> rf k < na s /\ old k < na s).
  { intros (_ & X & Y). pose proof (cur_lt s _ HA X) as Z. split; [exact Z|].
    destruct (a_lnk s HA _ _ Z Y) as (_ & W & _). exact W. }
  assert (CO : forall (c : cont) i, cont_ok s t k c i -> cont_ok s' t k c i).
  { intros c i (A & B & C & D). assert (Ho : old k < na s) by apply A.
    split; [exact (HO _ _ A)|]. split; [exact (Hpar _ _ Ho B)|]. split; [lia|].
    destruct c as [p e|hi].
    - destruct D as (D1 & D2 & D3 & D4). unfold range_ok in *. rewrite (Hln _ Ho). auto.
    - rewrite (Hln _ Ho). exact D. }
  assert (RS : forall b, (kd k = ScanR -> exposed k (rf k) = b) -> b = true -> rsafe s k -> rsafe s' k).
  { intros b Hb Eb (A & B). split; [lia|]. intro Q. apply Hfr; [exact A|exact (B Q)|].
    right. now rewrite (Hb Q). }
  split; [intros g G; specialize (T1 g G); lia|]. split.
  - intro S. specialize (T2 S).
    assert (X : rf k < na s /\ pl k = ln (arrs s (rf k)) /\ ix k < pl k ->
                rf k < na s' /\ pl k = ln (arrs s' (rf k)) /\ ix k < pl k).
    { intros (A & B & C). rewrite (Hln _ A). split; [lia|auto]. }
    destruct (at_ k); try exact T2; try exact (X T2).
    destruct T3 as (g & _ & G & _). rewrite (Hln _ G). exact T2.
  - destruct (at_ k) as [| | | |w p e i|c i|w c i lo hi j|p|q| | | |j|w i hi|i hi| |w i|i| |] eqn:Q.
    + exact T3.
    + exact Logic.I.
    + exact (P _ T3).
    + exact (P _ T3).
    + destruct T3 as (A & B & C & D). destruct (AC A) as [_ Ho]. unfold range_ok in *.
      rewrite (Hln _ Ho). auto.
    + exact (CO _ _ T3).
    + destruct T3 as (A & B & C & D & E). assert (Hr : rf k < na s) by apply A.
      split; [exact (CO _ _ A)|]. split; [exact B|]. split; [exact C|]. rewrite (Hln _ Hr).
      split; [exact D|]. intros j' X Y. apply Hlk; [exact Hr|lia|exact (E j' X Y)].
    + exact (Hact T3).
    + destruct T3 as (A & B & C & D & E). split; [lia|]. split; [lia|].
      split. { apply Hfr; [exact A|exact C|]. right. unfold exposed. rewrite Q. now rewrite Nat.eqb_refl. }
      split. { apply Hfr; [exact B|exact D|]. right. unfold exposed. rewrite Q, Nat.eqb_refl. apply orb_true_r. }
      intro X. assert (Y : closer s k).
      { revert X. unfold closer. rewrite Q, (Hln _ B). auto. }
      exact (Hcl Y (E Y)).
    + apply Hcl; [|exact T3]. unfold closer. now rewrite Q.
    + destruct T3 as (A & B & C & D & E). split; [lia|]. split; [lia|].
      split. { apply Hfr; [exact A|exact C|]. right. unfold exposed. rewrite Q. apply Nat.eqb_refl. }
      split; [exact (Hpar _ _ B D)|exact (Hlnk _ A E)].
    + destruct T3 as (A & C). split; [lia|].
      apply Hfr; [exact A|exact C|]. right. unfold exposed. rewrite Q. apply Nat.eqb_refl.
    + destruct T3 as (A & C & D). split; [lia|]. rewrite (Hln _ A). split; [|exact D].
      apply Hfr; [exact A|exact C|]. right. unfold exposed. rewrite Q. apply Nat.eqb_refl.
    + destruct w.
      * destruct T3 as (A & B & C & D & E & F). split; [exact A|].
        split. { apply (RS true); [|reflexivity|exact B]. intro X. unfold exposed. rewrite Q, X. apply Nat.eqb_refl. }
        split; [lia|]. split; [exact (Hpar _ _ C D)|]. rewrite (Hln _ C). auto.
      * destruct T3 as (A & B & C & D). assert (Ho : old k < na s) by (destruct B as (? & _ & X & _); exact X).
        split; [exact (P _ A)|]. split; [exact (P _ B)|]. split; [exact (Hpar _ _ Ho C)|].
        rewrite (Hln _ Ho). exact D.
    + destruct T3 as (A & B & C & D). assert (Ho : old k < na s) by (destruct B as (? & _ & X & _); exact X).
      split; [exact (P _ A)|]. split; [exact (P _ B)|]. split; [exact (Hpar _ _ Ho C)|].
      rewrite (Hln _ Ho). exact D.
    + exact (P _ T3).
    + destruct w.
      * destruct T3 as (A & B). rewrite (Hln _ (proj1 A)). split; [|exact B].
        apply (RS true); [|reflexivity|exact A]. intro X. unfold exposed. rewrite Q, X. apply Nat.eqb_refl.
      * destruct T3 as (A & B). assert (Hr : rf k < na s) by (destruct A as (? & _ & X & _); exact X).
        rewrite (Hln _ Hr). split; [exact (P _ A)|exact B].
    + exact (HO _ _ T3).
    + exact (P _ T3).
    + apply (RS true); [|reflexivity|exact T3]. intro X. unfold exposed. rewrite Q, X. apply Nat.eqb_refl.
Qed.

(** The closer is alone: its old array counts no rehashing task. *)
Lemma closer_closing s t : INV s -> closer s (tks s t) -> closing s (tks s t).
Proof.
  intros H X. pose proof (v_ti s H t) as (_ & _ & T). unfold closer in X.
  destruct (at_ (tks s t)) eqn:Q; try contradiction.
  - apply T. unfold closer. now rewrite Q.
  - exact T.
Qed.

(** The master lemma: a step of task [t]. *)
Lemma INV_master s s' t k' :
  INV s -> at_ (tks s t) <> PDone \/ t < nt s ->
  (forall t', tks s' t' = upd (tks s) t k' t') -> nt s' = nt s -> err s' = None ->
  na s' = na s -> clk s <= clk s' -> AI s' ->
  (forall a, a < na s -> ln (arrs s' a) = ln (arrs s a) /\ par (arrs s' a) = par (arrs s a) /\
                         fr (arrs s' a) = fr (arrs s a)) ->
  (forall a r, a < na s -> rt (arrs s' a) = Some r -> rt (arrs s a) = Some r \/ clk s <= r) ->
  (forall t' a i, t' <> t -> lk (arrs s a) i = Some t' ->
                  lk (arrs s' a) i = Some t' /\ kl (arrs s' a) i = kl (arrs s a) i) ->
  (forall t', t' <> t -> act s t' (tks s t') -> act s' t' (tks s t')) ->
  (forall t', t' <> t -> closer s (tks s t') -> closing s (tks s t') -> closing s' (tks s t')) ->
  (forall a, a < na s -> lnk (arrs s a) = None -> lnk (arrs s' a) = None) ->
  (forall a, a < na s -> par (arrs s a) = None -> pos (arrs s' a) = pos (arrs s a)) ->
  TI s' t k' -> COV s' -> CL s' -> INV s'.
Proof.
  intros H Hd Ht Hnt He Hna Hc HA H1 H2 H3 H4 H5 H6 HP HT HC HL. split; auto.
  - intro t'. rewrite Ht. destruct (Nat.eq_dec t' t) as [->|n].
    + rewrite upd_eq. exact HT.
    + rewrite (upd_ne _ _ _ _ _ n). apply (TI_frame s s'); auto.
      * lia.
      * intros a A. apply (H1 a A).
      * intros a c A X. rewrite (proj1 (proj2 (H1 a A))). exact X.
      * intros a A X _. rewrite (proj2 (proj2 (H1 a A))). exact X.
      * apply (v_ai s H).
      * apply (v_ti s H).
  - intros a A X. rewrite Hna in A. rewrite (proj1 (proj2 (H1 a A))) in X.
    rewrite (HP a A X). exact (v_pos s H a A X).
  - intros t' X. rewrite Ht. destruct (Nat.eq_dec t' t) as [->|n].
    + exfalso. rewrite Hnt in X. destruct Hd as [Y|Y]; [|lia]. exact (Y (v_nt s H t X)).
    + rewrite (upd_ne _ _ _ _ _ n). apply (v_nt s H). lia.
Qed.

Lemma AI_locks s s' :
  AI s -> cur s' = cur s -> na s' = na s ->
  (forall a, ln (arrs s' a) = ln (arrs s a) /\ ad (arrs s' a) = ad (arrs s a) /\
             lnk (arrs s' a) = lnk (arrs s a) /\ par (arrs s' a) = par (arrs s a) /\
             rt (arrs s' a) = rt (arrs s a) /\ fr (arrs s' a) = fr (arrs s a)) ->
  (forall a i, kl (arrs s a) i = true -> kl (arrs s' a) i = true) ->
  (forall a i, cur s = Some a -> kl (arrs s' a) i = kl (arrs s a) i) ->
  AI s'.
Proof.
  intros [A B C D E F] Hc Hn H K1 K2. split; rewrite ?Hc, ?Hn.
  - intros c X. destruct (A c X) as (P & Q & R & S). destruct (H c) as (_ & _ & _ & -> & -> & _).
    repeat split; auto. intro i. rewrite (K2 c i X). auto.
  - intros a o X Y. rewrite (proj1 (proj2 (proj2 (H a)))) in Y.
    destruct (B a o X Y) as (P & Q & R & S). destruct (H o) as (_ & _ & _ & -> & -> & _). auto.
  - intros a i X Y Z. rewrite (proj1 (H a)) in Y.
    assert (W : kl (arrs s a) i = false).
    { destruct (kl (arrs s a) i) eqn:W; [|reflexivity]. rewrite (K1 a i W) in Z. discriminate. }
    destruct (C a i X Y W) as [V|(c & V & U)]; [now left|]. right. exists c.
    rewrite (proj1 (proj2 (proj2 (H c)))). auto.
  - intros a X. rewrite (proj1 (H a)). auto.
  - intros a b. destruct (H a) as (_ & -> & _ & _ & _ & ->). destruct (H b) as (_ & -> & _ & _ & _ & ->). auto.
  - intros a X. destruct (H a) as (_ & _ & _ & _ & -> & ->). auto.
Qed.

(** Steps that only touch locks (and the moving task). *)
Lemma INV_locks s s' t k' :
  INV s -> at_ (tks s t) <> PDone \/ t < nt s ->
  (forall t', tks s' t' = upd (tks s) t k' t') -> nt s' = nt s -> err s' = None ->
  na s' = na s -> clk s <= clk s' -> cur s' = cur s ->
  (forall a, ln (arrs s' a) = ln (arrs s a) /\ ad (arrs s' a) = ad (arrs s a) /\
             lnk (arrs s' a) = lnk (arrs s a) /\ par (arrs s' a) = par (arrs s a) /\
             rt (arrs s' a) = rt (arrs s a) /\ fr (arrs s' a) = fr (arrs s a) /\
             pos (arrs s' a) = pos (arrs s a) /\ refs (arrs s' a) = refs (arrs s a)) ->
  (forall a i, kl (arrs s a) i = true -> kl (arrs s' a) i = true) ->
  (forall a i, kl (arrs s a) i = false -> kl (arrs s' a) i = true ->
               lk (arrs s a) i = Some t /\ cur s <> Some a) ->
  (forall t' a i, t' <> t -> lk (arrs s a) i = Some t' -> lk (arrs s' a) i = Some t') ->
  TI s' t k' ->
  (forall o i, works (tks s t) o i -> kl (arrs s' o) i = true \/ works k' o i) ->
  (closer s k' -> closer s (tks s t)) ->
  INV s'.
Proof.
  intros H Hd Ht Hnt He Hna Hc Hcur HF K1 K2 K3 HT HW HL.
  assert (HA : AI s').
  { apply (AI_locks s s' (v_ai s H) Hcur Hna); auto.
    - intro a. destruct (HF a) as (A & B & C & D & E & F & _). auto 6.
    - intros a i X. destruct (kl (arrs s a) i) eqn:Q; [auto|].
      destruct (kl (arrs s' a) i) eqn:R; [|reflexivity].
      destruct (K2 a i Q R) as [_ Y]. contradiction. }
  apply (INV_master s s' t k'); auto.
  - intros a _. destruct (HF a) as (A & B & C & D & E & F & _). auto.
  - intros a r _ X. left. destruct (HF a) as (A & B & C & D & E & F & _). congruence.
  - intros t' a i n X. split; [exact (K3 t' a i n X)|].
    destruct (kl (arrs s a) i) eqn:Q; [auto|].
    destruct (kl (arrs s' a) i) eqn:R; [|reflexivity].
    destruct (K2 a i Q R) as [Y _]. congruence.
  - intros t' n (A & B & C). unfold act.
    destruct (HF (old (tks s t'))) as (_ & _ & _ & _ & _ & _ & _ & ->).
    rewrite Hcur. destruct (HF (rf (tks s t'))) as (_ & _ & -> & _). auto.
  - intros t' n _ (A & B & C & D & E). unfold closing. rewrite Hcur.
    destruct (HF (rf (tks s t'))) as (_ & _ & -> & _).
    destruct (HF (old (tks s t'))) as (-> & _ & _ & _ & _ & _ & -> & ->).
    repeat (split; [assumption|]). intros i X. exact (K1 _ _ (E i X)).
  - intros a _ X. destruct (HF a) as (_ & _ & -> & _). exact X.
  - intros a _ _. apply (HF a).
  - intros c o i X Y Z W V. rewrite Hcur in X. 
    destruct (HF c) as (_ & _ & Q1 & _). rewrite Q1 in Y.
    destruct (HF o) as (Q2 & _ & _ & _ & _ & _ & Q3 & _). rewrite Q2 in W. rewrite Q3 in Z.
    assert (V' : kl (arrs s o) i = false).
    { destruct (kl (arrs s o) i) eqn:R; [|reflexivity]. rewrite (K1 o i R) in V. discriminate. }
    destruct (v_cov s H c o i X Y Z W V') as (t' & P).
    destruct (Nat.eq_dec t' t) as [->|n].
    + exists t. rewrite Ht, upd_eq. destruct (HW o i P) as [U|U]; [congruence|exact U].
    + exists t'. rewrite Ht, (upd_ne _ _ _ _ _ n). exact P.
  - assert (CE : forall k, closer s' k -> closer s k).
    { intros k. unfold closer. destruct (at_ k); auto. now rewrite (proj1 (HF (old k))). }
    intros t1 t2. rewrite !Ht. intros X Y. apply CE in X, Y.
    apply (v_cl s H).
    + destruct (Nat.eq_dec t1 t) as [->|n]; [rewrite upd_eq in X; auto|now rewrite (upd_ne _ _ _ _ _ n) in X].
    + destruct (Nat.eq_dec t2 t) as [->|n]; [rewrite upd_eq in Y; auto|now rewrite (upd_ne _ _ _ _ _ n) in Y].
Qed.

(** Steps that only change the moving task. *)
Lemma INV_pure s s' t k' :
  INV s -> at_ (tks s t) <> PDone \/ t < nt s ->
  (forall t', tks s' t' = upd (tks s) t k' t') -> nt s' = nt s -> err s' = None ->
  na s' = na s -> clk s <= clk s' -> cur s' = cur s -> arrs s' = arrs s ->
  TI s' t k' ->
  (forall o i, works (tks s t) o i -> kl (arrs s o) i = true \/ works k' o i) ->
  (closer s k' -> closer s (tks s t)) ->
  INV s'.
Proof.
  intros H Hd Ht Hnt He Hna Hc Hcur HF HT HW HL.
  apply (INV_locks s s' t k'); auto; rewrite ?HF; auto.
  - intro a. auto 10.
  - intros a i X Y. congruence.
Qed.

(** Creating a guard. *)
Lemma INV_guard s t : INV s -> at_ (tks s t) <> PDone ->
  (forall i hi, at_ (tks s t) <> PDd true i hi) -> INV (guard s t).
Proof.
  intros H Hd Hw. unfold guard. destruct (gd (tks s t)) as [g|] eqn:G; [exact H|].
  pose proof (v_ti s H t) as (T1 & T2 & T3).
  apply (INV_pure s _ t (with_gd (tks s t) (Some (clk s)))); try reflexivity; auto.
  - exact (v_err s H).
  - cbn. lia.
  - split; [intros g X; cbn in *; injection X as <-; lia|]. split; [exact T2|].
    assert (NP : forall a, ~ prot s (tks s t) a). { intros a (g & X & _). congruence. }
    change (at_ (with_gd (tks s t) (Some (clk s)))) with (at_ (tks s t)).
    destruct (at_ (tks s t)) as [| | | |w p e i|c i|w c i lo hi j|p|q| | | |j|w i hi|i hi| |w i|i| |] eqn:Q;
      try exact T3; try (exfalso; exact (NP _ T3)); try (exfalso; exact (NP _ (proj1 T3))).
    + exfalso. now apply Hd.
    + destruct w; [exfalso; exact (Hw i hi eq_refl)|exfalso; exact (NP _ (proj1 T3))].
    + destruct w; [exact T3|exfalso; exact (NP _ (proj1 T3))].
Qed.

Lemma guard_fields s t :
  cur (guard s t) = cur s /\ arrs (guard s t) = arrs s /\ na (guard s t) = na s /\
  nt (guard s t) = nt s /\ err (guard s t) = err s /\
  (exists g, gd (tks (guard s t) t) = Some g) /\
  rf (tks (guard s t) t) = rf (tks s t) /\ old (tks (guard s t) t) = old (tks s t) /\
  kd (tks (guard s t) t) = kd (tks s t) /\ ix (tks (guard s t) t) = ix (tks s t) /\
  pl (tks (guard s t) t) = pl (tks s t) /\ at_ (tks (guard s t) t) = at_ (tks s t).
Proof.
  unfold guard. destruct (gd (tks s t)) as [g|] eqn:G.
  - repeat split; auto. exists g. exact G.
  - cbn. rewrite upd_eq. cbn. repeat split; auto. exists (clk s). reflexivity.
Qed.
