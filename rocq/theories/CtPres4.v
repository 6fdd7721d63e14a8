(** Every step preserves the invariant: relocation of a bucket, resizing, dropping the table. *)
From Coq Require Import NArith Lia.
From stdpp Require Import prelude list numbers.
From Verif Require CapModel CapSpec CapFacts.
From Verif Require Import CtModel CtSpec CtInv CtStep CtPres CtPres2 CtPres3 CtList.
Local Open Scope N_scope.

Section pres.
Context {K V : Type} `{EqDecision K} (hash : K -> N).
Hypothesis hash64 : forall k, hash k < 2 ^ 64.
Notation state := (state K V). Notation pc := (pc K V). Notation job := (job K V).
Implicit Types (s : state) (p q : pc) (j : job) (x y a o : nat) (i n : N) (t u : nat).
Notation inv := (inv hash). Notation shape := (shape hash). Notation pc_ok := (pc_ok hash).
Notation jidx := (jidx hash). Notation acc_ok := (acc_ok hash). Notation cont_ok := (cont_ok hash).
Notation ded_ok := (ded_ok hash). Notation kont_ok := (kont_ok hash). Notation bi := (bi hash).

Ltac plain := split; (done || (intros; cbn; tauto)).
Ltac splain := eapply (step_plain hash); [eassumption|eassumption| | |reflexivity|reflexivity|reflexivity|reflexivity
   |reflexivity|reflexivity| ]; [try plain|try plain| ].
Ltac spc := eapply (step_pc hash); [eassumption|eassumption|reflexivity|reflexivity|reflexivity|reflexivity
   |reflexivity|reflexivity| | | | | | | ]; [try (cbn; intros; tauto)|try (cbn; intros; tauto)|try reflexivity
   |try reflexivity|try (cbn; intros; tauto)|try (cbn; intros; tauto)| ].
Ltac notself A B := let X := fresh in intros X; subst; unfold at_pc in *; rewrite A in B; injection B as <-.

(** ** Relocation *)
(** An entry of an old bucket goes to its own bucket of the new array. *)
Lemma target_bi s a o i e : inv s -> link (arr s a) = Some o -> e ∈ es (bks s o i) ->
  target hash s a o (range s o a i).1 e = bi s a e.1 /\ (range s o a i).1 <= bi s a e.1 < (range s o a i).2.
Proof.
  intros I L X. pose proof (i_shape _ _ I) as Sh. destruct (i_link _ _ Sh _ _ L) as [C B].
  destruct e as [k v]. cbn [fst].
  pose proof (i_idx _ _ Sh o i k v X) as Ei.
  pose proof (range_bi hash hash64 s o a k I ltac:(lia) ltac:(lia)) as R. rewrite Ei in R. split; [|done].
  unfold target. destruct (N.leb_spec (alen s a) (alen s o)) as [Le|Lt]; [|done].
  pose proof (rng_one (sz (arr s o)) (sz (arr s a)) i Le) as O1. unfold range, alen in *. lia.
Qed.
Lemma move_in s a o i y i' k v : inv s -> link (arr s a) = Some o ->
  (k, v) ∈ es (move hash s a o i (range s o a i).1 y i') <->
  (stored_at s y i' k v /\ ~ (y = o /\ i' = i)) \/ (y = a /\ i' = bi s a k /\ stored_at s o i k v).
Proof.
  intros I L. pose proof (i_shape _ _ I) as Sh. destruct (i_link _ _ Sh _ _ L) as [C B].
  unfold move, stored_at. destruct (decide (y = o /\ i' = i)) as [[-> ->]|N].
  - simpl. split; [intros X; by apply elem_of_nil in X|]. intros [[_ X]|(X & _)]; [by destruct X|lia].
  - destruct (decide (y = a)) as [->|Ny].
    + cbn [es]. rewrite elem_of_app, elem_of_list_In, elem_of_list_In, filter_In, <- !elem_of_list_In.
      rewrite N.eqb_eq. split.
      * intros [X|[X Y]]; [by left|]. right. destruct (target_bi s a o i (k, v) I L X) as [T _].
        rewrite T in Y. cbn in Y. done.
      * intros [[X _]|(_ & -> & X)]; [by left|]. right. split; [done|]. by apply (target_bi s a o i (k, v)).
    + split; [by left|]. intros [[X _]|[X _]]; done.
Qed.
Lemma move_es s a o i y i' : inv s -> link (arr s a) = Some o -> 
  es (move hash s a o i (range s o a i).1 y i') = es (bks s y i') \/ (y = o /\ i' = i) \/
  (y = a /\ (range s o a i).1 <= i' < (range s o a i).2).
Proof.
  intros I L. unfold move. destruct (decide (y = o /\ i' = i)) as [|N]; [auto|].
  destruct (decide (y = a)) as [->|Ny]; [|auto]. cbn [es].
  destruct (List.filter _ _) as [|e r] eqn:F; [left; by rewrite app_nil_r|]. right. right. split; [done|].
  assert (X : In e (e :: r)) by (left; done). rewrite <- F in X. apply filter_In in X as [X Y]. apply N.eqb_eq in Y as <-.
  apply elem_of_list_In in X. destruct (target_bi s a o i e I L X) as [-> R]. done.
Qed.
Lemma move_nd s a o i y i' : inv s -> link (arr s a) = Some o -> 
  NoDup (map fst (es (move hash s a o i (range s o a i).1 y i'))).
Proof.
  intros I L. pose proof (i_shape _ _ I) as Sh. unfold move. destruct (decide (y = o /\ i' = i)) as [|N]; [by constructor|].
  destruct (decide (y = a)) as [->|Ny]; [|apply (i_nd _ _ Sh)]. cbn [es]. rewrite map_app. apply NoDup_app.
  split; [apply (i_nd _ _ Sh)|]. split.
  - intros k X Y. apply elem_of_list_In, in_map_iff in X as ([k1 v1] & E & X). cbn in E. subst k1. apply elem_of_list_In in X.
    apply elem_of_list_In, in_map_iff in Y as ([k2 v2] & E & Y). cbn in E. subst k2. apply filter_In in Y as [Y _].
    apply elem_of_list_In in Y. destruct (i_excl _ _ Sh _ _ _ _ _ L X) as [Q _].
    rewrite (i_idx _ _ Sh o i k v2 Y) in Q. rewrite Q in Y. by apply elem_of_nil in Y.
  - pose proof (i_nd _ _ Sh o i) as ND. revert ND. generalize (es (bks s o i)) as l. 
    generalize (fun e => target hash s a o (range s o a i).1 e =? i') as f. clear. intros f l.
    induction l as [|[k v] l IH]; [done|]. intros ND. cbn [map] in ND. apply list.NoDup_cons in ND as [N ND].
    cbn [List.filter]. destruct (f (k, v)); [|auto]. cbn [map fst]. apply nd_intro; [|auto].
    intros X. apply N. apply elem_of_list_In, in_map_iff in X as (e & E & X). apply filter_In in X as [X _].
    apply elem_of_list_In, in_map_iff. eauto.
Qed.
Lemma pres_tmove t c s s' k a o i lo hi : inv s -> at_pc s t (TMove k a o i lo hi) -> step hash t c s = Some s' -> inv s'.
Proof.
  intros I A E. pose proof (i_pc _ _ I _ _ A) as (C & Elo & Ehi). unfold step in E. pose proof A as A'. unfold at_pc in A'. rewrite A' in E.
  destruct (reloc_link hash hash64 _ _ _ _ _ _ _ I A ltac:(cbn; auto) C) as (Lk & Cu & B & Li).
  pose proof (range_ok hash s o a i I ltac:(lia) ltac:(lia) Li) as [R1 R2].
  destruct c; try discriminate. injection E as <-. pose proof (i_shape _ _ I) as Sh. rewrite Elo, Ehi in *.
  set (p' := TUnlock k a o i (range s o a i).1 (range s o a i).2). set (s' := set_pc t p' _).
  assert (M : moves t p' s s') by done.
  assert (Lkk : forall y i', lk (bks s' y i') = lk (bks s y i')).
  { intros y i'. simpl. unfold move. destruct (decide _) as [[-> ->]|]; [done|]. by destruct (decide _) as [->|]. }
  assert (Dd : forall y i', dead s' y i' <-> dead s y i') by (intros; unfold dead; by rewrite Lkk).
  assert (Mo : mono s s').
  { split; try done; [|intros; by left]. intros y i'. by rewrite Dd. }
  assert (St : forall y i' k v, stored_at s' y i' k v <->
     (stored_at s y i' k v /\ ~ (y = o /\ i' = i)) \/ (y = a /\ i' = bi s a k /\ stored_at s o i k v)).
  { intros. exact (move_in s a o i y i' k0 v I Lk). }
  assert (Bi : forall y k, bi s' y k = bi s y k) by done.
  assert (Eo : es (bks s' o i) = []).
  { simpl. unfold move. by rewrite decide_True. }
  eapply (inv_step hash s s' t (TMove k a o i (range s o a i).1 (range s o a i).2) p'); try done.
  - split.
    + apply (i_cur _ _ Sh).
    + apply (i_sz _ _ Sh).
    + apply (i_link _ _ Sh).
    + intros x i' X. simpl. unfold move. rewrite decide_False by (intros [-> _]; simpl in X; lia).
      rewrite decide_False by (intros ->; simpl in X; lia). by apply (i_fresh _ _ Sh).
    + intros x i' D. apply Dd in D. simpl. destruct (move_es s a o i x i' I Lk) as [->|[[-> ->]|[-> _]]].
      * by apply (i_dead _ _ Sh).
      * unfold move. by rewrite decide_True.
      * exfalso. by eapply (i_curlive _ _ Sh).
    + intros c i'. rewrite Dd. apply (i_curlive _ _ Sh).
    + intros x i' k' v X. rewrite Bi. apply St in X as [[X _]|(-> & -> & X)]; [by eapply (i_idx _ _ Sh)|done].
    + intros x i'. by apply move_nd.
    + intros x i' k' v X. apply St in X as [[X _]|(-> & -> & X)]; [exact (i_live _ _ Sh _ _ _ _ X)|by left].
    + intros a0 o0 i' k' v L X. rewrite Bi, Dd. change (link (arr s a0) = Some o0) in L.
      pose proof (i_link _ _ Sh _ _ L) as [C0 B0]. rewrite Cu in C0. injection C0 as <-. rewrite Lk in L. injection L as <-.
      apply St in X as [[X _]|(_ & -> & X)].
      * destruct (i_excl _ _ Sh _ _ _ _ _ Lk X) as [Q1 Q2]. split.
        -- destruct (decide (bi s o k' = i)) as [->|N]; [done|]. simpl.
           destruct (move_es s a o i o (bi s o k') I Lk) as [->|[[_ Q]|[Q _]]]; [done|done|lia].
        -- destruct Q2 as [|(u & q & B' & Q2)]; [by left|]. right. exists u, q. split; [|done]. eapply at_other; [done| |done].
           notself A B'. by cbn in Q2.
      * rewrite (i_idx _ _ Sh _ _ _ _ X). split; [done|]. right. exists t, p'. split; [by eapply at_self|]. by cbn.
    + intros x i' X Hx NL. destruct (i_gone _ _ Sh x i' X Hx) as [D|(u & q & B' & D)]; [done|left; by apply Dd|].
      right. exists u, q. split; [|done]. eapply at_other; [done| |done]. notself A B'. by cbn in D.
  - intros x i'. rewrite Lkk. by apply lt_same.
  - eapply (words_same s s' t _ p'); try done. apply (i_words _ _ I).
  - by left.
  - intros x i'. destruct (move_es s a o i x i' I Lk) as [Q|Q]; [by left|]. right.
    eapply (i_holds _ (i_locks _ _ I)); [done|]. cbn. tauto.
  - by left.
  - split; [by eapply (cont_mono hash s s')|]. split; [|done]. change (range s' o a i) with (range s o a i). lia.
Qed.

(** ** Resizing *)
Lemma pres_rsz t p p' s s' : inv s -> at_pc s t p ->
  arr s' = arr s -> nxt s' = nxt s -> bks s' = bks s -> cur s' = cur s -> moves t p' s s' ->
  (forall x i, ~ holds p x i) -> (forall x i, ~ reads p x i) -> claims p = None ->
  (forall x i, ~ holds p' x i) -> (forall x i, ~ reads p' x i) -> claims p' = None ->
  (resizing p' = true -> rsz s' = true /\ (resizing p = true \/ rsz s = false)) ->
  (rsz s' = rsz s \/ resizing p = true \/ rsz s = false) -> pc_ok s p' -> inv s'.
Proof.
  intros I A Ea En Eb Ec M Ph Pr Pc Ph' Pr' Pc' R1 R2 Ok.
  assert (Dd : forall y i', dead s' y i' <-> dead s y i') by (intros; unfold dead; by rewrite Eb).
  assert (Q : quiet t p p' s s').
  { split; try done; try (intros; by rewrite ?Ea, ?Eb).
    - intros x i. by rewrite Dd.
    - intros x i. rewrite Dd. auto.
    - intros x i X. exfalso. eapply Ph, moved_hold, X.
    - intros x i X. exfalso. eapply Ph, drop_hold, X. }
  eapply (quiet_inv hash t p p' s s'); try done.
  - intros x i. rewrite Eb. apply lt_same.
    + pose proof (Ph x i). pose proof (Ph' x i). tauto.
    + pose proof (Pr x i). pose proof (Pr' x i). tauto.
  - eapply (words_same s s' t p p'); try done; [apply (i_words _ _ I)|by eapply quiet_mono|intros; by rewrite Ea|congruence].
  - eapply (pc_stable hash s s'); try done.
    + apply (link_lt hash). apply (i_shape _ _ I).
    + by eapply quiet_mono.
    + intros x i _. by rewrite Eb.
Qed.
Lemma pres_rzlock t c s s' k x : inv s -> at_pc s t (RzLock k x) -> step hash t c s = Some s' -> inv s'.
Proof.
  intros I A E. pose proof (i_pc _ _ I _ _ A) as (P & X & L). unfold step in E. pose proof A as A'. unfold at_pc in A'. rewrite A' in E.
  destruct c; try discriminate. destruct (rsz s) eqn:R; injection E as <-.
  - splain; [apply resume_plain|]. by apply resume_ok.
  - eapply (pres_rsz t _ (RzIn k x) s _ I A); try done; try (intros; cbn; tauto); auto.
Qed.
Lemma pres_rzin t c s s' k x : inv s -> at_pc s t (RzIn k x) -> step hash t c s = Some s' -> inv s'.
Proof.
  intros I A E. pose proof (i_pc _ _ I _ _ A) as (P & X & L). unfold step in E. pose proof A as A'. unfold at_pc in A'. rewrite A' in E.
  destruct c; try discriminate. destruct (decide (cur s = Some x)); injection E as <-; spc; [|exact P].
  split; [exact P|]. done.
Qed.
Lemma pres_rzout t c s s' k : inv s -> at_pc s t (RzOut k) -> step hash t c s = Some s' -> inv s'.
Proof.
  intros I A E. pose proof (i_pc _ _ I _ _ A) as P. cbn in P. unfold step in E. pose proof A as A'. unfold at_pc in A'. rewrite A' in E.
  destruct c; try discriminate. injection E as <-. pose proof (resume_plain k) as [Q1 Q2 Q3 Q4 Q5 Q6].
  eapply (pres_rsz t _ (resume k) s _ I A); try done; try (intros; cbn; tauto); auto.
  - rewrite Q4. done.
  - by apply resume_ok.
Qed.
Lemma pres_rzdo t c s s' k x : inv s -> at_pc s t (RzDo k x) -> step hash t c s = Some s' -> inv s'.
Proof.
  intros I A E. pose proof (i_pc _ _ I _ _ A) as (P & X & L & C). unfold step in E. pose proof A as A'. unfold at_pc in A'. rewrite A' in E.
  destruct c as [| | |n| | | | |]; try discriminate.
  - injection E as <-. spc. exact P.
  - destruct (CapModel.arr_new n) as [z|] eqn:Z.
    + injection E as <-. set (s' := set_pc t _ _).
      assert (Nl : forall c, cur s = Some c -> link (arr s c) = None) by (intros c; rewrite C; intros [= <-]; done).
      eapply (pres_push hash hash64 t _ (RzOut k) s s' z I A); try done; try (intros; cbn; tauto); auto.
      * by exists n.
      * eapply (kont_mono hash s s'); [apply (link_lt hash), (i_shape _ _ I)| |done].
        eapply (push_mono hash s s' z); try done. apply (i_shape _ _ I).
    + destruct (CapFacts.arr_new_spec n) as (k' & sz' & E' & _). congruence.
  - injection E as <-. spc.
    + cbn. intros y i. split; [done|]. intros [_ Y]. lia.
    + split; [exact P|]. do 3 (split; [done|]). split; [lia|]. intros i Hi. lia.
Qed.
Lemma pres_dlock t c s s' k x n : inv s -> at_pc s t (DLock k x n) -> step hash t c s = Some s' -> inv s'.
Proof.
  intros I A E. pose proof (i_pc _ _ I _ _ A) as (P & X & L & C & Ln & Es). unfold step in E. pose proof A as A'. unfold at_pc in A'. rewrite A' in E.
  destruct c; try discriminate. destruct (N.ltb_spec n (alen s x)) as [Lt|Ge].
  - assert (Fail : s' = set_pc t (DUnlock k x 0 n false) s -> inv s').
    { intros ->. spc.
      - cbn. intros y i. split; (intros [-> Y]; split; [done|lia]).
      - split; [exact P|]. do 3 (split; [done|]). done. }
    destruct (lk (bks s x n)) eqn:El; try (injection E as <-; by apply Fail).
    destruct (es (bks s x n)) as [|e r] eqn:Ee; [|injection E as <-; by apply Fail].
    injection E as <-.
    eapply (step_lock_s hash t (DLock k x n) (DLock k x (n + 1)) s _ x n (LExcl t) I A); try done.
    + intros y i. rewrite Ee. done.
    + intros D. unfold dead in D. congruence.
    + rewrite El. apply lt_excl; [cbn; tauto|]. cbn. split; [done|lia].
    + intros y i N. cbn. split; (intros [-> Y]; split; [done|]); [lia|]. destruct (N.eq_dec i n) as [->|]; [by destruct N|lia].
    + split; [exact P|]. do 3 (split; [done|]). split; [lia|]. intros i Hi.
      destruct (N.eq_dec i n) as [->|]; [done|]. apply Es. lia.
  - injection E as <-. assert (n = alen s x) as -> by lia. spc. split; [exact P|]. done.
Qed.
Lemma pres_dswap t c s s' k x n : inv s -> at_pc s t (DSwap k x n) -> step hash t c s = Some s' -> inv s'.
Proof.
  intros I A E. pose proof (i_pc _ _ I _ _ A) as (P & X & L & C & -> & Es). unfold step in E. pose proof A as A'. unfold at_pc in A'. rewrite A' in E.
  destruct c; try discriminate. injection E as <-. pose proof (i_shape _ _ I) as Sh.
  set (p' := DUnlock k x 0 (alen s x) true). set (s' := set_pc t p' _).
  assert (M : moves t p' s s') by done.
  assert (NL : forall y, ~ live s' y) by (intros y [Y|(c & Y & _)]; done).
  assert (Lv : forall y, live s y -> y = x).
  { intros y [Y|(c & Y & Z)]; [congruence|]. rewrite C in Y. injection Y as <-. congruence. }
  assert (Nk : forall y o, link (arr s y) <> Some o).
  { intros y o Y. pose proof (i_link _ _ Sh _ _ Y) as [Z _]. rewrite C in Z. injection Z as <-. congruence. }
  assert (Ns : forall y i k v, ~ stored_at s y i k v).
  { intros y i k0 v Y. pose proof (Lv y (i_live _ _ Sh _ _ _ _ Y)) as ->. pose proof (stored_lt hash hash64 s _ _ _ _ Sh Y) as [_ Z].
    unfold stored_at in Y. rewrite Es in Y by done. by apply elem_of_nil in Y. }
  assert (Mo : mono s s').
  { split; try done; [intros; by left|]. intros y _ Y. by apply NL in Y. }
  eapply (inv_step hash s s' t (DSwap k x (alen s x)) p'); try done.
  - split; try done.
    + apply (i_sz _ _ Sh).
    + intros y o Y. by apply Nk in Y.
    + apply (i_fresh _ _ Sh).
    + apply (i_dead _ _ Sh).
    + intros y i k0 v Y. by apply Ns in Y.
    + apply (i_nd _ _ Sh).
    + intros y i k0 v Y. by apply Ns in Y.
    + intros a o i k0 v _ Y. by apply Ns in Y.
    + intros y i Y Hi _. change (i < alen s y) in Hi.
      destruct (decide (y = x)) as [->|N].
      * right. exists t, p'. split; [by eapply at_self|]. cbn. split; [done|lia].
      * destruct (i_gone _ _ Sh y i Y Hi) as [D|(u & q & B' & D)]; [intros Z; by apply Lv in Z|by left|].
        right. exists u, q. split; [|done]. eapply at_other; [done| |done]. notself A B'. by cbn in D.
  - intros y i. apply lt_same; [|done]. cbn. split; (intros [-> Y]; split; [done|lia]).
  - eapply (words_same s s' t _ p'); try done. apply (i_words _ _ I).
  - intros _. split; [|by left]. change (rsz s = true). by eapply (i_rsz _ (i_resz _ _ I)).
  - by left.
  - intros y i. by left.
  - right. by left.
  - split; [eapply (kont_mono hash s s'); [apply (link_lt hash), Sh|done|done]|]. do 2 (split; [done|]). split; [done|].
    intros _. split; [apply NL|]. intros i Hi. apply Es. lia.
Qed.
Lemma pres_dunlock t c s s' k x n hi ok : inv s -> at_pc s t (DUnlock k x n hi ok) -> step hash t c s = Some s' -> inv s'.
Proof.
  intros I A E. pose proof (i_pc _ _ I _ _ A) as (P & X & L & Lh & Es). unfold step in E. pose proof A as A'. unfold at_pc in A'. rewrite A' in E.
  destruct c; try discriminate. destruct (N.ltb_spec n hi) as [Lt|Ge]; injection E as <-.
  - assert (Hh : forall y i, holds (DUnlock k x (n + 1) hi ok) y i <-> holds (DUnlock k x n hi ok) y i /\ ~ (y = x /\ i = n)).
    { intros y i. cbn. split.
      - intros [-> Y]. split; [split; [done|lia]|]. intros [_ Z]. lia.
      - intros [[-> Y] Z]. split; [done|]. destruct (N.eq_dec i n) as [->|]; [by destruct Z|lia]. }
    destruct ok.
    + destruct (Es eq_refl) as [NL Es'].
      eapply (pres_kill hash t _ (DUnlock k x (n + 1) hi true) s _ x n I A); try done; try (intros; cbn; tauto).
      * intros Y. apply NL. by left.
      * apply Es'. lia.
      * intros y i. cbn. intros [-> Y]. destruct (N.eq_dec i n) as [->|]; [by right|]. left. split; [done|lia].
      * intros Mo D Ee. split; [eapply (kont_mono hash s); [apply (link_lt hash), (i_shape _ _ I)|done|done]|].
        split; [done|]. split; [done|]. split; [done|]. intros _. split; [done|]. intros i Hi. rewrite Ee. apply Es'. lia.
    + eapply (pres_release hash t _ (DUnlock k x (n + 1) hi false) s _ x n I A); try done; try (intros; cbn; tauto).
  - spc.
    + intros y i. cbn. split; [|done]. intros [_ Y]. lia.
    + destruct ok; [|cbn; tauto]. intros y i. cbn. intros [_ Y]. lia.
    + exact P.
Qed.

(** ** All steps *)
Theorem step_inv t c s s' : inv s -> step hash t c s = Some s' -> inv s'.
Proof.
  intros I E. assert (X : exists p, at_pc s t p).
  { unfold step in E. unfold at_pc. destruct (pcs s !! t) as [p|]; [eauto|discriminate]. }
  destruct X as (p & A). destruct p.
  - by eapply (pres_idle hash).
  - by eapply (pres_load hash).
  - by eapply (pres_linked hash).
  - by eapply (pres_relink hash).
  - by eapply (pres_claim hash).
  - by eapply (pres_rehash hash).
  - by eapply (pres_endok hash).
  - by eapply (pres_detach hash).
  - by eapply (pres_endfail hash).
  - by eapply (pres_dedup hash).
  - by eapply (pres_oldlocked hash).
  - by eapply (pres_tlock hash).
  - by eapply (pres_tback hash).
  - by eapply (pres_tdrop hash).
  - by eapply pres_tmove.
  - by eapply (pres_tunlock hash).
  - by eapply (pres_tkill hash).
  - by eapply (pres_access hash).
  - by eapply (pres_crit hash).
  - by eapply (pres_out hash).
  - by eapply (pres_done hash).
  - by eapply (pres_rzcheck hash).
  - by eapply (pres_rzlink hash).
  - by eapply pres_rzlock.
  - by eapply pres_rzin.
  - by eapply pres_rzdo.
  - by eapply pres_dlock.
  - by eapply pres_dswap.
  - by eapply pres_dunlock.
  - by eapply pres_rzout.
  - destruct (i_pc _ _ I _ _ A).
Qed.
Lemma start_inv (n : nat) : inv (start n : state).
Proof.
  assert (A : forall t p, at_pc (start n : state) t p -> p = Idle).
  { intros t p X. unfold at_pc in X. cbn in X. by apply lookup_replicate in X as [-> _]. }
  split.
  - split; try done; try (intros; cbn in *; lia); try (cbn; constructor); intros.
    all: match goal with X : stored_at _ _ _ _ _ |- _ => by apply elem_of_nil in X end.
  - split; try done; intros t p x i X; apply A in X as ->; done.
  - intros o O. cbn in O. lia.
  - split; [intros t p X|intros t u p q X]; apply A in X as ->; done.
  - intros t p X. by apply A in X as ->.
Qed.
Lemma run_inv l s s' : inv s -> run hash l s = Some s' -> inv s'.
Proof.
  revert s. induction l as [|[t c] l IH]; intros s I E; cbn in E; [by injection E as <-|].
  destruct (step hash t c s) as [s1|] eqn:E1; [|discriminate]. eapply IH; [|done]. by eapply step_inv.
Qed.
End pres.
