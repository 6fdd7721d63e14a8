(** Every step preserves the invariant: steps of a thread that do not change the contents. *)
From Coq Require Import NArith Lia.
From stdpp Require Import prelude list numbers.
From Verif Require CapModel CapSpec CapFacts.
From Verif Require Import CtModel CtSpec CtInv CtStep CtPres.
Local Open Scope N_scope.

Section pres.
Context {K V : Type} `{EqDecision K} (hash : K -> N).
Hypothesis hash64 : forall k, hash k < 2 ^ 64.
Notation state := (state K V). Notation pc := (pc K V). Notation job := (job K V).
Implicit Types (s : state) (p q : pc) (j : job) (x y a o : nat) (i n : N) (t u : nat).
Notation inv := (inv hash). Notation shape := (shape hash). Notation pc_ok := (pc_ok hash).
Notation jidx := (jidx hash). Notation acc_ok := (acc_ok hash). Notation cont_ok := (cont_ok hash).
Notation ded_ok := (ded_ok hash). Notation kont_ok := (kont_ok hash).

Ltac plain := split; (done || (intros; cbn; tauto)).

Lemma step_plain t p p' s s' : inv s -> at_pc s t p -> plain p -> plain p' ->
  arr s' = arr s -> nxt s' = nxt s -> bks s' = bks s -> cur s' = cur s -> rsz s' = rsz s -> moves t p' s s' ->
  pc_ok s' p' -> inv s'.
Proof.
  intros I A P P' Ea En Eb Ec Er M Ok. eapply (step_pc hash t p p' s s'); try done.
  - intros x i. pose proof (pl_holds _ P x i). pose proof (pl_holds _ P' x i). tauto.
  - intros x i. pose proof (pl_reads _ P x i). pose proof (pl_reads _ P' x i). tauto.
  - rewrite (pl_claims _ P), (pl_claims _ P'). done.
  - rewrite (pl_resizing _ P), (pl_resizing _ P'). done.
  - intros x i X. exfalso. by eapply (pl_moved _ P).
  - intros x i X. exfalso. by eapply (pl_dropping _ P).
Qed.
Ltac splain := eapply step_plain; [eassumption|eassumption| | |reflexivity|reflexivity|reflexivity|reflexivity
   |reflexivity|reflexivity| ]; [try plain|try plain| ].
Ltac spc := eapply step_pc; [eassumption|eassumption|reflexivity|reflexivity|reflexivity|reflexivity
   |reflexivity|reflexivity| | | | | | | ]; [try (cbn; intros; tauto)|try (cbn; intros; tauto)|try reflexivity
   |try reflexivity|try (cbn; intros; tauto)|try (cbn; intros; tauto)| ].

Lemma mono_refl s : mono s s.
Proof. split; auto. Qed.

(** Locking a bucket exclusively. *)
Lemma pres_lock t p p' q s s' x i : inv s -> at_pc s t p -> (x < nxt s)%nat -> i < alen s x ->
  lock_excl t s x i p' q = Some s' ->
  (forall y i', ~ holds p y i') -> (forall y i', ~ reads p y i') ->
  (forall y i', ~ moved p y i') -> (forall y i', ~ dropping p y i') ->
  (forall y i', holds p' y i' <-> (y = x /\ i' = i)) -> (forall y i', ~ reads p' y i') ->
  claims p' = claims p -> resizing p' = resizing p -> pc_ok s p' ->
  (forall y i', ~ holds q y i') -> (forall y i', ~ reads q y i') -> claims q = claims p -> resizing q = resizing p ->
  (dead s x i -> pc_ok s q) ->
  inv s'.
Proof.
  intros I A X L E Ph Pr Pm Pd P'h P'r C R Ok Qh Qr QC QR QOk. unfold lock_excl in E.
  destruct (N.ltb_spec i (alen s x)); [|lia]. destruct (lk (bks s x i)) eqn:El; try discriminate; injection E as <-.
  - eapply (step_lock_s hash t p p' s _ x i (LExcl t)); try done.
    + intros De. unfold dead in De. congruence.
    + rewrite El. apply lt_excl; [done|]. by apply P'h.
    + intros y i' N. rewrite P'h. pose proof (Ph y i'). tauto.
    + intros y i' N. pose proof (Pr y i'). pose proof (P'r y i'). tauto.
    + intros y i' Y. by apply Pm in Y.
    + intros y i' Y. by apply Pd in Y.
  - eapply (step_pc hash t p q s); try done; try reflexivity.
    + intros y i'. pose proof (Ph y i'). pose proof (Qh y i'). tauto.
    + intros y i'. pose proof (Pr y i'). pose proof (Qr y i'). tauto.
    + intros y i' Y. by apply Pm in Y.
    + intros y i' Y. by apply Pd in Y.
    + exact (QOk El).
Qed.
Lemma pres_shared t p p' q s s' x i : inv s -> at_pc s t p -> (x < nxt s)%nat -> i < alen s x ->
  lock_shared t s x i p' q = Some s' ->
  (forall y i', ~ holds p y i') -> (forall y i', ~ reads p y i') ->
  (forall y i', ~ moved p y i') -> (forall y i', ~ dropping p y i') ->
  (forall y i', ~ holds p' y i') -> (forall y i', reads p' y i' <-> (y = x /\ i' = i)) ->
  claims p' = claims p -> resizing p' = resizing p -> pc_ok s p' ->
  (forall y i', ~ holds q y i') -> (forall y i', ~ reads q y i') -> claims q = claims p -> resizing q = resizing p ->
  (dead s x i -> pc_ok s q) ->
  inv s'.
Proof.
  intros I A X L E Ph Pr Pm Pd P'h P'r C R Ok Qh Qr QC QR QOk. unfold lock_shared in E.
  destruct (N.ltb_spec i (alen s x)); [|lia]. destruct (lk (bks s x i)) as [|ts| |] eqn:El; try discriminate; injection E as <-.
  - eapply (step_lock_s hash t p p' s _ x i (LRead [t])); try done.
    + intros De. unfold dead in De. congruence.
    + rewrite El. apply lt_read1; [by apply P'r|done].
    + intros y i' N. pose proof (Ph y i'). pose proof (P'h y i'). tauto.
    + intros y i' N. rewrite P'r. pose proof (Pr y i'). tauto.
    + intros y i' Y. by apply Pm in Y.
    + intros y i' Y. by apply Pd in Y.
  - eapply (step_lock_s hash t p p' s _ x i (LRead (t :: ts))); try done.
    + intros De. unfold dead in De. congruence.
    + rewrite El. apply lt_read; [done|by apply P'r|done].
    + intros y i' N. pose proof (Ph y i'). pose proof (P'h y i'). tauto.
    + intros y i' N. rewrite P'r. pose proof (Pr y i'). tauto.
    + intros y i' Y. by apply Pm in Y.
    + intros y i' Y. by apply Pd in Y.
  - eapply (step_pc hash t p q s); try done; try reflexivity.
    + intros y i'. pose proof (Ph y i'). pose proof (Qh y i'). tauto.
    + intros y i'. pose proof (Pr y i'). pose proof (Qr y i'). tauto.
    + intros y i' Y. by apply Pm in Y.
    + intros y i' Y. by apply Pd in Y.
    + exact (QOk El).
Qed.
(** Releasing a bucket that is held exclusively. *)
Lemma pres_release t p p' s s' x i : inv s -> at_pc s t p -> (x < nxt s)%nat -> holds p x i ->
  arr s' = arr s -> nxt s' = nxt s -> cur s' = cur s -> rsz s' = rsz s -> moves t p' s s' ->
  bks s' = bks (release t x i s) ->
  (forall y i', holds p' y i' <-> holds p y i' /\ ~ (y = x /\ i' = i)) ->
  (forall y i', ~ reads p y i') -> (forall y i', ~ reads p' y i') ->
  (forall y i', moved p y i' -> moved p' y i') -> (forall y i', ~ dropping p y i') ->
  claims p' = claims p -> resizing p' = resizing p -> pc_ok s p' -> inv s'.
Proof.
  intros I A X Hh Ea En Ec Er M Eb H' R R' Mo D C Z Ok.
  pose proof (i_holds _ (i_locks _ _ I) _ _ _ _ A Hh) as El.
  eapply (step_lock_s hash t p p' s s' x i LFree); try done.
  - intros y i'. rewrite Eb. simpl. rewrite El. done.
  - intros De. unfold dead in De. congruence.
  - rewrite El. apply lt_free; [done| |by left]. rewrite H'. tauto.
  - intros y i' N. rewrite H'. tauto.
  - intros y i' N. pose proof (R y i'). pose proof (R' y i'). tauto.
  - intros y i' Y. by apply D in Y.
Qed.

Lemma pres_idle t c s s' : inv s -> at_pc s t Idle -> step hash t c s = Some s' -> inv s'.
Proof.
  intros I A E. unfold step in E. unfold at_pc in A. rewrite A in E. destruct c; try discriminate. injection E as <-.
  splain. destruct c; cbn; auto.
Qed.
Lemma pres_linked t c s s' j a : inv s -> at_pc s t (Linked j a) -> step hash t c s = Some s' -> inv s'.
Proof.
  intros I A E. pose proof (i_pc _ _ I _ _ A) as P. unfold step in E. unfold at_pc in A. rewrite A in E.
  destruct c; try discriminate.
  destruct (link (arr s a)) as [o|] eqn:L; injection E as <-.
  - splain. split; [|done]. pose proof (i_link _ _ (i_shape _ _ I) _ _ L) as [_ X]. split; [exact X|by left].
  - splain. split; [done|]. split; [done|]. intros o' L'. cbn in L'. congruence.
Qed.
Lemma pres_relink t c s s' j a o : inv s -> at_pc s t (Relink j a o) -> step hash t c s = Some s' -> inv s'.
Proof.
  intros I A E. pose proof (i_pc _ _ I _ _ A) as [W J]. unfold step in E. unfold at_pc in A. rewrite A in E.
  destruct c; try discriminate.
  destruct (link (arr s a)) as [o'|] eqn:L; injection E as <-.
  - splain. done.
  - splain. exact (dedup_from_ok hash hash64 s j a o I W J).
Qed.
Lemma reh_facts s j a o prev i : reh_ok s j a o prev i -> (o < nxt s)%nat.
Proof. intros [[W _] _]. lia. Qed.
Lemma claims_b_some p o prev : claims p = Some (o, prev) -> forall o', claims_b o' p = (o =? o')%nat.
Proof. intros E o'. unfold claims_b. by rewrite E. Qed.
Lemma claims_b_none p : claims p = None -> forall o', claims_b o' p = false.
Proof. intros E o'. unfold claims_b. by rewrite E. Qed.
Lemma mod_split w n : w mod 32 = n -> exists d, w = 32 * d + n /\ w - w mod 32 = 32 * d /\ n < 32.
Proof.
  intros <-. pose proof (N.div_mod w 32 ltac:(discriminate)). pose proof (N.mod_lt w 32 ltac:(discriminate)).
  exists (w / 32). split; [done|]. split; [|done]. lia.
Qed.
Lemma mod_join d n : n < 32 -> (32 * d + n) mod 32 = n.
Proof. intros L. symmetry. by apply (N.mod_unique (32 * d + n) 32 d n). Qed.

Lemma pres_claim t c s s' j a o : inv s -> at_pc s t (Claim j a o) -> step hash t c s = Some s' -> inv s'.
Proof.
  intros I A E. pose proof (i_pc _ _ I _ _ A) as [W J]. unfold step in E. pose proof A as A'. unfold at_pc in A'. rewrite A' in E.
  destruct c; try discriminate. unfold claim in E.
  assert (O : (o < nxt s)%nat) by (destruct W; lia).
  destruct ((alen s o <=? word (arr s o)) || (N.land (word (arr s o)) 31 =? 31)) eqn:G.
  { injection E as <-. splain. exact (dedup_from_ok hash hash64 s j a o I W J). }
  injection E as <-. apply orb_false_iff in G as [G1 G2]. apply N.leb_gt in G1. apply N.eqb_neq in G2.
  rewrite land31 in G2. rewrite ldiff31. destruct (i_words _ _ I o O) as (W1 & W2 & W3).
  destruct (mod_split _ _ W1) as (d & Ew & Ed & Ln). rewrite Ed.
  pose proof (next_rehash_shape s j a o (32 * d) (32 * d)) as (Q1 & Q2 & Q3 & Q4 & Q5 & Q6).
  set (p' := next_rehash s j a o (32 * d) (32 * d)) in *.
  set (s' := set_pc t p' _).
  pose proof (nclaims_step s s' t _ p' o A eq_refl) as NC.
  rewrite (claims_b_some _ _ _ Q3), Nat.eqb_refl in NC. cbn [claims_b claims] in NC.
  assert (EW : word (arr s o) + 33 = 32 * (d + 1) + (N.of_nat (nclaims s o) + 1)) by lia.
  assert (B : N.of_nat (nclaims s o) + 1 < 32) by lia.
  eapply (step_word hash t (Claim j a o) p' s s' o (word (arr s o) + 33)); try done.
  - intros y i. split; [done|]. apply Q1.
  - intros y i. split; [done|]. apply Q2.
  - intros o' No. rewrite (claims_b_some _ _ _ Q3). cbn. by apply Nat.eqb_neq.
  - rewrite EW, mod_join by done. split; lia.
  - intros i Hi Hw. rewrite EW, mod_join in Hw by done. destruct (N.lt_ge_cases i (32 * d)) as [L|L].
    + left. split; [lia|done].
    + right. exists (32 * d). split; [done|lia].
  - unfold p', next_rehash.
    assert (32 * d < alen s o) by lia.
    destruct (N.ltb_spec (32 * d) (N.min (32 * d + 32) (alen s o))); [|lia].
    cbn [CtInv.pc_ok]. split; [|done]. split; [done|]. split; [done|]. split.
    { pose proof (mod_join d 0 ltac:(lia)) as X. by rewrite N.add_0_r in X. }
    split; [done|]. split; [lia|]. intros i' Hi. lia.
Qed.
Lemma pres_rehash t c s s' j a o prev i : inv s -> at_pc s t (Rehash j a o prev i) -> step hash t c s = Some s' -> inv s'.
Proof.
  intros I A E. pose proof (i_pc _ _ I _ _ A) as [R L]. unfold step in E. pose proof A as A'. unfold at_pc in A'. rewrite A' in E.
  destruct c; try discriminate.
  - pose proof (next_rehash_shape s j a o prev (i + 1)) as (Q1 & Q2 & Q3 & Q4 & Q5 & Q6).
    eapply (pres_lock _ _ _ _ _ _ _ _ I A); [by eapply reh_facts| |exact E|..]; try done; try (cbn; tauto).
    + lia.
    + intros De. apply next_rehash_ok; [apply mono_refl|done|done|done].
  - injection E as <-. destruct R as (W & J & P & L' & _). spc. done.
  - injection E as <-. destruct R as (W & J & P & L' & _). spc. done.
Qed.
Lemma unclaim_spec d r prev : 1 <= r < 32 -> prev mod 32 = 0 ->
  exists d', unclaim (32 * d + r) prev = 32 * d' + (r - 1) /\ 32 * d' <= prev /\ d' <= d.
Proof.
  intros R P. apply mod_split in P as (e & -> & _ & _). unfold unclaim. rewrite land31, mod_join by lia.
  destruct (N.leb_spec (32 * d + r) (32 * e + 0)).
  - exists d. split; [lia|]. lia.
  - exists e. rewrite lor31; [split; [lia|lia]|apply mod_join; lia|lia].
Qed.
Lemma pres_endfail t c s s' j a o prev cx : inv s -> at_pc s t (EndFail j a o prev cx) -> step hash t c s = Some s' -> inv s'.
Proof.
  intros I A E. pose proof (i_pc _ _ I _ _ A) as (W & J & P & L). unfold step in E. pose proof A as A'. unfold at_pc in A'. rewrite A' in E.
  destruct c; try discriminate.
  assert (O : (o < nxt s)%nat) by (destruct W; lia).
  destruct (i_words _ _ I o O) as (W1 & W2 & W3).
  destruct (mod_split _ _ W1) as (d & Ew & Ed & Ln).
  set (p' := if cx then Idle else dedup_from hash s j a o) in *.
  assert (Pl : plain p') by (unfold p'; destruct cx; plain).
  assert (NC1 : (0 < nclaims s o)%nat).
  { pose proof (nclaims_step s (set_pc t p' s) t _ p' o A eq_refl) as NC.
    rewrite (claims_b_none _ (pl_claims _ Pl)) in NC. cbn in NC. rewrite Nat.eqb_refl in NC. lia. }
  rewrite land31, W1 in E. destruct (N.eqb_spec (N.of_nat (nclaims s o)) 0) as [Z|Z]; [lia|]. injection E as <-.
  destruct (unclaim_spec d (N.of_nat (nclaims s o)) prev ltac:(lia) P) as (d' & EU & Le1 & Le2). rewrite <- Ew in EU.
  set (s' := set_pc t p' _).
  pose proof (nclaims_step s s' t _ p' o A eq_refl) as NC.
  rewrite (claims_b_none _ (pl_claims _ Pl)) in NC. cbn [claims_b claims] in NC. rewrite Nat.eqb_refl in NC.
  eapply (step_word hash t (EndFail j a o prev cx) p' s s' o (unclaim (word (arr s o)) prev)); try done.
  - intros y i. cbn. split; [done|]. apply (pl_holds _ Pl).
  - intros y i. cbn. split; [done|]. apply (pl_reads _ Pl).
  - apply (pl_resizing _ Pl).
  - intros o' No. rewrite (claims_b_none _ (pl_claims _ Pl)). cbn. symmetry. apply Nat.eqb_neq. done.
  - intros o' pr No C. cbn in C. congruence.
  - rewrite EU, mod_join by lia. split; lia.
  - intros i Hi Hw. rewrite EU, mod_join in Hw by lia. left. split; [lia|].
    intros pr C B. cbn in C. injection C as <-. lia.
  - unfold p'. destruct cx; [done|]. exact (dedup_from_ok hash hash64 s j a o I W J).
Qed.
Lemma pres_endok t c s s' j a o prev : inv s -> at_pc s t (EndOk j a o prev) -> step hash t c s = Some s' -> inv s'.
Proof.
  intros I A E. pose proof (i_pc _ _ I _ _ A) as R. unfold step in E. pose proof A as A'. unfold at_pc in A'. rewrite A' in E.
  destruct c; try discriminate. destruct R as (W & J & P & L & _ & Ds).
  assert (O : (o < nxt s)%nat) by (destruct W; lia).
  destruct (i_words _ _ I o O) as (W1 & W2 & W3).
  destruct (mod_split _ _ W1) as (d & Ew & Ed & Ln).
  assert (NC1 : (0 < nclaims s o)%nat).
  { pose proof (nclaims_step s (set_pc t Idle s) t _ Idle o A eq_refl) as NC.
    cbn in NC. rewrite Nat.eqb_refl in NC. lia. }
  destruct (N.eqb_spec (word (arr s o)) 0) as [Z|Z]; [lia|].
  assert (EW : word (arr s o) - 1 = 32 * d + (N.of_nat (nclaims s o) - 1)) by lia.
  assert (Main : forall p' s', plain p' -> pc_ok s p' ->
     s' = set_pc t p' (set_meta o (Meta (sz (arr s o)) (link (arr s o)) (word (arr s o) - 1)) s) -> inv s').
  { intros p' s1 Pl Ok ->. set (s1 := set_pc t p' _).
    pose proof (nclaims_step s s1 t _ p' o A eq_refl) as NC.
    rewrite (claims_b_none _ (pl_claims _ Pl)) in NC. cbn [claims_b claims] in NC. rewrite Nat.eqb_refl in NC.
    eapply (step_word hash t (EndOk j a o prev) p' s s1 o (word (arr s o) - 1)); try done.
    - intros y i. cbn. split; [done|]. apply (pl_holds _ Pl).
    - intros y i. cbn. split; [done|]. apply (pl_reads _ Pl).
    - apply (pl_resizing _ Pl).
    - intros o' No. rewrite (claims_b_none _ (pl_claims _ Pl)). cbn. symmetry. apply Nat.eqb_neq. done.
    - intros o' pr No C. cbn in C. congruence.
    - rewrite EW, mod_join by lia. split; lia.
    - intros i Hi Hw. rewrite EW, mod_join in Hw by lia. left. split; [lia|].
      intros pr C B. cbn in C. injection C as <-. left. apply Ds. lia. }
  rewrite land31, EW, mod_join in E by lia.
  destruct ((N.of_nat (nclaims s o) - 1 =? 0) && (alen s o <=? 32 * d + (N.of_nat (nclaims s o) - 1))) eqn:G.
  - apply andb_true_iff in G as [G1 G2]. apply N.eqb_eq in G1. apply N.leb_le in G2. injection E as <-.
    eapply Main; [|  |by rewrite EW]; [plain|]. split; [done|]. split; [done|].
    intros i Hi. destruct (W3 i Hi ltac:(lia)) as [De|(u & q & pr & B & C & X)]; [done|].
    destruct (decide (u = t)) as [->|N].
    + unfold at_pc in B. rewrite A' in B. injection B as <-. cbn in C. injection C as <-. apply Ds. lia.
    + (* no other thread has a claim *)
      exfalso. set (s1 := set_pc t Idle s).
      pose proof (nclaims_step s s1 t _ Idle o A eq_refl) as NC. cbn [claims_b claims] in NC. rewrite Nat.eqb_refl in NC.
      assert (B' : at_pc s1 u q) by (eapply at_other; [|done|done]; reflexivity).
      pose proof (nclaims_step s1 (set_pc u Idle s1) u q Idle o B' eq_refl) as NC'.
      rewrite (claims_b_some _ _ _ C), Nat.eqb_refl in NC'. cbn [claims_b claims] in NC'. lia.
  - injection E as <-. eapply Main; [|  |by rewrite EW]; [plain|]. exact (dedup_from_ok hash hash64 s j a o I W J).
Qed.
Lemma pres_dedup t c s s' j a o i hi : inv s -> at_pc s t (Dedup j a o i hi) -> step hash t c s = Some s' -> inv s'.
Proof.
  intros I A E. pose proof (i_pc _ _ I _ _ A) as [D L]. unfold step in E. pose proof A as A'. unfold at_pc in A'. rewrite A' in E.
  pose proof D as (W & J & _).
  destruct c; try discriminate.
  - pose proof (next_dedup_plain hash s j a o (i + 1) hi) as [Q1 Q2 Q3 Q4 Q5 Q6].
    assert (C : cont_ok s (CDedup j hi) a o i) by done.
    eapply (pres_lock _ _ _ _ _ _ _ _ I A); [| |exact E|..]; try done; try (cbn; tauto).
    + destruct W; lia.
    + by eapply (cont_lt hash hash64).
    + intros De. apply (next_dedup_ok hash s s); [done|apply mono_refl|done|done|done].
  - injection E as <-. splain. done.
  - injection E as <-. splain. done.
  - injection E as <-. splain. exact (job_load hash s a j I J).
  - destruct (link (arr s a)) as [o'|] eqn:L'; [discriminate|]. injection E as <-. splain.
    split; [done|]. split; [done|]. intros o' L''. cbn in L''. congruence.
Qed.
Lemma pres_oldlocked t c s s' k a o i : inv s -> at_pc s t (OldLocked k a o i) -> step hash t c s = Some s' -> inv s'.
Proof.
  intros I A E. pose proof (i_pc _ _ I _ _ A) as C. cbn in C. unfold step in E. pose proof A as A'. unfold at_pc in A'. rewrite A' in E.
  destruct c; try discriminate. destruct (reloc_link hash hash64 _ _ _ _ _ _ _ I A ltac:(by cbn) C) as (Lk & Cu & B & Li).
  destruct (es (bks s o i)) as [|e0 r0] eqn:Es; injection E as <-.
  - spc. split; [done|]. exact Es.
  - spc.
    + cbn. intros y i'. split; [auto|]. intros [|[_ X]]; [done|]. lia.
    + pose proof (range_ok hash s o a i I ltac:(lia) ltac:(lia) Li) as [R1 R2].
      split; [done|]. split; [done|]. split; [done|]. split; [|done]. split; [lia|exact R1].
Qed.
Lemma pres_tlock t c s s' k a o i lo hi n w : inv s -> at_pc s t (TLock k a o i lo hi n w) -> step hash t c s = Some s' -> inv s'.
Proof.
  intros I A E. pose proof (i_pc _ _ I _ _ A) as (C & Elo & Ehi & Ln & Lw). unfold step in E. pose proof A as A'. unfold at_pc in A'. rewrite A' in E.
  destruct (reloc_link hash hash64 _ _ _ _ _ _ _ I A ltac:(cbn; auto) C) as (Lk & Cu & B & Li).
  pose proof (range_ok hash s o a i I ltac:(lia) ltac:(lia) Li) as [R1 R2]. rewrite <- Elo, <- Ehi in *.
  destruct c; try (destruct w; discriminate).
  - assert (E1 : Some s' = match lk (bks s a n) with
          | LFree => Some (set_pc t (if n + 1 <? hi then TLock k a o i lo hi (n + 1) false else TMove k a o i lo hi)
                        (set_bk a n (Bk (es (bks s a n)) (LExcl t)) s))
          | LDead => Some (set_pc t Crash s)
          | _ => if w then None else Some (set_pc t (TLock k a o i lo hi n true) s)
          end).
    { destruct (N.ltb_spec n hi); [|lia]. destruct (N.ltb_spec n (alen s a)); [|lia]. destruct w; done. }
    clear E. rename E1 into E.
    assert (Busy : lk (bks s a n) <> LFree -> lk (bks s a n) <> LDead -> n = lo).
    { intros N1 N2. destruct (N.eq_dec n lo) as [|Nn]; [done|]. exfalso.
      assert (Gr : alen s o < alen s a).
      { destruct (N.lt_ge_cases (alen s o) (alen s a)) as [|G]; [done|].
        pose proof (rng_one (sz (arr s o)) (sz (arr s a)) i G). unfold range, alen in *. lia. }
      assert (HX : exists u q, at_pc s u q /\ (holds q a n \/ reads q a n)).
      { destruct (lk (bks s a n)) as [|ts|u|] eqn:El; try done.
        - destruct (i_reader _ (i_locks _ _ I) _ _ _ El) as (NE & _ & HH). destruct ts as [|u ts]; [done|].
          destruct (HH u ltac:(left)) as (q & Q1 & Q2). eauto.
        - destruct (i_holder _ (i_locks _ _ I) _ _ _ El) as (q & Q1 & Q2). eauto. }
      destruct HX as (u & q & Au & HH).
      destruct (inside_target hash hash64 s u q a o i n I Lk Li) as (c2 & i2 & C2 & H2 & R & Lq & _); try done.
      { eapply (held_alive hash s t); [done|done|cbn; auto]. }
      { lia. }
      assert (i2 = i) as ->.
      { pose proof (cont_lt hash hash64 _ _ _ _ _ I C2) as L2.
        eapply (rng_grow (sz (arr s o)) (sz (arr s a)) i2 i n); [apply (i_sz _ _ (i_shape _ _ I)); lia
          |apply (i_sz _ _ (i_shape _ _ I)); lia|exact L2|exact Li|exact Gr|exact R|].
        unfold range, alen in *. lia. }
      assert (t = u) as <-.
      { pose proof (i_holds _ (i_locks _ _ I) _ _ _ _ Au H2) as X.
        pose proof (i_holds _ (i_locks _ _ I) _ _ o i A ltac:(cbn; auto)) as Y. congruence. }
      unfold at_pc in Au. rewrite A' in Au. injection Au as <-. lia. }
    destruct (lk (bks s a n)) as [|ts|u|] eqn:El.
    + injection E as ->.
      set (p' := if n + 1 <? hi then TLock k a o i lo hi (n + 1) false else TMove k a o i lo hi).
      assert (P' : (forall y i', holds p' y i' <-> (y = o /\ i' = i) \/ (y = a /\ lo <= i' < n + 1)) /\
         (forall y i', ~ reads p' y i') /\ claims p' = cclaims k o /\ resizing p' = false /\ pc_ok s p').
      { unfold p'. destruct (N.ltb_spec (n + 1) hi); (split; [intros y i'; cbn|]; [split; (intros [|[-> ?]]; [by left|right; split; [done|lia]])|]);
          (split; [intros y i'; cbn; tauto|]); (split; [done|]); (split; [done|]).
        - split; [exact C|]. split; [done|]. split; [done|]. split; [lia|done].
        - split; [exact C|]. done. }
      destruct P' as (P1 & P2 & P3 & P4 & P5).
      eapply (step_lock_s hash t _ p' s _ a n (LExcl t)); [exact I|exact A|..]; try done; try lia.
      * intros De. unfold dead in De. congruence.
      * rewrite El. apply lt_excl; [done|]. apply P1. right. split; [done|lia].
      * intros y i' N. rewrite P1. cbn. split; (intros [|[-> ?]]; [by left|]).
        -- right. split; [done|lia].
        -- right. split; [done|]. destruct (N.eq_dec i' n); [|lia]. subst. exfalso. apply N. done.
      * intros y i' N. cbn. split; [done|apply P2].
    + destruct w; [discriminate|]. injection E as ->. spc.
      split; [exact C|]. do 3 (split; [done|]). auto.
    + destruct w; [discriminate|]. injection E as ->. spc.
      split; [exact C|]. do 3 (split; [done|]). auto.
    + exfalso. by eapply (i_curlive _ _ (i_shape _ _ I)).
  - assert (Es : s' = set_pc t (TBack k a o i lo n) s) by (destruct w; congruence). subst s'.
    spc. split; [exact C|]. cbn. unfold range, alen in *. cbn in *. lia.
  - destruct w; [|discriminate]. injection E as <-. rewrite (Lw eq_refl) in *.
    pose proof (gave_up_shape k a o true) as (Q1 & Q2 & Q3 & Q4 & Q5 & Q6).
    eapply (pres_release t _ (gave_up k a o true) s _ o i); [exact I|exact A|lia|cbn; auto|..]; try done; try (intros; cbn; tauto).
    + intros y i'. cbn. split; [intros X; by apply Q1 in X|]. intros [[X|[_ X]] Y]; [done|lia].
    + exact (gave_up_ok hash _ _ _ _ _ _ C).
Qed.
Lemma pres_tback t c s s' k a o i m n : inv s -> at_pc s t (TBack k a o i m n) -> step hash t c s = Some s' -> inv s'.
Proof.
  intros I A E. pose proof (i_pc _ _ I _ _ A) as (C & L1 & L2). unfold step in E. pose proof A as A'. unfold at_pc in A'. rewrite A' in E.
  destruct (reloc_link hash hash64 _ _ _ _ _ _ _ I A ltac:(cbn; auto) C) as (Lk & Cu & B & Li).
  destruct c; try discriminate. destruct (N.ltb_spec m n) as [L|L]; injection E as <-.
  - eapply (pres_release t _ (TBack k a o i (m + 1) n) s _ a m); [exact I|exact A|lia| |..]; try done; try (intros; cbn; tauto).
    + cbn. right. split; [done|lia].
    + intros y i'. cbn. split.
      * intros [[-> ->]|[-> X]]; (split; [|intros [X1 X2]; lia]); [by left|right; split; [done|lia]].
      * intros [[[-> ->]|[-> X]] Y]; [by left|]. right. split; [done|]. destruct (N.eq_dec i' m); [|lia]. exfalso. auto.
    + split; [exact C|]. lia.
  - spc.
    + intros y i'. cbn. split; [intros [|[_ X]]; [done|lia]|auto].
    + exact C.
Qed.
Lemma pres_tdrop t c s s' k a o i : inv s -> at_pc s t (TDrop k a o i) -> step hash t c s = Some s' -> inv s'.
Proof.
  intros I A E. pose proof (i_pc _ _ I _ _ A) as C. cbn in C. unfold step in E. pose proof A as A'. unfold at_pc in A'. rewrite A' in E.
  destruct (reloc_link hash hash64 _ _ _ _ _ _ _ I A ltac:(cbn; auto) C) as (Lk & Cu & B & Li).
  destruct c; try discriminate. injection E as <-.
  pose proof (gave_up_shape k a o false) as (Q1 & Q2 & Q3 & Q4 & Q5 & Q6).
  eapply (pres_release t _ (gave_up k a o false) s _ o i); [exact I|exact A|lia|by cbn|..]; try done; try (intros; cbn; tauto).
  - intros y i'. cbn. split; [intros X; by apply Q1 in X|]. tauto.
  - exact (gave_up_ok hash _ _ _ _ _ _ C).
Qed.
Lemma pres_tunlock t c s s' k a o i m hi : inv s -> at_pc s t (TUnlock k a o i m hi) -> step hash t c s = Some s' -> inv s'.
Proof.
  intros I A E. pose proof (i_pc _ _ I _ _ A) as (C & L1 & L2 & Es). unfold step in E. pose proof A as A'. unfold at_pc in A'. rewrite A' in E.
  destruct (reloc_link hash hash64 _ _ _ _ _ _ _ I A ltac:(cbn; auto) C) as (Lk & Cu & B & Li).
  destruct c; try discriminate. destruct (N.ltb_spec m hi) as [L|L]; injection E as <-.
  - eapply (pres_release t _ (TUnlock k a o i (m + 1) hi) s _ a m); [exact I|exact A|lia| |..]; try done; try (intros; cbn; tauto).
    + cbn. right. split; [done|lia].
    + intros y i'. cbn. split.
      * intros [[-> ->]|[-> X]]; (split; [|intros [X1 X2]; lia]); [by left|right; split; [done|lia]].
      * intros [[[-> ->]|[-> X]] Y]; [by left|]. right. split; [done|]. destruct (N.eq_dec i' m); [|lia]. exfalso. auto.
    + split; [exact C|]. split; [lia|]. done.
  - spc.
    + intros y i'. cbn. split; [intros [|[_ X]]; [done|lia]|auto].
    + split; [exact C|exact Es].
Qed.
(** Killing a bucket that is held exclusively, is empty, and is not in the current array. *)
Lemma pres_kill t p p' s s' x i : inv s -> at_pc s t p -> (x < nxt s)%nat -> holds p x i ->
  cur s <> Some x -> es (bks s x i) = [] ->
  arr s' = arr s -> nxt s' = nxt s -> cur s' = cur s -> rsz s' = rsz s -> moves t p' s s' ->
  bks s' = bks (kill x i s) ->
  (forall y i', holds p' y i' <-> holds p y i' /\ ~ (y = x /\ i' = i)) ->
  (forall y i', ~ reads p y i') -> (forall y i', ~ reads p' y i') ->
  (forall y i', moved p y i' -> y = x /\ i' = i) ->
  (forall y i', dropping p y i' -> dropping p' y i' \/ y = x /\ i' = i) ->
  claims p' = claims p -> resizing p' = resizing p ->
  (mono s s' -> dead s' x i -> (forall y i', es (bks s' y i') = es (bks s y i')) -> pc_ok s' p') -> inv s'.
Proof.
  intros I A X Hh Nc Es Ea En Ec Er M Eb H' R R' Mo D C Z Ok.
  pose proof (i_holds _ (i_locks _ _ I) _ _ _ _ A Hh) as El.
  assert (Eb' : forall y i', bks s' y i' = if decide (y = x /\ i' = i) then Bk (es (bks s x i)) LDead else bks s y i').
  { intros y i'. rewrite Eb, Es. done. }
  assert (De : dead s' x i) by (unfold dead; rewrite Eb', decide_True by done; done).
  eapply (step_lock hash t p p' s s' x i LDead); try done.
  - rewrite El. apply lt_free; [done| |by right]. rewrite H'. tauto.
  - auto.
  - intros y i' N. rewrite H'. tauto.
  - intros y i' N. pose proof (R y i'). pose proof (R' y i'). tauto.
  - intros y i' Y. right. apply Mo in Y as [-> ->]. done.
  - intros y i' Y. apply D in Y as [|[-> ->]]; auto.
  - apply Ok; [|done|].
    + eapply lock_mono; try done.
    + intros y i'. rewrite Eb'. destruct (decide _) as [[-> ->]|]; done.
Qed.
Lemma pres_tkill t c s s' k a o i : inv s -> at_pc s t (TKill k a o i) -> step hash t c s = Some s' -> inv s'.
Proof.
  intros I A E. pose proof (i_pc _ _ I _ _ A) as [C Es]. unfold step in E. pose proof A as A'. unfold at_pc in A'. rewrite A' in E.
  destruct (reloc_link hash hash64 _ _ _ _ _ _ _ I A ltac:(cbn; auto) C) as (Lk & Cu & B & Li).
  destruct c; try discriminate. injection E as <-.
  pose proof (relocated_shape hash s k a o i) as (Q1 & Q2 & Q3 & Q4 & Q5 & Q6).
  eapply (pres_kill t _ (relocated hash s k a o i) s _ o i); [exact I|exact A|lia|by cbn| |..]; try done; try (intros; cbn; tauto).
  - rewrite Cu. intros X. injection X. lia.
  - intros y i'. cbn. split; [intros X; by apply Q1 in X|]. tauto.
  - intros M D _. by apply relocated_ok.
Qed.
Lemma pres_access t c s s' j a idx : inv s -> at_pc s t (Access j a idx) -> step hash t c s = Some s' -> inv s'.
Proof.
  intros I A E. pose proof (i_pc _ _ I _ _ A) as P. cbn in P. unfold step in E. pose proof A as A'. unfold at_pc in A'. rewrite A' in E.
  pose proof P as (J & Ei & _). pose proof (jidx_lt hash hash64 s a j I J) as Lt. rewrite <- Ei in Lt. pose proof J as [Ja _].
  destruct c; try discriminate.
  - destruct (shared j) eqn:Sh.
    + eapply (pres_shared _ _ _ _ _ _ _ _ I A); [| |exact E|..]; try done; try (cbn; rewrite ?Sh; intuition congruence).
      intros De. exact (job_load hash s a j I J).
    + eapply (pres_lock _ _ _ _ _ _ _ _ I A); [| |exact E|..]; try done; try (cbn; rewrite ?Sh; intuition congruence).
      intros De. exact (job_load hash s a j I J).
  - injection E as <-. splain. split; [exact P|done].
  - injection E as <-. splain. done.
  - injection E as <-. splain. done.
Qed.
Lemma pres_out t c s s' j a idx r : inv s -> at_pc s t (Out j a idx r) -> step hash t c s = Some s' -> inv s'.
Proof.
  intros I A E. pose proof (i_pc _ _ I _ _ A) as P. cbn in P. unfold step in E. pose proof A as A'. unfold at_pc in A'. rewrite A' in E.
  pose proof P as ([Ja _] & _).
  assert (Main : forall p' s', plain p' -> pc_ok s p' -> s' = set_pc t p' (release t a idx s) -> inv s').
  { intros p' s1 Pl Ok ->. destruct (shared j) eqn:Sh.
    - destruct (i_reads _ (i_locks _ _ I) _ _ a idx A ltac:(cbn; auto)) as (ts & El & Ti).
      destruct (i_reader _ (i_locks _ _ I) _ _ _ El) as (_ & ND & _).
      eapply (step_lock_s hash t _ p' s _ a idx (unlock t (LRead ts))); [exact I|exact A|..]; try done.
      + intros y i'. simpl bks. rewrite El. done.
      + destruct (unlock_read t ts ND) as [[-> _]|(us & -> & _)]; done.
      + intros De. unfold dead in De. congruence.
      + rewrite El. apply lt_unread; [apply (pl_reads _ Pl)|apply (pl_holds _ Pl)].
      + intros y i' N. cbn. rewrite Sh. split; [intuition congruence|]. intros X. by apply (pl_holds _ Pl) in X.
      + intros y i' N. cbn. rewrite Sh. split; [intuition congruence|]. intros X. by apply (pl_reads _ Pl) in X.
      + apply (pl_claims _ Pl).
      + apply (pl_resizing _ Pl).
    - eapply (pres_release t _ p' s _ a idx); [exact I|exact A|done|by cbn|..]; try done; try (intros; cbn; tauto).
      + intros y i'. cbn. split; [intros X; by apply (pl_holds _ Pl) in X|]. rewrite Sh. tauto.
      + intros y i'. cbn. rewrite Sh. intuition congruence.
      + intros y i'. apply (pl_reads _ Pl).
      + apply (pl_claims _ Pl).
      + apply (pl_resizing _ Pl). }
  destruct c; try (destruct j; discriminate).
  - assert (Es : s' = set_pc t (unlocked s j a r) (release t a idx s)) by (destruct j; congruence). 
    eapply Main; [apply unlocked_plain|by eapply unlocked_ok|done].
  - destruct j as [|f st pr se|]; [discriminate| |discriminate]. injection E as <-.
    eapply (Main (Done (JScan f st pr se) (RStopped se))); [plain|done|done].
Qed.
Lemma pres_done t c s s' j r : inv s -> at_pc s t (Done j r) -> step hash t c s = Some s' -> inv s'.
Proof.
  intros I A E. unfold step in E. unfold at_pc in A. rewrite A in E.
  destruct c; try discriminate.
  - injection E as <-. splain. done.
  - destruct (cur s) as [a|] eqn:C; [|discriminate]. injection E as <-. splain. split; [done|]. by apply (i_cur _ _ (i_shape _ _ I)).
Qed.
Lemma pres_rzcheck t c s s' k x : inv s -> at_pc s t (RzCheck k x) -> step hash t c s = Some s' -> inv s'.
Proof.
  intros I A E. pose proof (i_pc _ _ I _ _ A) as [P X]. unfold step in E. unfold at_pc in A. rewrite A in E.
  destruct c; try discriminate.
  assert (s' = set_pc t (RzLink k x) s \/ s' = set_pc t (resume k) s) as [->| ->].
  { destruct (cur s) as [c|]; [destruct (decide (c = x))|]; injection E as <-; auto. }
  - splain. done.
  - splain; [apply resume_plain|]. by apply resume_ok.
Qed.
Lemma pres_rzlink t c s s' k x : inv s -> at_pc s t (RzLink k x) -> step hash t c s = Some s' -> inv s'.
Proof.
  intros I A E. pose proof (i_pc _ _ I _ _ A) as [P X]. unfold step in E. unfold at_pc in A. rewrite A in E.
  destruct c; try discriminate. destruct (link (arr s x)) eqn:L; injection E as <-.
  - splain; [apply resume_plain|]. by apply resume_ok.
  - splain. done.
Qed.
End pres.
