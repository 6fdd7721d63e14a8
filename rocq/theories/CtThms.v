(** Proofs of the theorems of CtProps.v. *)
From Coq Require Import NArith Lia.
From stdpp Require Import prelude list numbers.
From Verif Require CapModel CapSpec CapFacts.
From Verif Require Import CtModel CtSpec CtInv CtStep CtPres CtPres2 CtPres3 CtPres4 CtList CtLin CtMore CtLive.
Local Open Scope N_scope.

Section thms.
Context {K V : Type} `{EqDecision K} (hash : K -> N).
Hypothesis hash64 : forall k, hash k < 2 ^ 64.
Notation state := (state K V). Notation pc := (pc K V).
Implicit Types (s : state) (x y a o : nat) (i : N) (t u : nat).

Ltac inner E := unfold lock_excl, lock_shared in E;
  repeat match type of E with
  | match ?y with _ => _ end = Some _ => let Q := fresh "Q" in destruct y eqn:Q
  | (if ?y then _ else _) = Some _ => let Q := fresh "Q" in destruct y eqn:Q
  end; try discriminate; try (injection E as <-).
Lemma app_nil_inv {A} (l : list A) (x : A) : l = l ++ [x] -> False.
Proof. intros X. apply (f_equal length) in X. rewrite app_length in X. cbn in X. lia. Qed.
Definition good s : Prop := inv hash s /\ lin s /\ flag s /\ top s /\ prog s.
Lemma good_start (n : nat) : good (start n : state).
Proof.
  split; [apply (start_inv hash)|]. split; [apply lin_start|]. split; [done|]. split; [|done].
  split; try done. intros t p a o A. cbn in A. apply lookup_replicate_1 in A as [-> _]. done.
Qed.
Lemma good_step t c s s' : good s -> step hash t c s = Some s' -> good s'.
Proof.
  intros (I & L & F & T & P) E.
  split; [by eapply (step_inv hash)|]. split; [by eapply (step_lin hash)|]. split; [by eapply (step_flag hash)|].
  split; [by eapply (step_top hash)|by eapply (step_prog hash)].
Qed.
Lemma good_run l s s' : good s -> run hash l s = Some s' -> good s'.
Proof.
  revert s. induction l as [|[t c] l IH]; intros s G E; cbn in E; [by injection E as <-|].
  destruct (step hash t c s) as [s1|] eqn:E1; [|discriminate]. eapply IH; [by eapply good_step|done].
Qed.
Lemma good_reach (n : nat) l s : run hash l (start n) = Some s -> good s.
Proof. apply good_run, good_start. Qed.

Lemma lC13_linearizable : forall (n : nat) l s, run hash l (start n) = Some s ->
  exists m, linearizes (trace s) m /\ forall k v, m k = Some v <-> stored s k v.
Proof.
  intros n l s E. destruct (good_reach _ _ _ E) as (_ & (h & m & Er & Le & St & Fo) & _).
  exists m. split; [|done]. exists h. split; [done|]. split; [done|]. intros t. eexists. apply Fo.
Qed.

Lemma lC14_one_place : forall (n : nat) l s, run hash l (start n) = Some s ->
  exists m, linearizes (trace s) m /\ forall k,
    match m k with
    | Some v => exists x i, stored_at s x i k v /\ live s x /\ lk (bks s x i) <> LDead /\
        forall y i' v', stored_at s y i' k v' -> y = x /\ i' = i /\ v' = v
    | None => forall x i v, ~ stored_at s x i k v
    end.
Proof.
  intros n l s E. destruct (lC13_linearizable n l s E) as (m & L & St). destruct (good_reach _ _ _ E) as (I & _).
  exists m. split; [done|]. intros k. destruct (m k) as [v|] eqn:Em.
  - apply St in Em as (x & i & X). exists x, i. split; [done|]. split; [by eapply (i_live _ _ (i_shape _ _ I))|].
    split; [by eapply (stored_dead hash); [apply (i_shape _ _ I)|]|].
    intros y i' v' Y. destruct (one_place hash s x i y i' k v v' I X Y) as (-> & -> & ->). done.
  - intros x i v X. assert (m k = Some v) by (apply St; by exists x, i). congruence.
Qed.
Lemma lC14_only_calls_change : forall (n : nat) l s t c s', run hash l (start n) = Some s -> step hash t c s = Some s' ->
  (forall j a i, pcs s !! t <> Some (Crit j a i)) -> forall k v, stored s' k v <-> stored s k v.
Proof.
  intros n l s t c s' E E1 N. destruct (good_reach _ _ _ E) as (I & _). destruct (step_at hash _ _ _ _ E1) as (p & A).
  eapply (step_stored hash hash64); [done|done| |done]. intros j a i ->. by eapply N.
Qed.
Lemma lC14_dropped_empty : forall (n : nat) l s t c s' a, run hash l (start n) = Some s -> step hash t c s = Some s' ->
  cur s = Some a -> cur s' = None -> forall k v, ~ stored s k v.
Proof.
  intros n l s t c s' a E E1 C C' k v X. destruct (good_reach _ _ _ E) as (I & _). destruct (step_at hash _ _ _ _ E1) as (p & A).
  assert (X' : stored s' k v).
  { eapply (step_stored hash hash64); [done|done| |done|done]. intros j b i ->. unfold step in E1. unfold at_pc in A. rewrite A in E1.
    destruct c; try discriminate. destruct j; injection E1 as <-; cbn in C'; congruence. }
  destruct X' as (x & i & X'). apply (i_live _ _ (i_shape _ _ (step_inv hash hash64 _ _ _ _ I E1))) in X' as [Y|(d & Y & _)]; congruence.
Qed.

Lemma lC15_detached_when_done : forall (n : nat) l s t c s' a o, run hash l (start n) = Some s -> step hash t c s = Some s' ->
  link (arr s a) = Some o -> link (arr s' a) = None -> forall i, i < alen s o -> lk (bks s o i) = LDead.
Proof.
  intros n l s t c s' a o E E1 L L'. destruct (good_reach _ _ _ E) as (I & _).
  destruct (step_at hash _ _ _ _ E1) as (p & A). pose proof (i_pc _ _ I _ _ A) as P.
  pose proof (step_detach hash t c s s' p a o E1 A L L' ltac:(destruct (i_link _ _ (i_shape _ _ I) _ _ L); lia)) as (j & o' & ->). destruct P as ([_ W] & _ & D).
  destruct W as [W|[W _]]; [|congruence]. assert (o' = o) as -> by congruence. exact D.
Qed.
Lemma lC15_once : forall (n : nat) l s l' s', run hash l (start n) = Some s -> run hash l' s = Some s' ->
  (forall x i, lk (bks s x i) = LDead -> lk (bks s' x i) = LDead) /\
  (forall x, (x < nxt s)%nat -> link (arr s x) = None -> link (arr s' x) = None).
Proof.
  intros n l s l' s' _. revert s. induction l' as [|[t c] l' IH]; intros s E; cbn in E; [by injection E as <-|].
  destruct (step hash t c s) as [s1|] eqn:E1; [|discriminate]. destruct (IH s1 E) as [I1 I2]. split.
  - intros x i D. apply I1. by eapply (step_dead hash).
  - intros x X D. apply I2; [|by eapply (step_unlinked hash)]. destruct (step_sz hash _ _ _ _ E1). lia.
Qed.
Lemma lC15_handed_out_again : forall (n : nat) l s a o i, run hash l (start n) = Some s ->
  link (arr s a) = Some o -> i < alen s o -> lk (bks s o i) <> LDead ->
  (exists t p prev, pcs s !! t = Some p /\ claims p = Some (o, prev) /\ prev <= i < prev + 32) \/
  (N.ldiff (word (arr s o)) 31 <= i /\
   ((forall t p prev, pcs s !! t = Some p -> claims p <> Some (o, prev)) ->
    exists prev w, claim (alen s o) (word (arr s o)) = Some (prev, w) /\ prev <= i)).
Proof.
  intros n l s a o i E L Li D. destruct (good_reach _ _ _ E) as (I & _).
  destruct (i_link _ _ (i_shape _ _ I) _ _ L) as [_ B].
  destruct (i_words _ _ I o ltac:(lia)) as (W1 & W2 & W3).
  destruct (N.lt_ge_cases i (word (arr s o) - word (arr s o) mod 32)) as [Lt|Ge].
  - left. destruct (W3 i Li Lt) as [X|X]; [done|exact X].
  - right. rewrite ldiff31. split; [done|]. intros N. pose proof (nclaims_0 s o N) as Z. rewrite Z in W1.
    exists (N.ldiff (word (arr s o)) 31), (word (arr s o) + 33). split; [|by rewrite ldiff31].
    unfold claim. rewrite land31, W1. change (0 =? 31) with false. rewrite orb_false_r.
    cbn in W1. rewrite W1, N.sub_0_r in Ge. destruct (N.leb_spec (alen s o) (word (arr s o))); [lia|done].
Qed.
Lemma nclaims_pos s o : (0 < nclaims s o)%nat -> exists t p prev, pcs s !! t = Some p /\ claims p = Some (o, prev).
Proof.
  intros N. unfold nclaims in N. destruct (List.filter (claims_b o) (pcs s)) as [|p l] eqn:F; [cbn in N; lia|].
  assert (X : In p (List.filter (claims_b o) (pcs s))) by (rewrite F; left; done).
  apply filter_In in X as [X Y]. apply elem_of_list_In, elem_of_list_lookup in X as (t & X).
  unfold claims_b in Y. destruct (claims p) as [[o' prev]|] eqn:C; [|done]. apply Nat.eqb_eq in Y as ->. eauto.
Qed.
Lemma lC15_goes_on : forall (n : nat) l s a o, run hash l (start n) = Some s -> link (arr s a) = Some o ->
  claim (alen s o) (word (arr s o)) <> None \/
  (exists t p prev, pcs s !! t = Some p /\ claims p = Some (o, prev)) \/
  (exists t j, pcs s !! t = Some (Detach j a o)).
Proof.
  intros n l s a o E L. destruct (good_reach _ _ _ E) as (I & _ & _ & _ & P).
  destruct (i_link _ _ (i_shape _ _ I) _ _ L) as [_ B]. destruct (i_words _ _ I o ltac:(lia)) as (W1 & W2 & _).
  destruct (decide (0 < nclaims s o)%nat) as [Z|Z]; [right; left; by apply nclaims_pos|].
  destruct (P a o L) as [X|[X|X]]; [|done|by right; right]. left.
  unfold claim. assert (nclaims s o = 0)%nat as Z0 by lia. rewrite land31, W1, Z0. change (N.of_nat 0 =? 31) with false.
  rewrite orb_false_r. destruct (N.leb_spec (alen s o) (word (arr s o))); [lia|done].
Qed.

Lemma run_scan (P : V -> Prop) k t l s s' : inv hash s -> (forall p, at_pc s t p -> scan_ok hash P k s p) ->
  run hash l s = Some s' -> (forall l1 l2 s1, l = l1 ++ l2 -> run hash l1 s = Some s1 -> exists v, P v /\ stored s1 k v) ->
  (forall p, at_pc s' t p -> scan_ok hash P k s' p).
Proof.
  revert s. induction l as [|[u c] l IH]; intros s I S E Pr p A; cbn in E.
  - injection E as <-. by apply S.
  - destruct (step hash u c s) as [s1|] eqn:E1; [|discriminate].
    eapply (IH s1); [by eapply (step_inv hash)| |done| |done].
    + intros q B. eapply (step_scan hash hash64); [done| |done|done|done]. apply (Pr [] ((u, c) :: l) s); done.
    + intros l1 l2 s2 -> R. apply (Pr ((u, c) :: l1) l2); [done|]. cbn. by rewrite E1.
Qed.
Lemma lC16_scan_sees : forall (P : V -> Prop) k f (n : nat) l0 s t s0 l s1 s2 seen,
  run hash l0 (start n) = Some s -> step hash t (CCall (KScan f)) s = Some s0 -> run hash l s0 = Some s1 ->
  (forall l1 l2 s', l = l1 ++ l2 -> run hash l1 s0 = Some s' -> exists v, P v /\ stored s' k v) ->
  step hash t CGo s1 = Some s2 -> trace s2 = trace s1 ++ [Ret t (RSeen seen)] ->
  exists v, P v /\ (k, v) ∈ seen.
Proof.
  intros P k f n l0 s t s0 l s1 s2 seen E0 Ec E Pr E2 Tr. destruct (good_reach _ _ _ E0) as (I & _).
  pose proof (step_inv hash hash64 _ _ _ _ I Ec) as I0.
  assert (S1 : forall p, at_pc s1 t p -> scan_ok hash P k s1 p).
  { eapply run_scan; [exact I0| |exact E|exact Pr]. intros p A. unfold step in Ec. destruct (pcs s !! t) as [q|] eqn:Q; [|discriminate].
    destruct q; inner Ec. assert (p = Load (init (KScan f))) as ->.
    { unfold at_pc in A. cbn in A. rewrite list_lookup_insert in A by (by eapply lookup_lt_Some). by injection A as <-. }
    cbn. by left. }
  destruct (step_at hash _ _ _ _ E2) as (p & A). specialize (S1 p A).
  assert (X : exists j r, p = Done j r /\ s2 = set_pc t Idle (emit (Ret t r) s1)).
  { unfold at_pc in A. unfold step in E2. rewrite A in E2.
    destruct p; inner E2; try destruct ok; try (by do 2 eexists); exfalso; cbn in Tr; by apply app_nil_inv in Tr. }
  destruct X as (j & r & -> & ->). cbn in Tr. apply app_inv_head in Tr. injection Tr as ->. exact S1.
Qed.

Lemma lC39_writer_excludes : forall (n : nat) l s t u p q x i, run hash l (start n) = Some s ->
  pcs s !! t = Some p -> pcs s !! u = Some q -> t <> u -> holds p x i -> ~ holds q x i /\ ~ reads q x i.
Proof.
  intros n l s t u p q x i E A B N H1. destruct (good_reach _ _ _ E) as (I & _).
  pose proof (i_holds _ (i_locks _ _ I) _ _ _ _ A H1) as L. split; intros H2.
  - pose proof (i_holds _ (i_locks _ _ I) _ _ _ _ B H2). congruence.
  - destruct (i_reads _ (i_locks _ _ I) _ _ _ _ B H2) as (ts & X & _). congruence.
Qed.
Lemma lC39_not_retired : forall (n : nat) l s t p x i, run hash l (start n) = Some s ->
  pcs s !! t = Some p -> holds p x i \/ reads p x i -> lk (bks s x i) <> LDead.
Proof.
  intros n l s t p x i E A H1. destruct (good_reach _ _ _ E) as (I & _).
  destruct H1 as [H1|H1]; [by eapply (held_alive hash)|by eapply (read_alive hash)].
Qed.
Lemma lC39_writes_under_lock : forall (n : nat) l s t c s' x i, run hash l (start n) = Some s -> step hash t c s = Some s' ->
  es (bks s' x i) <> es (bks s x i) -> exists p, pcs s !! t = Some p /\ holds p x i.
Proof.
  intros n l s t c s' x i E E1 N. destruct (good_reach _ _ _ E) as (I & _). destruct (step_at hash _ _ _ _ E1) as (p & A).
  exists p. split; [done|]. by eapply (step_writes hash hash64).
Qed.

Lemma lC45_idle_holds_nothing : forall (n : nat) l s t, run hash l (start n) = Some s -> pcs s !! t = Some Idle ->
  forall x i, lk (bks s x i) <> LExcl t /\ forall ts, lk (bks s x i) = LRead ts -> t ∉ ts.
Proof.
  intros n l s t E A x i. destruct (good_reach _ _ _ E) as (I & _). split.
  - intros L. destruct (i_holder _ (i_locks _ _ I) _ _ _ L) as (p & B & Hp). unfold at_pc in B. rewrite A in B. by injection B as <-.
  - intros ts L Ht. destruct (i_reader _ (i_locks _ _ I) _ _ _ L) as (_ & _ & R). destruct (R t Ht) as (p & B & Hp).
    unfold at_pc in B. rewrite A in B. by injection B as <-.
Qed.
Lemma lC45_quiet : forall (n : nat) l s, run hash l (start n) = Some s -> (forall t p, pcs s !! t = Some p -> p = Idle) ->
  rsz s = false /\ (forall x i, lk (bks s x i) = LFree \/ lk (bks s x i) = LDead) /\
  (forall a o, link (arr s a) = Some o -> claim (alen s o) (word (arr s o)) <> None).
Proof.
  intros n l s E Q. destruct (good_reach _ _ _ E) as (I & _ & F & _). split; [|split].
  - destruct (rsz s) eqn:R; [|done]. destruct (F R) as (t & p & A & Rp). by rewrite (Q _ _ A) in Rp.
  - intros x i. destruct (lk (bks s x i)) as [|ts|u|] eqn:L; [by left| | |by right]; exfalso.
    + destruct (i_reader _ (i_locks _ _ I) _ _ _ L) as (Ne & _ & R). destruct ts as [|t ts]; [done|].
      destruct (R t ltac:(left)) as (p & B & Hp). by rewrite (Q _ _ B) in Hp.
    + destruct (i_holder _ (i_locks _ _ I) _ _ _ L) as (p & B & Hp). by rewrite (Q _ _ B) in Hp.
  - intros a o L. destruct (lC15_goes_on _ _ _ _ _ E L) as [X|[(t & p & prev & A & C)|(t & j & A)]]; [done| |].
    + by rewrite (Q _ _ A) in C.
    + by specialize (Q _ _ A).
Qed.
Lemma lC46_deadlock_free : forall (n : nat) l s t p, run hash l (start n) = Some s -> pcs s !! t = Some p -> p <> Idle ->
  exists u c s', (c = CGo \/ exists cap, c = CCap cap) /\ step hash u c s = Some s'.
Proof.
  intros n l s t p E A N. destruct (good_reach _ _ _ E) as (I & _).
  destruct (deadlock_free hash hash64 s t p I A N) as (u & s' & c & C & X). eauto 6.
Qed.
Lemma lC47_no_crash : forall (n : nat) l s t, run hash l (start n) = Some s -> pcs s !! t <> Some Crash.
Proof. intros n l s t E A. destruct (good_reach _ _ _ E) as (I & _). exact (i_pc _ _ I _ _ A). Qed.
End thms.
