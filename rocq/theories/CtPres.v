(** Every step preserves the invariant: helper facts. *)
From Coq Require Import NArith Lia.
From stdpp Require Import prelude list numbers.
From Verif Require CapModel CapSpec CapFacts.
From Verif Require Import CtModel CtSpec CtInv CtStep.
Local Open Scope N_scope.

Section pres.
Context {K V : Type} `{EqDecision K} (hash : K -> N).
Hypothesis hash64 : forall k, hash k < 2 ^ 64.
Notation state := (state K V). Notation pc := (pc K V). Notation job := (job K V).
Implicit Types (s : state) (p q : pc) (j : job) (x y a o : nat) (i n : N) (t u : nat).
Notation inv := (inv hash). Notation shape := (shape hash). Notation pc_ok := (pc_ok hash).
Notation jidx := (jidx hash). Notation acc_ok := (acc_ok hash). Notation cont_ok := (cont_ok hash).
Notation ded_ok := (ded_ok hash). Notation kont_ok := (kont_ok hash).

(** A thread without locks, claims and flags. *)
Record plain p : Prop := {
  pl_holds : forall x i, ~ holds p x i; pl_reads : forall x i, ~ reads p x i;
  pl_claims : claims p = None; pl_resizing : resizing p = false;
  pl_moved : forall x i, ~ moved p x i; pl_dropping : forall x i, ~ dropping p x i }.
Ltac plain := split; (done || (intros; cbn; tauto)).

Lemma bidx_lt s a (h : N) : inv s -> (a < nxt s)%nat -> h < 2 ^ 64 ->
  CapModel.bucket_index (sz (arr s a)) h < alen s a.
Proof. intros I H Hh. apply CapFacts.bucket_index_lt; [|done]. apply table_wf, (i_sz _ _ (i_shape _ _ I) _ H). Qed.
Lemma jidx_lt s a j : inv s -> job_ok s a j -> jidx s a j < alen s a.
Proof.
  intros I [H J]. destruct j as [o|f st pr se|]; [|by destruct J|done].
  by apply bidx_lt.
Qed.
Lemma range_ok s x y i : inv s -> (x < nxt s)%nat -> (y < nxt s)%nat -> i < alen s x ->
  (range s x y i).1 < (range s x y i).2 /\ (range s x y i).2 <= alen s y.
Proof.
  intros I X Y L. apply rng_ok; [apply (i_sz _ _ (i_shape _ _ I) _ X)|apply (i_sz _ _ (i_shape _ _ I) _ Y)|done].
Qed.
Lemma range_bi s x y (k : K) : inv s -> (x < nxt s)%nat -> (y < nxt s)%nat ->
  (range s x y (bi hash s x k)).1 <= bi hash s y k < (range s x y (bi hash s x k)).2.
Proof.
  intros I X Y. apply rng_in; [apply (i_sz _ _ (i_shape _ _ I) _ X)|apply (i_sz _ _ (i_shape _ _ I) _ Y)|done].
Qed.
Lemma range_sym s x y i i' : inv s -> (x < nxt s)%nat -> (y < nxt s)%nat -> i < alen s x ->
  (range s x y i).1 <= i' < (range s x y i).2 -> (range s y x i').1 <= i < (range s y x i').2.
Proof.
  intros I X Y L R. eapply rng_sym; [apply (i_sz _ _ (i_shape _ _ I) _ X)|apply (i_sz _ _ (i_shape _ _ I) _ Y)|done|done].
Qed.

(** ** Helper program points *)
Lemma loaded_plain s j a : plain (loaded s j a).
Proof. destruct j; [plain| |plain]. unfold loaded. repeat case_match; plain. Qed.
Lemma loaded_ok s j a : inv s -> load_ok j -> cur s = Some a -> pc_ok s (loaded s j a).
Proof.
  intros I L C. pose proof (i_cur _ _ (i_shape _ _ I) a C) as A.
  pose proof (i_sz _ _ (i_shape _ _ I) a A) as T.
  destruct j as [o|f st pr se|]; simpl.
  - by split.
  - assert (X : (if (pr =? 0) || (pr =? alen s a) then st
        else (CapModel.from_index_to_range pr (alen s a) st).1) < alen s a).
    { destruct L as [[-> ->]|(z & Z & -> & Hz)].
      - simpl. apply table_pos, T.
      - destruct (N.eqb_spec (CapModel.array_len z) 0) as [E|E]; [lia|]. simpl.
        destruct (N.eqb_spec (CapModel.array_len z) (alen s a)) as [E2|E2]; [lia|].
        pose proof (rng_ok z (sz (arr s a)) st Z T Hz) as [R1 R2]. unfold alen. lia. }
    destruct (N.ltb_spec (if (pr =? 0) || (pr =? alen s a) then st
        else (CapModel.from_index_to_range pr (alen s a) st).1) (alen s a)); [|lia].
    split; [done|]. split; [done|lia].
  - split; [done|done].
Qed.
Lemma job_load s a j : inv s -> job_ok s a j -> load_ok j.
Proof.
  intros I [A J]. destruct j as [|f st pr se|]; [done| |done]. destruct J as [-> J]. right.
  exists (sz (arr s a)). split; [apply (i_sz _ _ (i_shape _ _ I) a A)|done].
Qed.
Lemma deduped_plain s j a : plain (deduped hash s j a).
Proof. plain. Qed.
Lemma dedup_from_plain s j a o : plain (dedup_from hash s j a o).
Proof. plain. Qed.
Lemma dedup_from_ok s j a o : inv s -> wl s a o -> job_ok s a j -> pc_ok s (dedup_from hash s j a o).
Proof.
  intros I W J. cbn. pose proof (range_ok s a o (jidx s a j) I) as R. destruct W as [W1 W2].
  destruct R as [R1 R2]; [lia|lia|by apply jidx_lt|]. split; [|done].
  split; [by split|]. split; [done|]. split; [done|]. split; [lia|]. intros i' Hi. lia.
Qed.
Lemma next_dedup_plain s j a o i hi : plain (next_dedup hash s j a o i hi).
Proof. unfold next_dedup. case_match; plain. Qed.
Lemma next_dedup_ok s s' j a o i hi : inv s -> mono s s' -> ded_ok s j a o i hi -> i < hi -> dead s' o i ->
  pc_ok s' (next_dedup hash s j a o (i + 1) hi).
Proof.
  intros I M D L De.
  pose proof (ded_mono _ _ _ _ _ _ _ _ M D) as (W & J & E & B & Ds).
  destruct D as ([W1 _] & [J1 _] & _).
  assert (D' : ded_ok s' j a o (i + 1) hi).
  { split; [done|]. split; [done|]. split; [done|]. split; [lia|]. intros i' Hi.
    destruct (decide (i' = i)) as [->|]; [done|]. apply Ds. lia. }
  unfold next_dedup. destruct (N.ltb_spec (i + 1) hi) as [Q|Q]; [by split|].
  split; [done|]. split; [simpl; symmetry; by apply jidx_mono|].
  intros o' Eo i' Hi. destruct W as [_ [W|[W _]]]; [|congruence].
  assert (o' = o) as -> by congruence. rewrite <- (jidx_mono hash s s') in Hi by done. destruct D' as (_ & _ & E' & _ & Ds').
  apply Ds'. split; [lia|]. rewrite <- E' in Hi. lia.
Qed.
Lemma next_rehash_shape s j a o prev i :
  (forall x i', ~ holds (next_rehash s j a o prev i) x i') /\ (forall x i', ~ reads (next_rehash s j a o prev i) x i') /\ claims (next_rehash s j a o prev i) = Some (o, prev) /\ resizing (next_rehash s j a o prev i) = false /\ (forall x i', ~ moved (next_rehash s j a o prev i) x i') /\ (forall x i', ~ dropping (next_rehash s j a o prev i) x i').
Proof. unfold next_rehash. case_match; repeat split; try done; intros; cbn; tauto. Qed.
Lemma next_rehash_ok s s' j a o prev i : mono s s' -> reh_ok s j a o prev i -> i < N.min (prev + 32) (alen s o) ->
  dead s' o i -> pc_ok s' (next_rehash s j a o prev (i + 1)).
Proof.
  intros M R L De. pose proof R as [[W _] _]. pose proof (reh_mono _ _ _ _ _ _ _ M R) as (W' & J & E & B & C & Ds).
  pose proof (alen_mono s s' o M ltac:(lia)) as EL.
  assert (D' : reh_ok s' j a o prev (i + 1)).
  { split; [done|]. split; [done|]. split; [done|]. split; [done|]. rewrite EL in *. split; [lia|]. intros i' Hi.
    destruct (decide (i' = i)) as [->|]; [done|]. apply Ds. lia. }
  unfold next_rehash. destruct (N.ltb_spec (i + 1) (N.min (prev + 32) (alen s o))) as [Q|Q].
  - split; [done|]. by rewrite EL.
  - cbn. rewrite EL. replace (N.min (prev + 32) (alen s o)) with (i + 1) by lia. done.
Qed.
Lemma resume_plain (k : kont K V) : plain (resume k).
Proof. destruct k; plain. Qed.
Lemma resume_ok s k : kont_ok s k -> pc_ok s (resume k).
Proof. by destruct k. Qed.
Lemma unlocked_plain s j a r : plain (unlocked s j a r).
Proof. destruct j; [plain| |plain]. unfold unlocked. case_match; plain. Qed.
Lemma unlocked_ok s j a idx r : acc_ok s j a idx -> pc_ok s (unlocked s j a r).
Proof.
  intros (J & _). destruct j; [done| |done]. unfold unlocked. destruct (N.ltb_spec (start + 1) (alen s a)); [|done].
  destruct J as [A [-> J]]. by split.
Qed.
Lemma gave_up_shape (c : cont K V) a o cx :
  (forall x i', ~ holds (gave_up c a o cx) x i') /\ (forall x i', ~ reads (gave_up c a o cx) x i') /\ claims (gave_up c a o cx) = cclaims c o /\ resizing (gave_up c a o cx) = false /\ (forall x i', ~ moved (gave_up c a o cx) x i') /\ (forall x i', ~ dropping (gave_up c a o cx) x i').
Proof. unfold gave_up. repeat case_match; repeat split; try done; intros; cbn; tauto. Qed.
Lemma gave_up_ok s c a o i cx : cont_ok s c a o i -> pc_ok s (gave_up c a o cx).
Proof.
  intros C. destruct c; simpl; [|by destruct cx]. destruct C as [(W & J & P & L & _) _]. done.
Qed.
Lemma relocated_shape s c a o i :
  (forall x i', ~ holds (relocated hash s c a o i) x i') /\ (forall x i', ~ reads (relocated hash s c a o i) x i') /\ claims (relocated hash s c a o i) = cclaims c o /\ resizing (relocated hash s c a o i) = false /\ (forall x i', ~ moved (relocated hash s c a o i) x i') /\ (forall x i', ~ dropping (relocated hash s c a o i) x i').
Proof.
  destruct c; [apply next_rehash_shape|]. pose proof (next_dedup_plain s j a o (i + 1) hi) as [].
  repeat split; done.
Qed.
Lemma relocated_ok s s' c a o i : inv s -> mono s s' -> cont_ok s c a o i -> dead s' o i ->
  pc_ok s' (relocated hash s c a o i).
Proof. intros I M C D. destruct c; destruct C; [by apply next_rehash_ok|by apply next_dedup_ok]. Qed.

(** ** What the invariant says about relocations *)
Lemma cont_lt s c a o i : inv s -> cont_ok s c a o i -> i < alen s o.
Proof.
  intros I C. pose proof (cont_wl _ _ _ _ _ _ C) as [W _]. destruct c; destruct C as [D L]; [lia|].
  destruct D as (_ & J & E & _). pose proof (range_ok s a o (jidx s a j) I) as R.
  destruct R as [R1 R2]; [lia|lia|by apply jidx_lt|]. lia.
Qed.
Lemma held_alive s t p x i : inv s -> at_pc s t p -> holds p x i -> ~ dead s x i.
Proof. intros I A Hh D. pose proof (i_holds _ (i_locks _ _ I) _ _ _ _ A Hh). unfold dead in D. congruence. Qed.
Lemma read_alive s t p x i : inv s -> at_pc s t p -> reads p x i -> ~ dead s x i.
Proof. intros I A Hh D. destruct (i_reads _ (i_locks _ _ I) _ _ _ _ A Hh) as (ts & E & _). unfold dead in D. congruence. Qed.
Lemma alive_link s a o i : wl s a o -> i < alen s o -> ~ dead s o i -> link (arr s a) = Some o.
Proof. intros [_ [W|[_ W]]] L D; [done|]. exfalso. by apply D, W. Qed.
Lemma reloc_link s t p c a o i : inv s -> at_pc s t p -> holds p o i -> cont_ok s c a o i ->
  link (arr s a) = Some o /\ cur s = Some a /\ (o < a < nxt s)%nat /\ i < alen s o.
Proof.
  intros I A Hh C. pose proof (cont_lt _ _ _ _ _ I C) as L.
  pose proof (alive_link _ _ _ _ (cont_wl _ _ _ _ _ _ C) L (held_alive _ _ _ _ _ I A Hh)) as E.
  split; [done|]. destruct (i_link _ _ (i_shape _ _ I) _ _ E). auto.
Qed.
(** Who can be inside bucket [i'] of the current array while an overlapping old bucket is alive. *)
Lemma inside_target s u q a o i i' : inv s -> link (arr s a) = Some o -> i < alen s o -> ~ dead s o i ->
  (range s o a i).1 <= i' < (range s o a i).2 -> at_pc s u q -> holds q a i' \/ reads q a i' ->
  exists c i2, cont_ok s c a o i2 /\ holds q o i2 /\ (range s o a i2).1 <= i' < (range s o a i2).2 /\
    match q with TLock _ _ _ _ _ _ n _ => i' < n | _ => True end /\
    match q with OldLocked _ _ _ _ | TDrop _ _ _ _ | TKill _ _ _ _ => False | _ => True end.
Proof.
  intros I L Hi Al R A HH.
  destruct (i_link _ _ (i_shape _ _ I) _ _ L) as [C B].
  pose proof (i_pc _ _ I _ _ A) as P.
  assert (NR : ~ ready s a i').
  { intros X. apply Al. eapply X; [done|]. apply (range_sym s o a i i'); [done|lia|lia|done|done]. }
  (* [a] is the current array, so it cannot be the old array of another relocation *)
  assert (NO : forall c0 a0 i0, holds q a i0 -> cont_ok s c0 a0 a i0 -> False).
  { intros c0 a0 i0 Hh C0. destruct (reloc_link _ _ _ _ _ _ _ I A Hh C0) as (_ & C' & B' & _).
    rewrite C in C'. injection C' as ->. lia. }
  assert (OK : forall c0 a0 o0 i0, holds q o0 i0 -> a = a0 -> cont_ok s c0 a0 o0 i0 ->
     o0 = o /\ link (arr s a) = Some o0).
  { intros c0 a0 o0 i0 Hh <- C0. destruct (reloc_link _ _ _ _ _ _ _ I A Hh C0) as (L' & _). split; [congruence|done]. }
  destruct q; cbn [holds reads] in HH; try (destruct HH as [HH|HH]; done); try tauto.
  - destruct HH as [[-> ->]|[]]. exfalso. eapply NO; [|done]. by cbn.
  - destruct HH as [[[-> ->]|[Ea HH]]|[]]; cbn [CtInv.pc_ok] in P.
    + exfalso. destruct P as [P _]. eapply NO; [|done]. cbn. auto.
    + destruct P as (P & -> & -> & P4 & _). destruct (OK c a0 o0 i0 ltac:(cbn; auto) Ea P) as [-> _]. subst a0.
      exists c, i0. split; [done|]. split; [cbn; auto|]. split; [lia|]. split; [lia|done].
  - destruct HH as [[[-> ->]|[Ea HH]]|[]]; cbn [CtInv.pc_ok] in P.
    + exfalso. destruct P as [P _]. eapply NO; [|done]. cbn. auto.
    + destruct P as (P & P2 & P3). destruct (OK c a0 o0 i0 ltac:(cbn; auto) Ea P) as [-> _]. subst a0.
      exists c, i0. split; [done|]. split; [cbn; auto|]. split; [lia|]. done.
  - destruct HH as [[-> ->]|[]]. exfalso. eapply NO; [|done]. by cbn.
  - destruct HH as [[[-> ->]|[Ea HH]]|[]]; cbn [CtInv.pc_ok] in P.
    + exfalso. destruct P as [P _]. eapply NO; [|done]. cbn. auto.
    + destruct P as (P & -> & ->). destruct (OK c a0 o0 i0 ltac:(cbn; auto) Ea P) as [-> _]. subst a0.
      exists c, i0. split; [done|]. split; [cbn; auto|]. split; [lia|]. done.
  - destruct HH as [[[-> ->]|[Ea HH]]|[]]; cbn [CtInv.pc_ok] in P.
    + exfalso. destruct P as [P _]. eapply NO; [|done]. cbn. auto.
    + destruct P as (P & P2 & -> & _). destruct (OK c a0 o0 i0 ltac:(cbn; auto) Ea P) as [-> _]. subst a0.
      exists c, i0. split; [done|]. split; [cbn; auto|]. split; [lia|]. done.
  - destruct HH as [[-> ->]|[]]. exfalso. destruct P as [P _]. eapply NO; [|done]. by cbn.
  - exfalso. apply NR. destruct P as (_ & -> & P). destruct HH as [(_ & -> & ->)|(_ & -> & ->)]; done.
  - exfalso. apply NR. destruct P as (_ & -> & P). destruct HH as [(_ & -> & ->)|(_ & -> & ->)]; done.
  - destruct HH as [[-> _]|[]]. destruct P as (_ & _ & P & _). congruence.
  - destruct HH as [[-> _]|[]]. destruct P as (_ & _ & P & _). congruence.
  - destruct HH as [[-> Hx]|[]]. destruct P as (_ & _ & P1 & P2). congruence.
Qed.
End pres.
