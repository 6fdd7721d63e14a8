(** Nothing gets stuck: contents under relocation, the RESIZING flag, progress of rehashing, deadlocks. *)
From Coq Require Import NArith Lia.
From stdpp Require Import prelude list numbers.
From Verif Require CapModel CapSpec CapFacts.
From Verif Require Import CtModel CtSpec CtInv CtStep CtPres CtPres2 CtPres3 CtPres4 CtList CtLin CtMore.
Local Open Scope N_scope.

Section live.
Context {K V : Type} `{EqDecision K} (hash : K -> N).
Hypothesis hash64 : forall k, hash k < 2 ^ 64.
Notation state := (state K V). Notation pc := (pc K V). Notation job := (job K V).
Implicit Types (s : state) (p q : pc) (j : job) (x y a o : nat) (i n : N) (t u : nat).
Notation inv := (inv hash). Notation shape := (shape hash). Notation pc_ok := (pc_ok hash).
Notation bi := (bi hash). Notation cont_ok := (cont_ok hash). Notation kont_ok := (kont_ok hash).

Ltac cases A E := let A' := fresh in pose proof A as A'; unfold at_pc in A'; unfold step in E; rewrite A' in E; clear A'.
Ltac inner E := unfold lock_excl, lock_shared in E;
  repeat match type of E with
  | match ?y with _ => _ end = Some _ => let Q := fresh "Q" in destruct y eqn:Q
  | (if ?y then _ else _) = Some _ => let Q := fresh "Q" in destruct y eqn:Q
  end; try discriminate; try (injection E as <-).

(** ** Only the critical section of a call changes the contents *)
Lemma step_stored t c s s' p : inv s -> at_pc s t p -> (forall j a idx, p <> Crit j a idx) -> step hash t c s = Some s' ->
  forall k v, stored s' k v <-> stored s k v.
Proof.
  intros I A N E. pose proof (i_pc _ _ I _ _ A) as P. cases A E. destruct p; try (exfalso; exact (N _ _ _ eq_refl)).
  15: { (* TMove *)
    destruct c; try discriminate. injection E as <-. destruct P as (C & -> & ->).
    destruct (reloc_link hash hash64 _ _ _ _ _ _ _ I A ltac:(cbn; auto) C) as (Lk & Cu & B & Li).
    intros k v. split.
    + intros (x & i' & X). apply (move_in hash hash64 s a o i x i' k v I Lk) in X as [[X _]|(_ & _ & X)]; eexists _, _; done.
    + intros (x & i' & X). destruct (decide (x = o /\ i' = i)) as [[-> ->]|Nx].
      * exists a, (bi s a k). apply (move_in hash hash64 s a o i a (bi s a k) k v I Lk). right. done.
      * exists x, i'. apply (move_in hash hash64 s a o i x i' k v I Lk). left. done. }
  all: apply stored_es.
  all: inner E; try (intros; done); try apply es_set.
  - destruct P as [_ P]. by apply es_kill.
  - intros x i. simpl. destruct (decide _) as [[-> ->]|]; done.
  - apply N.ltb_lt in Q0. destruct P as (_ & _ & _ & _ & P). destruct ok.
    + apply es_kill. apply P; [done|lia].
    + apply es_set.
Qed.

(** ** RESIZING is set only while some thread is resizing *)
Definition flag s : Prop := rsz s = true -> exists t p, at_pc s t p /\ resizing p = true.
Lemma step_flag t c s s' : inv s -> flag s -> step hash t c s = Some s' -> flag s'.
Proof.
  intros I F E R. destruct (step_at hash _ _ _ _ E) as (p & A).
  assert (X : exists p', moves t p' s s' /\ (rsz s = true /\ resizing p' = resizing p \/ resizing p' = true)).
  { assert (NC : ~ at_pc s' t Crash) by (intros Y; exact (i_pc _ _ (step_inv hash hash64 _ _ _ _ I E) _ _ Y)).
    cases A E. destruct p; inner E; try destruct ok; try discriminate; 
      try (exfalso; apply NC; eapply at_self; [exact A|reflexivity]); (eexists; split; [reflexivity|]);
      try (right; reflexivity); left; (split; [first [exact R|reflexivity]|]);
      unfold relocated, loaded, next_rehash, next_dedup, gave_up, unlocked, resume, deduped;
      unfold next_rehash, next_dedup; repeat case_match; reflexivity. }
  destruct X as (p' & M & [[R0 Ep]|Ep]); [|exists t, p'; split; [by eapply at_self|done]].
  destruct (F R0) as (u & q & B & Q). destruct (decide (u = t)) as [->|Nu].
  - exists t, p'. split; [by eapply at_self|]. assert (q = p) as -> by (unfold at_pc in *; congruence). congruence.
  - exists u, q. split; [by eapply at_other|done].
Qed.

(** ** The rehashing word *)

(** The array and the linked array on which a thread works. *)
Definition about p : option (nat * nat) :=
  match p with
  | Relink _ a o | Claim _ a o | Rehash _ a o _ _ | EndOk _ a o _ | Detach _ a o | EndFail _ a o _ _ | Dedup _ a o _ _
  | OldLocked _ a o _ | TLock _ a o _ _ _ _ _ | TBack _ a o _ _ _ | TDrop _ a o _ | TMove _ a o _ _ _
  | TUnlock _ a o _ _ _ | TKill _ a o _ => Some (a, o)
  | _ => None
  end.
(** Arrays without a successor have not been claimed, and the current array has none. *)
Record top s : Prop := {
  t_word : forall x, (nxt s <= S x)%nat -> word (arr s x) = 0;
  t_cur : forall c, cur s = Some c -> S c = nxt s;
  t_link : forall a o, link (arr s a) = Some o -> a = S o;
  t_about : forall t p a o, at_pc s t p -> about p = Some (a, o) -> a = S o }.
(** There is always somebody to go on with the linked array. *)
Definition prog s : Prop := forall a o, link (arr s a) = Some o ->
  word (arr s o) < alen s o \/ (0 < nclaims s o)%nat \/ exists t j, at_pc s t (Detach j a o).

Lemma about_step t c s s' p : step hash t c s = Some s' -> at_pc s t p -> exists p', moves t p' s s' /\
  (about p' = None \/ about p' = about p \/ exists a o, about p' = Some (a, o) /\ link (arr s a) = Some o).
Proof.
  intros E A. cases A E.
  destruct p; inner E; try destruct ok; (eexists; split; [reflexivity|]); try (left; reflexivity);
    try (right; left; reflexivity); try (right; right; do 2 eexists; split; [reflexivity|assumption]);
    unfold relocated, loaded, next_rehash, next_dedup, gave_up, unlocked, resume, deduped;
      unfold next_rehash, next_dedup; repeat case_match; auto.
Qed.
Lemma step_top t c s s' : inv s -> top s -> step hash t c s = Some s' -> top s'.
Proof.
  intros I [T1 T2 T3 T4] E. destruct (step_at hash _ _ _ _ E) as (p & A). pose proof (i_pc _ _ I _ _ A) as P.
  assert (T4' : forall u q a o, at_pc s' u q -> about q = Some (a, o) -> a = S o).
  { intros u q a o B Q. destruct (about_step _ _ _ _ _ E A) as (p' & M & Ab).
    destruct (at_inv _ _ _ _ _ _ _ A M B) as [[-> ->]|[N B']]; [|by eapply T4].
    destruct Ab as [Ab|[Ab|(a' & o' & Ab & L)]]; [congruence| |].
    - eapply T4; [done|congruence].
    - rewrite Q in Ab. injection Ab as -> ->. by apply T3. }
  cases A E.
  assert (W : forall a o x, wl s a o -> (nxt s <= S x)%nat -> x <> o) by (intros a o x [W _] L; lia).
  destruct p; inner E; try destruct ok; split; try exact T4';
    cbn [nxt arr cur link word set_pc set_meta set_bk set_bks set_cur set_rsz emit push release kill];
    try exact T1; try exact T2; try exact T3; try (intros ? [=]; congruence);
    try (intros d D; apply T2; congruence);
    try (intros y L; destruct (decide _) as [->|Ny]; [|apply T1; lia]);
    try (exfalso; cbn in P; unfold CtInv.reh_ok in P; by eapply W; [|exact L|reflexivity]; apply P);
    try (intros b o1 L; destruct (decide _) as [->|Nb]; cbn in L; [|by apply T3]);
    cbn; try reflexivity; try (apply T1; lia); try (by apply T1); try discriminate; try (by apply T3);
    try (symmetry; by apply T2).
Qed.
Lemma prog_same t p p' s s' : prog s -> at_pc s t p -> moves t p' s s' -> (forall x, arr s' x = arr s x) ->
  claims p' = claims p -> (forall j a o, p <> Detach j a o) -> prog s'.
Proof.
  intros Pr A M Ea C N a o L. rewrite Ea in L. unfold alen. rewrite !Ea.
  rewrite (nclaims_same _ _ _ _ _ _ A M C).
  destruct (Pr a o L) as [X|[X|(u & j & X)]]; [auto|auto|]. right. right. exists u, j.
  eapply at_other; [done| |done]. intros ->. eapply N. unfold at_pc in *. rewrite A in X. by injection X as ->.
Qed.
(** A step on the word of [o]. *)
Lemma prog_word t p p' s s' o w : inv s -> top s -> prog s -> inv s' -> at_pc s t p -> moves t p' s s' -> (o < nxt s)%nat -> nxt s' = nxt s ->
  arr s' = arr (set_meta o (Meta (sz (arr s o)) (link (arr s o)) w) s) ->
  (forall o', o' <> o -> claims_b o' p = false /\ claims_b o' p' = false) ->
  (forall j a o, p <> Detach j a o) ->
  (w mod 32 = 0 -> w < alen s o \/ exists j, p' = Detach j (S o) o) -> prog s'.
Proof.
  intros I T Pr I' A M O Nx Ea C N H a o' L. rewrite Ea in L. simpl in L.
  assert (L0 : link (arr s a) = Some o') by (destruct (decide (a = o)) as [->|]; done).
  assert (Al : alen s' o' = alen s o') by (unfold alen; rewrite Ea; cbn [arr set_meta]; destruct (decide (o' = o)) as [->|]; reflexivity).
  rewrite Al, Ea. simpl. destruct (decide (o' = o)) as [->|No].
  - destruct (i_words _ _ I' o ltac:(lia)) as (W1 & _ & _). rewrite Ea in W1. simpl in W1.
    rewrite decide_True in W1 by done. simpl in W1 |- *.
    destruct (decide (nclaims s' o = 0)%nat) as [Z|Z]; [|right; left; lia].
    rewrite Z in W1. destruct (H W1) as [X|(j & ->)]; [by left|].
    right. right. exists t, j. rewrite (t_link _ T _ _ L0). by eapply at_self.
  - pose proof (nclaims_step _ _ _ _ _ o' A M) as Nc. destruct (C o' No) as [C1 C2]. rewrite C1, C2 in Nc.
    assert (nclaims s' o' = nclaims s o') as -> by lia.
    destruct (Pr a o' L0) as [X|[X|(u & j & X)]]; [auto|auto|]. right. right. exists u, j.
    eapply at_other; [done| |done]. intros ->. eapply N. unfold at_pc in *. rewrite A in X. by injection X as ->.
Qed.
Lemma prog_push t p p' s s' z l : inv s -> top s -> prog s -> at_pc s t p -> moves t p' s s' -> arr s' = arr (push z l s) ->
  l = None \/ l = cur s -> claims p' = claims p -> (forall j a o, p <> Detach j a o) -> prog s'.
Proof.
  intros I T Pr A M Ea Hl C N a o L. rewrite Ea in L. simpl in L. rewrite (nclaims_same _ _ _ _ _ _ A M C).
  destruct (decide (a = nxt s)) as [->|Na].
  - simpl in L. destruct Hl as [->|Hl]; [discriminate|]. rewrite L in Hl. symmetry in Hl.
    pose proof (t_cur _ T _ Hl) as Tc. left. unfold alen. rewrite Ea. simpl. rewrite decide_False by lia.
    rewrite (t_word _ T o) by lia. apply table_pos. apply (i_sz _ _ (i_shape _ _ I)). lia.
  - pose proof (i_link _ _ (i_shape _ _ I) _ _ L) as [_ B]. unfold alen. rewrite Ea. simpl. rewrite !decide_False by lia.
    destruct (Pr a o L) as [X|[X|(u & j & X)]]; [auto|auto|]. right. right. exists u, j.
    eapply at_other; [done| |done]. intros ->. eapply N. unfold at_pc in *. rewrite A in X. by injection X as ->.
Qed.
Lemma prog_detach t j a o s s' : prog s -> inv s -> at_pc s t (Detach j a o) -> moves t (dedup_from hash s j a o) s s' ->
  arr s' = arr (set_meta a (Meta (sz (arr s a)) None (word (arr s a))) s) -> prog s'.
Proof.
  intros Pr I A M Ea b o' L. rewrite Ea in L. simpl in L. destruct (decide (b = a)) as [->|Nb]; [discriminate|].
  unfold alen. rewrite Ea. simpl. rewrite (nclaims_same _ _ _ _ _ _ A M) by done.
  assert (X : word (arr s o') < alen s o' \/ (0 < nclaims s o')%nat \/ exists u j, u <> t /\ at_pc s u (Detach j b o')).
  { destruct (Pr b o' L) as [X|[X|(u & j' & X)]]; [auto|auto|]. right. right. exists u, j'. split; [|done].
    intros ->. unfold at_pc in *. rewrite A in X. injection X as -> -> ->. done. }
  destruct X as [X|[X|(u & j' & Nu & X)]]; [left|by auto|right; right; exists u, j'; by eapply at_other].
  by destruct (decide (o' = a)) as [->|].
Qed.
Lemma step_prog t c s s' : inv s -> top s -> prog s -> step hash t c s = Some s' -> prog s'.
Proof.
  intros I T Pr E. destruct (step_at hash _ _ _ _ E) as (p & A). pose proof (i_pc _ _ I _ _ A) as P.
  pose proof (step_inv hash hash64 _ _ _ _ I E) as I'.
  assert (NC : ~ at_pc s' t Crash) by (intros Y; exact (i_pc _ _ I' _ _ Y)).
  cases A E.
  destruct p; inner E; try destruct ok; try (exfalso; apply NC; eapply at_self; [exact A|reflexivity]);
    try (eapply prog_same; [exact Pr|exact A|reflexivity|intros; reflexivity| |intros; discriminate];
      unfold relocated, loaded, next_rehash, next_dedup, gave_up, unlocked, resume, deduped;
      unfold next_rehash, next_dedup; repeat case_match; reflexivity).
  - eapply (prog_push _ _ _ _ _ _ _ I T Pr A); [reflexivity|reflexivity|by left|done|done].
  - (* Claim *) destruct P as [W J]. pose proof W as [W0 _].
    eapply (prog_word _ _ _ _ _ o _ I T Pr I' A); [reflexivity|lia|reflexivity|reflexivity| |done|].
    + intros o' No. split; [done|]. unfold next_rehash. case_match; unfold claims_b; cbn; apply Nat.eqb_neq; congruence.
    + intros Z. exfalso. unfold claim in Q0. destruct (_ || _) eqn:G in Q0; [discriminate|]. injection Q0 as <- <-.
      apply orb_false_iff in G as [_ G]. apply N.eqb_neq in G. rewrite land31 in G.
      pose proof (mod_split (word (arr s o)) _ eq_refl) as (d & Ed & _ & Lt).
      replace (word (arr s o) + 33) with (32 * (d + 1) + (word (arr s o) mod 32 + 1)) in Z by lia.
      rewrite mod_join in Z; lia.
  - (* EndOk, the last one *) destruct P as [W0 J]. pose proof W0 as [W _].
    eapply (prog_word _ _ _ _ _ o _ I T Pr I' A); [reflexivity|lia|reflexivity|reflexivity| |done|].
    + intros o' No. split; [unfold claims_b; cbn; apply Nat.eqb_neq; congruence|done].
    + intros _. right. exists j. f_equal. apply (t_about _ T _ _ a o A). done.
  - destruct P as [W0 J]. pose proof W0 as [W _].
    eapply (prog_word _ _ _ _ _ o _ I T Pr I' A); [reflexivity|lia|reflexivity|reflexivity| |done|].
    + intros o' No. split; [unfold claims_b; cbn; apply Nat.eqb_neq; congruence|done].
    + intros Z. left. rewrite land31, Z in *. cbn in *. apply N.leb_gt. done.
  - by eapply prog_detach.
  - (* EndFail *) destruct P as (W0 & J & Pm & Pl). pose proof W0 as [W _].
    eapply (prog_word _ _ _ _ _ o _ I T Pr I' A); [reflexivity|lia|reflexivity|reflexivity| |done|].
    + intros o' No. split; [unfold claims_b; cbn; apply Nat.eqb_neq; congruence|]. by destruct cx.
    + intros Z. left. apply N.eqb_neq in Q0. rewrite land31 in Q0.
      pose proof (mod_split (word (arr s o)) _ eq_refl) as (d & Ed & _ & Lt). rewrite Ed in Z |- *.
      destruct (unclaim_spec d (word (arr s o) mod 32) prev ltac:(lia) Pm) as (d' & Eu & L1 & L2).
      rewrite Eu in Z |- *. rewrite mod_join in Z by lia. lia.
  - eapply (prog_push _ _ _ _ _ _ _ I T Pr A); [reflexivity|reflexivity|by right|done|done].
Qed.

(** ** Deadlocks *)
Definition goes s u : Prop := exists s' c, (c = CGo \/ exists n, c = CCap n) /\ step hash u c s = Some s'.
(** Threads inside a bucket do not wait, except for the first target of a relocation. *)
Lemma go_some s u : step hash u CGo s <> None -> goes s u.
Proof. intros G. unfold goes. destruct (step hash u CGo s) as [s'|] eqn:E; [|done]. exists s', CGo. auto. Qed.
Lemma holder_goes s u q x i : at_pc s u q -> holds q x i \/ reads q x i ->
  (forall c a o i lo hi n, q <> TLock c a o i lo hi n true) -> goes s u.
Proof.
  intros A Hh N. apply go_some.
  unfold step. unfold at_pc in A. rewrite A.
  destruct q; cbn in Hh; try tauto; unfold lock_excl, lock_shared; repeat case_match; try discriminate; subst; try (by edestruct N).
Qed.
Lemma target_goes s t c a o i lo hi n : inv s -> at_pc s t (TLock c a o i lo hi n true) -> exists u, goes s u.
Proof.
  intros I A. pose proof (i_pc _ _ I _ _ A) as (C & -> & -> & Ln & Lw). rewrite (Lw eq_refl) in *. clear Ln Lw.
  destruct (reloc_link hash hash64 _ _ _ _ _ _ _ I A ltac:(cbn; auto) C) as (Lk & Cu & B & Li).
  set (lo := (range s o a i).1) in *.
  assert (In : forall u q, at_pc s u q -> holds q a lo \/ reads q a lo -> exists u, goes s u).
  { intros u q Bq Hq. exists u. eapply holder_goes; [done|done|]. intros c2 a2 o2 i2 lo2 hi2 n2 ->.
    pose proof (i_pc _ _ I _ _ Bq) as (C2 & -> & -> & Ln2 & Lw2). rewrite (Lw2 eq_refl) in *.
    destruct (reloc_link hash hash64 _ _ _ _ _ _ _ I Bq ltac:(cbn; auto) C2) as (Lk2 & Cu2 & B2 & Li2).
    assert (a2 = a) as -> by congruence. cbn in Hq. destruct Hq as [[[-> _]|[_ X]]|[]]; lia. }
  destruct (lk (bks s a lo)) as [|ts|u|] eqn:El.
  - exists t. apply go_some. unfold step. unfold at_pc in A. rewrite A, El. by repeat case_match.
  - destruct (i_reader _ (i_locks _ _ I) _ _ _ El) as (Ne & _ & R). destruct ts as [|u ts]; [done|].
    destruct (R u ltac:(left)) as (q & Bq & Rq). eauto.
  - destruct (i_holder _ (i_locks _ _ I) _ _ _ El) as (q & Bq & Hq). eauto.
  - exists t. apply go_some. unfold step. unfold at_pc in A. rewrite A, El. by repeat case_match.
Qed.
Lemma locked_goes s x i : inv s -> lk (bks s x i) <> LFree -> lk (bks s x i) <> LDead -> exists u, goes s u.
Proof.
  intros I N1 N2.
  assert (In : forall u q, at_pc s u q -> holds q x i \/ reads q x i -> exists u, goes s u).
  { intros u q B Hq. assert (D : (exists c a o i lo hi n, q = TLock c a o i lo hi n true) \/
      forall c a o i lo hi n, q <> TLock c a o i lo hi n true).
    { destruct q; try (right; intros; discriminate). destruct w; [left; eauto 8|right; intros; discriminate]. }
    destruct D as [(c & a & o & i' & lo & hi & n & ->)|D]; [by eapply target_goes|].
    exists u. by eapply holder_goes. }
  destruct (lk (bks s x i)) as [|ts|u|] eqn:El; try done.
  - destruct (i_reader _ (i_locks _ _ I) _ _ _ El) as (Ne & _ & R). destruct ts as [|u ts]; [done|].
    destruct (R u ltac:(left)) as (q & Bq & Rq). eauto.
  - destruct (i_holder _ (i_locks _ _ I) _ _ _ El) as (q & Bq & Hq). eauto.
Qed.
Lemma excl_goes t s x i p q : inv s -> (lock_excl t s x i p q <> None -> goes s t) -> exists u, goes s u.
Proof.
  intros I G. destruct (lk (bks s x i)) eqn:El.
  - exists t. apply G. unfold lock_excl. rewrite El. by case_match.
  - eapply locked_goes; [done| |]; by rewrite El.
  - eapply locked_goes; [done| |]; by rewrite El.
  - exists t. apply G. unfold lock_excl. rewrite El. by case_match.
Qed.
Lemma shared_goes t s x i p q : inv s -> (lock_shared t s x i p q <> None -> goes s t) -> exists u, goes s u.
Proof.
  intros I G. destruct (lk (bks s x i)) eqn:El.
  - exists t. apply G. unfold lock_shared. rewrite El. by case_match.
  - exists t. apply G. unfold lock_shared. rewrite El. by case_match.
  - eapply locked_goes; [done| |]; by rewrite El.
  - exists t. apply G. unfold lock_shared. rewrite El. by case_match.
Qed.
Theorem deadlock_free s t p : inv s -> at_pc s t p -> p <> Idle -> exists u, goes s u.
Proof.
  intros I A N. pose proof (i_pc _ _ I _ _ A) as P. pose proof A as A'. unfold at_pc in A'.
  destruct p; try done;
    try (exists t; apply go_some; unfold step; rewrite A'; by repeat case_match).
  - (* Load *) exists t. destruct (cur s) as [a|] eqn:C.
    + apply go_some. unfold step. rewrite A', C. by destruct j.
    + destruct j as [o| |].
      * destruct (creates o) eqn:Cr.
        -- unfold goes. destruct (CapModel.arr_new 0) as [z|] eqn:Z; eexists _, (CCap 0); (split; [right; by eexists|]);
             unfold step; by rewrite A', C, Cr, Z.
        -- apply go_some. unfold step. by rewrite A', C, Cr.
      * apply go_some. unfold step. by rewrite A', C.
      * apply go_some. unfold step. by rewrite A', C.
  - eapply excl_goes; [done|]. intros G. apply go_some. unfold step. rewrite A'. exact G.
  - eapply excl_goes; [done|]. intros G. apply go_some. unfold step. rewrite A'. exact G.
  - destruct w; [by eapply target_goes|]. exists t. apply go_some. unfold step. rewrite A'. by repeat case_match.
  - destruct (shared j) eqn:Sj.
    + eapply shared_goes; [done|]. intros G. apply go_some. unfold step. rewrite A', Sj. exact G.
    + eapply excl_goes; [done|]. intros G. apply go_some. unfold step. rewrite A', Sj. exact G.
Qed.
End live.
