(** Further invariants of the concurrent hash table: scans, deadlock freedom, progress of rehashing. *)
From Coq Require Import NArith Lia.
From stdpp Require Import prelude list numbers.
From Verif Require CapModel CapSpec CapFacts.
From Verif Require Import CtModel CtSpec CtInv CtStep CtPres CtPres2 CtPres3 CtPres4 CtList CtLin.
Local Open Scope N_scope.

Section more.
Context {K V : Type} `{EqDecision K} (hash : K -> N).
Hypothesis hash64 : forall k, hash k < 2 ^ 64.
Notation state := (state K V). Notation pc := (pc K V). Notation job := (job K V).
Implicit Types (s : state) (p q : pc) (j : job) (x y a o : nat) (i n : N) (t u : nat).
Notation inv := (inv hash). Notation shape := (shape hash). Notation pc_ok := (pc_ok hash).
Notation bi := (bi hash). Notation cont_ok := (cont_ok hash). Notation kont_ok := (kont_ok hash).
Notation acc_ok := (acc_ok hash).

Lemma step_at t c s s' : step hash t c s = Some s' -> exists p, at_pc s t p.
Proof. unfold step, at_pc. destruct (pcs s !! t) as [p|]; [eauto|discriminate]. Qed.
Ltac cases A E := let A' := fresh in pose proof A as A'; unfold at_pc in A'; unfold step in E; rewrite A' in E; clear A'.
Ltac inner E := unfold lock_excl, lock_shared in E;
  repeat match type of E with
  | match ?y with _ => _ end = Some _ => let Q := fresh "Q" in destruct y eqn:Q
  | (if ?y then _ else _) = Some _ => let Q := fresh "Q" in destruct y eqn:Q
  end; try discriminate; try (injection E as <-).

(** Every step moves one thread. *)
Lemma step_moves t c s s' : step hash t c s = Some s' -> exists p', moves t p' s s'.
Proof.
  intros E. destruct (step_at _ _ _ _ E) as (p & A). cases A E. destruct p; inner E; try (eexists; reflexivity).
  destruct ok; eexists; reflexivity.
Qed.
(** Arrays keep their size. *)
Lemma step_sz t c s s' : step hash t c s = Some s' -> (nxt s <= nxt s')%nat /\
  forall x, (x < nxt s)%nat -> sz (arr s' x) = sz (arr s x).
Proof.
  intros E. destruct (step_at _ _ _ _ E) as (p & A). cases A E.
  destruct p; inner E; try destruct ok; cbn [nxt arr sz set_pc set_meta set_bk set_bks set_cur set_rsz emit push release kill]; (split; [lia|]); intros y Y; try done;
    try (destruct (decide _) as [->|]; try done; lia).
Qed.
Lemma step_sz2 t c s s' : step hash t c s = Some s' -> (forall x, sz (arr s' x) = sz (arr s x)) \/
  (exists (op : op K V) a, at_pc s' t (Linked (JOp op) a)) \/ (exists c a, at_pc s t (RzDo c a) /\ at_pc s' t (RzOut c)).
Proof.
  intros E. destruct (step_at _ _ _ _ E) as (p & A). pose proof E as E'. cases A E.
  destruct p; inner E; try (right; right; do 2 eexists; split; [exact A|eapply at_self; [exact A|reflexivity]]);
    try (left; intros y; cbn [nxt arr sz set_pc set_meta set_bk set_bks set_cur set_rsz emit push release kill];
      try done; try (destruct (decide _) as [->|]; done); by destruct ok);
    right; left; do 2 eexists; (eapply at_self; [exact A|reflexivity]).
Qed.
Lemma step_other t c s s' u q : step hash t c s = Some s' -> u <> t -> at_pc s u q -> at_pc s' u q.
Proof. intros E N A. destruct (step_moves _ _ _ _ E) as (p' & M). by eapply at_other. Qed.
Lemma step_back t c s s' u q : step hash t c s = Some s' -> at_pc s' u q -> u = t \/ at_pc s u q.
Proof.
  intros E A. destruct (step_moves _ _ _ _ E) as (p' & M). destruct (step_at _ _ _ _ E) as (p & B).
  destruct (at_inv _ _ _ _ _ _ _ B M A) as [[-> _]|[_ X]]; auto.
Qed.

(** Retired buckets stay retired, detached arrays stay detached. *)
Lemma step_dead t c s s' x i : step hash t c s = Some s' -> dead s x i -> dead s' x i.
Proof.
  intros E D. destruct (step_at _ _ _ _ E) as (p & A). cases A E. unfold dead in *.
  destruct p; inner E; try destruct ok; try exact D;
    cbn [bks lk set_pc set_meta set_bk set_bks set_cur set_rsz emit push release kill];
    try (destruct (decide _) as [[-> ->]|]; [|exact D]; cbn [lk]; try rewrite D; try reflexivity; congruence).
  unfold move. repeat case_match; exact D.
Qed.
Lemma step_unlinked t c s s' x : step hash t c s = Some s' -> (x < nxt s)%nat -> link (arr s x) = None -> link (arr s' x) = None.
Proof.
  intros E L D. destruct (step_at _ _ _ _ E) as (p & A). cases A E.
  destruct p; inner E; try destruct ok; try exact D;
    cbn [arr link set_pc set_meta set_bk set_bks set_cur set_rsz emit push release kill];
    (destruct (decide _) as [->|]; [|exact D]); cbn [link]; try done; lia.
Qed.
Lemma step_detach t c s s' p a o : step hash t c s = Some s' -> at_pc s t p ->
  link (arr s a) = Some o -> link (arr s' a) = None -> (a < nxt s)%nat -> exists j o', p = Detach j a o'.
Proof.
  intros E A L L' Lt. cases A E.
  destruct p; inner E; try destruct ok;
    cbn [arr link set_pc set_meta set_bk set_bks set_cur set_rsz emit push release kill] in L'; try congruence;
    (destruct (decide _) as [->|]; [|congruence]); cbn [link] in L'; try congruence; try lia. by do 2 eexists.
Qed.
(** The contents of a bucket change only by a thread inside it. *)
Lemma step_writes t c s s' p x i : inv s -> at_pc s t p -> step hash t c s = Some s' ->
  es (bks s' x i) <> es (bks s x i) -> holds p x i.
Proof.
  intros I A E N. pose proof (i_pc _ _ I _ _ A) as P. cases A E.
  destruct p; inner E; try destruct ok;
    cbn [bks es set_pc set_meta set_bk set_bks set_cur set_rsz emit push release kill] in N; try done;
    try (destruct (decide _) as [[-> ->]|Nd]; [|done]; cbn [es] in N; try done).
  - destruct P as (C & -> & ->). cbn.
    destruct (reloc_link hash hash64 _ _ _ _ _ _ _ I A ltac:(cbn; auto) C) as (Lk & Cu & B & Li).
    unfold move in N. destruct (decide (x = o /\ i = i0)) as [[-> ->]|Nd]; [auto|].
    destruct (decide (x = a)) as [->|]; [|done]. right. split; [done|]. cbn [es] in N.
    destruct (List.filter _ (es (bks s o i0))) as [|e l] eqn:F in N; [by rewrite app_nil_r in N|].
    assert (X : In e (List.filter (fun e => target hash s a o (range s o a i0).1 e =? i) (es (bks s o i0)))) by (rewrite F; by left).
    apply filter_In in X as [X Y]. apply N.eqb_eq in Y. apply elem_of_list_In in X.
    destruct (target_bi hash hash64 s a o i0 e I Lk X) as [T1 T2]. rewrite <- T1, Y in T2. done.
  - destruct o; by cbn.
  - destruct f; by cbn.
  - apply N.ltb_lt in Q0. cbn. lia.
Qed.

(** ** Scans *)
Section scan.
Context (P : V -> Prop) (k : K).
Definition found (seen : list (K * V)) : Prop := exists v, P v /\ (k, v) ∈ seen.
(** Buckets below [start] of the array [a] have been visited. *)
Definition sj s a j : Prop := match j with JScan _ st _ se => bi s a k < st -> found se | _ => True end.
Definition sl j : Prop :=
  match j with
  | JScan _ st pr se => (pr = 0 /\ st = 0) \/
    exists z, CapSpec.table z /\ pr = CapModel.array_len z /\ (CapModel.bucket_index z (hash k) < st -> found se)
  | _ => True
  end.
Definition sd j (r : res K V) : Prop := match r with RSeen se => found se | _ => True end.
Definition sk s (c : kont K V) : Prop := match c with KAccess j a _ => sj s a j | KRet j r => sd j r end.
Definition scan_ok s p : Prop :=
  match p with
  | Idle | Crash | EndFail _ _ _ _ true => True
  | Load j => sl j
  | Linked j a | Relink j a _ | Claim j a _ | Rehash j a _ _ _ | EndOk j a _ _ | Detach j a _
  | EndFail j a _ _ false | Dedup j a _ _ _ | Access j a _ | Crit j a _ => sj s a j
  | OldLocked c a _ _ | TLock c a _ _ _ _ _ _ | TBack c a _ _ _ _ | TDrop c a _ _ | TMove c a _ _ _ _
  | TUnlock c a _ _ _ _ | TKill c a _ _ => sj s a (cont_job c)
  | Out j a _ r => match j with JScan _ st _ se => bi s a k <= st -> found se | _ => sd j r end
  | Done j r => sd j r
  | RzCheck c _ | RzLink c _ | RzLock c _ | RzIn c _ | RzDo c _ | DLock c _ _ | DSwap c _ _
  | DUnlock c _ _ _ _ | RzOut c => sk s c
  end.
Lemma sj_mono s s' a j : sz (arr s' a) = sz (arr s a) -> sj s a j -> sj s' a j.
Proof. intros E. destruct j; [done| |done]. cbn. unfold CtInv.bi. by rewrite E. Qed.
Lemma kont_lt s c j a idx : kont_ok s c -> c = KAccess j a idx -> (a < nxt s)%nat.
Proof. intros P0 ->. destruct P0 as [[L _] _]. done. Qed.
Lemma scan_mono s s' p : inv s -> pc_ok s p -> (forall x, (x < nxt s)%nat -> sz (arr s' x) = sz (arr s x)) ->
  scan_ok s p -> scan_ok s' p.
Proof.
  intros I Ok E S.
  assert (C : forall c a o i, cont_ok s c a o i -> sj s a (cont_job c) -> sj s' a (cont_job c)).
  { intros c a o i X. destruct (cont_wl _ _ _ _ _ _ X) as [W _]. apply sj_mono, E. lia. }
  assert (Kk : forall c, kont_ok s c -> sk s c -> sk s' c).
  { intros c X. destruct c as [j a idx|]; [|done]. apply sj_mono, E. apply X. }
  assert (J : forall a j, job_ok s a j -> sj s a j -> sj s' a j).
  { intros a j [L _]. by apply sj_mono, E. }
  destruct p; cbn in Ok, S |- *; try done;
    try (destruct Ok as [Ok _]; by eapply C); try (by eapply C); try (destruct Ok as [Ok _]; by eapply Kk);
    try (by eapply Kk).
  - by apply J.
  - apply J; [|done]. apply Ok.
  - apply J; [|done]. apply Ok.
  - apply J; [|done]. destruct Ok as [(_ & X & _) _]. done.
  - apply J; [|done]. destruct Ok as (_ & X & _). done.
  - apply J; [|done]. apply Ok.
  - destruct cx; [done|]. apply J; [|done]. apply Ok.
  - apply J; [|done]. destruct Ok as [(_ & X & _) _]. done.
  - apply J; [|done]. apply Ok.
  - apply J; [|done]. apply Ok.
  - destruct Ok as [[L _] _]. unfold CtInv.bi in *. rewrite E by done. done.
Qed.
(** After a load of the array pointer, no visited bucket maps to an unvisited one. *)
Lemma scan_loaded s j a : inv s -> cur s = Some a -> load_ok j -> sl j -> scan_ok s (loaded s j a).
Proof.
  intros I C L S. pose proof (i_cur _ _ (i_shape _ _ I) a C) as A.
  pose proof (i_sz _ _ (i_shape _ _ I) a A) as T.
  destruct j as [o|f st pr se|]; [done| |done]. cbn [sl load_ok] in *. unfold loaded. cbn zeta.
  assert (Z : pr = 0 /\ st = 0 \/ exists z, CapSpec.table z /\ pr = CapModel.array_len z /\ st < pr /\
    (CapModel.bucket_index z (hash k) < st -> found se)).
  { destruct S as [S|(z & Tz & Ez & S)]; [by left|]. destruct L as [L|(z' & _ & _ & L)]; [by left|]. right. by exists z. }
  clear S L. destruct Z as [[-> ->]|(z & Tz & -> & Lt & S)].
  - change ((0 =? 0) || (0 =? alen s a)) with true. cbn iota.
    pose proof (table_pos _ T) as Pz. change (0 < alen s a) in Pz.
    destruct (N.ltb_spec 0 (alen s a)); [|lia]. cbn. lia.
  - pose proof (table_pos _ Tz) as Pz. destruct (N.eqb_spec (CapModel.array_len z) 0); [lia|]. cbn [orb].
    set (st' := if CapModel.array_len z =? alen s a then st else _).
    pose proof (rng_in z (sz (arr s a)) (hash k) Tz T (hash64 k)) as [R1 R2].
    assert (B1 : st' < alen s a /\ (bi s a k < st' -> CapModel.bucket_index z (hash k) < st)).
    { unfold st'. destruct (N.eqb_spec (CapModel.array_len z) (alen s a)) as [El|Nl].
      - split; [lia|]. intros X.
        pose proof (rng_one z (sz (arr s a)) (CapModel.bucket_index z (hash k)) ltac:(unfold alen in El; lia)) as O1.
        assert (E1 : (CapModel.from_index_to_range (CapModel.array_len z) (CapModel.array_len (sz (arr s a))) (CapModel.bucket_index z (hash k))).1
            = CapModel.bucket_index z (hash k)).
        { unfold alen in El. rewrite <- El. unfold CapModel.from_index_to_range. rewrite N.ltb_irrefl. cbn [fst].
          rewrite N.div_same by lia. apply N.div_1_r. }
        unfold CtInv.bi in X. lia.
      - pose proof (rng_ok z (sz (arr s a)) st Tz T Lt) as [R3 R4]. split; [unfold alen; lia|].
        intros X. destruct (N.lt_ge_cases (CapModel.bucket_index z (hash k)) st) as [|G]; [done|]. exfalso.
        pose proof (rng_mono z (sz (arr s a)) _ _ G) as R5. unfold CtInv.bi, alen in *. lia. }
    destruct B1 as [B1 B2]. destruct (N.ltb_spec st' (alen s a)); [|lia]. cbn. auto.
Qed.
Lemma job_sl s a j : inv s -> job_ok s a j -> sj s a j -> sl j.
Proof.
  intros I [A J] S. destruct j as [|f st pr se|]; [done| |done]. destruct J as [-> J]. right.
  exists (sz (arr s a)). split; [apply (i_sz _ _ (i_shape _ _ I) a A)|]. done.
Qed.
Lemma scan_next_rehash s j a o prev i : sj s a j -> scan_ok s (next_rehash s j a o prev i).
Proof. intros S. unfold next_rehash. by case_match. Qed.
Lemma scan_next_dedup s j a o i hi : sj s a j -> scan_ok s (next_dedup hash s j a o i hi).
Proof. intros S. unfold next_dedup. by case_match. Qed.
Lemma scan_relocated s c a o i : sj s a (cont_job c) -> scan_ok s (relocated hash s c a o i).
Proof. intros S. destruct c; [by apply scan_next_rehash|by apply scan_next_dedup]. Qed.
Lemma scan_resume s c : sk s c -> scan_ok s (resume c).
Proof. by destruct c. Qed.
Lemma scan_busy s j r : sd j r -> scan_ok s (Done j r).
Proof. done. Qed.
Lemma sd_busy j : sd j RBusy.
Proof. by destruct j. Qed.

Lemma own_scan t c s s' p p' : inv s -> (exists v, P v /\ stored s k v) -> at_pc s t p -> step hash t c s = Some s' ->
  moves t p' s s' -> scan_ok s p -> scan_ok s p'.
Proof.
  intros I Pr A E M S.
  pose proof (i_pc _ _ I _ _ A) as Ok.
  assert (Me : forall p2, moves t p2 s s' -> p2 = p').
  { intros p2 M2. pose proof (at_self _ _ _ _ _ A M) as X. pose proof (at_self _ _ _ _ _ A M2) as Y.
    unfold at_pc in *. congruence. }
  assert (Got : forall q, moves t q s s' -> scan_ok s q -> scan_ok s p').
  { intros q Mq Sq. by rewrite <- (Me q Mq). }
  assert (Lock : forall x i p1 q1, lock_excl t s x i p1 q1 = Some s' -> scan_ok s p1 -> scan_ok s q1 -> scan_ok s p').
  { intros x i p1 q1 Q S1 S2. apply lock_excl_inv in Q as (p2 & D & M2 & _). rewrite <- (Me p2 M2).
    by destruct D as [->|[->| ->]]. }
  assert (LockS : forall x i p1 q1, lock_shared t s x i p1 q1 = Some s' -> scan_ok s p1 -> scan_ok s q1 -> scan_ok s p').
  { intros x i p1 q1 Q S1 S2. apply lock_shared_inv in Q as (p2 & D & M2 & _). rewrite <- (Me p2 M2).
    by destruct D as [->|[->| ->]]. }
  cases A E. destruct p.
  - destruct c; try discriminate. injection E as <-. eapply Got; [reflexivity|]. destruct c; cbn; auto.
  - destruct c as [| | |n| | | | |]; try (destruct j; discriminate).
    + assert (E1 : Some s' = match cur s with
        | Some a => Some (set_pc t (loaded s j a) s)
        | None => match j with JOp o => if creates o then None else Some (set_pc t (Done j (absent o)) s)
          | JScan _ _ _ seen => Some (set_pc t (Done j (RSeen seen)) s) | JResize => Some (set_pc t (Done j RUnit) s) end end)
        by (destruct j; done).
      clear E. destruct (cur s) as [a|] eqn:C.
      * injection E1 as ->. eapply Got; [reflexivity|]. by apply scan_loaded.
      * exfalso. destruct Pr as (v & _ & x & i & X).
        apply (i_live _ _ (i_shape _ _ I)) in X as [X|(c & X & _)]; congruence.
    + destruct j as [o| |]; try discriminate. inner E; by (eapply Got; [reflexivity|]).
  - destruct c; try discriminate. destruct (link (arr s a)); injection E as <-; by (eapply Got; [reflexivity|]).
  - destruct c; try discriminate. destruct (link (arr s a)); injection E as <-; by (eapply Got; [reflexivity|]).
  - destruct c; try discriminate. destruct (claim _ _) as [[prev w]|]; injection E as <-; (eapply Got; [reflexivity|]); [|done].
    by apply scan_next_rehash.
  - destruct c; try discriminate.
    + eapply Lock; [done|done|]. by apply scan_next_rehash.
    + injection E as <-. by (eapply Got; [reflexivity|]).
    + injection E as <-. by (eapply Got; [reflexivity|]).
  - destruct c; try discriminate. inner E; by (eapply Got; [reflexivity|]).
  - destruct c; try discriminate. injection E as <-. by (eapply Got; [reflexivity|]).
  - destruct c; try discriminate. inner E; (eapply Got; [reflexivity|]); [done|]. by destruct cx.
  - destruct c; try discriminate.
    + eapply Lock; [done|done|]. by apply scan_next_dedup.
    + injection E as <-. eapply Got; [reflexivity|]. apply sd_busy.
    + injection E as <-. by (eapply Got; [reflexivity|]).
    + injection E as <-. eapply Got; [reflexivity|]. destruct Ok as [(_ & X & _) _]. by apply (job_sl s a).
    + inner E. by (eapply Got; [reflexivity|]).
  - destruct c; try discriminate. inner E; by (eapply Got; [reflexivity|]).
  - destruct c; try (destruct w; discriminate).
    + destruct w; inner E; (eapply Got; [reflexivity|]); try done; by case_match.
    + destruct w; injection E as <-; by (eapply Got; [reflexivity|]).
    + destruct w; [|discriminate]; injection E as <-. eapply Got; [reflexivity|]. by destruct c0.
  - destruct c; try discriminate. inner E; by (eapply Got; [reflexivity|]).
  - destruct c; try discriminate. inner E; (eapply Got; [reflexivity|]). destruct c0; [done|]. apply sd_busy.
  - destruct c; try discriminate. inner E; by (eapply Got; [reflexivity|]).
  - destruct c; try discriminate. inner E; by (eapply Got; [reflexivity|]).
  - destruct c; try discriminate. inner E; (eapply Got; [reflexivity|]). by apply scan_relocated.
  - (* Access *) destruct Ok as (J & _). destruct c; try discriminate.
    + destruct (shared j); [eapply LockS|eapply Lock]; try done; by apply (job_sl s a).
    + injection E as <-. by (eapply Got; [reflexivity|]).
    + injection E as <-. eapply Got; [reflexivity|]. apply sd_busy.
    + injection E as <-. by (eapply Got; [reflexivity|]).
  - (* Crit *) destruct c; try discriminate. destruct j as [o|f st pr se|].
    + injection E as <-. eapply Got; [reflexivity|]. destruct o; cbn; by repeat case_match.
    + injection E as <-. eapply Got; [reflexivity|]. cbn. intros L.
      destruct Ok as (_ & Ei & _). cbn in Ei. subst idx. cbn in S.
      destruct (N.lt_ge_cases (bi s a k) st) as [Lt|Ge].
      * destruct (S Lt) as (v & Pv & X). exists v. split; [done|]. apply elem_of_app. by left.
      * assert (Eb : bi s a k = st) by lia. destruct Pr as (v & Pv & x & i & X).
        destruct (right_place hash hash64 s t _ a st x i k v I A Eb X) as [-> ->].
        exists v. split; [done|]. apply elem_of_app. by right.
    + injection E as <-. by (eapply Got; [reflexivity|]).
  - (* Out *) destruct c; try (destruct j; discriminate).
    + assert (Es : s' = set_pc t (unlocked s j a r) (release t a idx s)) by (destruct j; congruence). subst s'.
      eapply Got; [reflexivity|]. destruct j as [|f st pr se|]; [done| |done]. cbn in S. unfold unlocked.
      destruct (N.ltb_spec (st + 1) (alen s a)) as [Lt|Ge]; cbn.
      * intros X. apply S. lia.
      * apply S. destruct Ok as ([J _] & _). pose proof (bidx_lt hash s a (hash k) I J (hash64 k)). unfold CtInv.bi. lia.
    + destruct j as [|f st pr se|]; [discriminate| |discriminate]. injection E as <-. by (eapply Got; [reflexivity|]).
  - destruct c; try discriminate.
    + injection E as <-. by (eapply Got; [reflexivity|]).
    + inner E. by (eapply Got; [reflexivity|]).
  - destruct c; try discriminate. inner E; (eapply Got; [reflexivity|]); try done; by apply scan_resume.
  - destruct c; try discriminate. inner E; (eapply Got; [reflexivity|]); try done; by apply scan_resume.
  - destruct c; try discriminate. inner E; (eapply Got; [reflexivity|]); try done; by apply scan_resume.
  - destruct c; try discriminate. inner E; (eapply Got; [reflexivity|]); done.
  - destruct c; try discriminate; inner E; (eapply Got; [reflexivity|]); done.
  - destruct c; try discriminate; inner E; (eapply Got; [reflexivity|]); done.
  - destruct c; try discriminate; inner E; (eapply Got; [reflexivity|]); done.
  - destruct c; try discriminate; inner E; try destruct ok; (eapply Got; [reflexivity|]); done.
  - destruct c; try discriminate; inner E; (eapply Got; [reflexivity|]); by apply scan_resume.
  - destruct c; discriminate.
Qed.
Lemma step_scan u c s s' t p : inv s -> (exists v, P v /\ stored s k v) -> step hash u c s = Some s' ->
  (forall p, at_pc s t p -> scan_ok s p) -> at_pc s' t p -> scan_ok s' p.
Proof.
  intros I Pr E S A. destruct (step_moves _ _ _ _ E) as (p' & M). destruct (step_at _ _ _ _ E) as (q & B).
  destruct (step_sz _ _ _ _ E) as [_ Z].
  assert (X : pc_ok s p /\ scan_ok s p \/ (t = u /\ p = p')).
  { destruct (at_inv _ _ _ _ _ _ _ B M A) as [[-> ->]|[N A']]; [by right|left]. split; [by apply (i_pc _ _ I t)|auto]. }
  destruct X as [[X1 X2]|[-> ->]]; [by eapply scan_mono|].
  pose proof (own_scan u c s s' q p' I Pr B E M (S q B)) as Q.
  (* transfer to the new state *)
  pose proof (i_pc _ _ (step_inv hash hash64 u c s s' I E) _ _ A) as Ok'.
  destruct (step_sz2 _ _ _ _ E) as [Y|[(j & a0 & Y)|(c1 & a1 & Y1 & Y2)]].
  - clear -Q Y. destruct p'; cbn [scan_ok] in Q |- *; try done; unfold sk in *; repeat case_match; try done;
      try (by apply (sj_mono s)); unfold CtInv.bi in *; by rewrite Y.
  - assert (p' = Linked (JOp j) a0) as -> by (unfold at_pc in *; congruence). done.
  - assert (p' = RzOut c1) as -> by (unfold at_pc in *; congruence).
    pose proof (scan_mono s s' (RzDo c1 a1) I (i_pc _ _ I _ _ Y1) Z) as X. cbn in X, Q |- *. auto.
Qed.
End scan.
End more.
