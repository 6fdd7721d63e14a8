(** Concurrent histories of the hash table are linearizable. *)
From Coq Require Import NArith Lia.
From stdpp Require Import prelude list numbers.
From Verif Require CapModel CapSpec CapFacts.
From Verif Require Import CtModel CtSpec CtInv CtStep CtPres CtPres2 CtPres3 CtPres4 CtList.
Local Open Scope N_scope.

Section lin.
Context {K V : Type} `{EqDecision K} (hash : K -> N).
Hypothesis hash64 : forall k, hash k < 2 ^ 64.
Notation state := (state K V). Notation pc := (pc K V). Notation job := (job K V). Notation hev := (hev K V).
Notation amap := (amap K V).
Implicit Types (s : state) (p q : pc) (j : job) (x y a o : nat) (i n : N) (t u : nat) (m : amap) (h : list hev).
Notation inv := (inv hash). Notation shape := (shape hash). Notation pc_ok := (pc_ok hash).
Notation bi := (bi hash).

(** ** A key is in one place *)
Lemma live_two s x y : shape s -> live s x -> live s y -> x = y \/
  (link (arr s x) = Some y \/ link (arr s y) = Some x).
Proof.
  intros Sh [X|(c & X & X')] [Y|(d & Y & Y')].
  - left. congruence.
  - right. left. rewrite X in Y. injection Y as ->. done.
  - right. right. rewrite X in Y. injection Y as ->. done.
  - left. rewrite X in Y. injection Y as ->. congruence.
Qed.
Lemma one_place s x i y i' k v v' : inv s -> stored_at s x i k v -> stored_at s y i' k v' -> x = y /\ i = i' /\ v = v'.
Proof.
  intros I X Y. pose proof (i_shape _ _ I) as Sh.
  assert (E : forall a o i i' v v', link (arr s a) = Some o -> stored_at s a i k v -> stored_at s o i' k v' -> False).
  { intros a o i1 i2 v1 v2 L X1 X2. destruct (i_excl _ _ Sh _ _ _ _ _ L X1) as [Q _].
    rewrite (i_idx _ _ Sh _ _ _ _ X2) in Q. unfold stored_at in X2. rewrite Q in X2. by apply elem_of_nil in X2. }
  destruct (live_two s x y Sh) as [<-|[L|L]].
  - exact (i_live _ _ Sh _ _ _ _ X).
  - exact (i_live _ _ Sh _ _ _ _ Y).
  - split; [done|]. pose proof (i_idx _ _ Sh _ _ _ _ X) as <-. pose proof (i_idx _ _ Sh _ _ _ _ Y) as <-. split; [done|].
    pose proof (i_nd _ _ Sh x (bi s x k)) as ND.
    pose proof (in_find _ _ _ ND X) as F1. pose proof (in_find _ _ _ ND Y) as F2. congruence.
  - exfalso. by eapply E.
  - exfalso. by eapply E.
Qed.
(** The bucket in which a thread looks for a key is the one in which the key is. *)
Lemma right_place s t j a idx x i k v : inv s -> at_pc s t (Crit j a idx) -> bi s a k = idx ->
  stored_at s x i k v -> x = a /\ i = idx.
Proof.
  intros I A Ei X. pose proof (i_shape _ _ I) as Sh. pose proof (i_pc _ _ I _ _ A) as P. cbn in P. destruct P as ([Ja _] & _ & Rd).
  destruct (live_two s a x Sh (inside_live hash hash64 s t j a idx I A) (i_live _ _ Sh _ _ _ _ X)) as [<-|[L|L]].
  - split; [done|]. by rewrite <- (i_idx _ _ Sh _ _ _ _ X).
  - exfalso. pose proof (i_link _ _ Sh _ _ L) as [_ B]. eapply (stored_dead hash s x i k v Sh X).
    eapply Rd; [done|]. rewrite <- Ei, <- (i_idx _ _ Sh _ _ _ _ X). apply (range_bi hash hash64); [done|lia|lia].
  - exfalso. destruct (i_excl _ _ Sh _ _ _ _ _ L X) as [_ Q]. rewrite Ei in Q.
    destruct Q as [D|(u & q & B & Q)].
    + revert D. change (~ dead s a idx). destruct (shared j) eqn:Z; [eapply (read_alive hash s t)|eapply (held_alive hash s t)]; try done; by cbn.
    + apply moved_hold in Q as H2. pose proof (i_holds _ (i_locks _ _ I) _ _ _ _ B H2) as E.
      destruct (shared j) eqn:Z.
      * destruct (i_reads _ (i_locks _ _ I) _ _ a idx A) as (ts & E' & _); [by cbn|]. congruence.
      * pose proof (i_holds _ (i_locks _ _ I) _ _ a idx A) as E'. cbn in E'. rewrite E' in E by done. injection E as <-.
        unfold at_pc in *. rewrite A in B. injection B as <-. by cbn in Q.
Qed.

(** ** Histories *)
Lemma follows_app t (p q r : phase K V) h h' : follows t p h q -> follows t q h' r -> follows t p (h ++ h') r.
Proof. intros F. revert r. induction F; intros r' G; simpl; [done|..]; econstructor; eauto. Qed.
Lemma follows_others t (p : phase K V) h : (forall e, e ∈ h -> who e <> t) -> follows t p h p.
Proof.
  induction h as [|e h IH]; intros N; [constructor|]. apply fo_other; [apply N; left|]. apply IH. intros e' X. apply N. by right.
Qed.
Lemma legal_app m m' m'' h h' : legal m h m' -> legal m' h' m'' -> legal m (h ++ h') m''.
Proof. intros F. revert m''. induction F; intros r' G; simpl; [done|..]; econstructor; eauto. Qed.

Definition jcall j : call K V := match j with JOp o => KOp o | JScan f _ _ _ => KScan f | JResize => KResize end.
Definition dphase j r : phase K V := match j with JOp _ => PTaken r | _ => PCalled (jcall j) end.
Definition phase_of p : phase K V :=
  match p with
  | Idle | EndFail _ _ _ _ true | Crash => POut
  | Load j | Linked j _ | Relink j _ _ | Claim j _ _ | Rehash j _ _ _ _ | EndOk j _ _ _ | Detach j _ _
  | EndFail j _ _ _ false | Dedup j _ _ _ _ | Access j _ _ | Crit j _ _ => PCalled (jcall j)
  | OldLocked c _ _ _ | TLock c _ _ _ _ _ _ _ | TBack c _ _ _ _ _ | TDrop c _ _ _ | TMove c _ _ _ _ _
  | TUnlock c _ _ _ _ _ | TKill c _ _ _ => PCalled (jcall (cont_job c))
  | Out j _ _ r | Done j r => dphase j r
  | RzCheck k _ | RzLink k _ | RzLock k _ | RzIn k _ | RzDo k _ | DLock k _ _ | DSwap k _ _
  | DUnlock k _ _ _ _ | RzOut k =>
    match k with KAccess j _ _ => PCalled (jcall j) | KRet j r => dphase j r end
  end.
Definition tphase s t : phase K V := match pcs s !! t with Some p => phase_of p | None => POut end.

(** The history so far, with the points at which the operations took effect, leads to the contents. *)
Definition lin s : Prop := exists h m, erase h = trace s /\ legal (fun _ => None) h m /\
  (forall k v, m k = Some v <-> stored s k v) /\ forall t, follows t POut h (tphase s t).

Lemma lin_start (n : nat) : lin (start n).
Proof.
  exists [], (fun _ => None). split; [done|]. split; [constructor|]. split.
  - intros k v. split; [done|]. intros (x & i & X). by apply elem_of_nil in X.
  - intros t. unfold tphase. destruct (pcs (start n) !! t) as [p|] eqn:E; [|constructor].
    cbn in E. apply lookup_replicate in E as [-> _]. constructor.
Qed.
Lemma lin_step t p p' s s' (ext : list hev) : lin s -> at_pc s t p -> moves t p' s s' ->
  trace s' = trace s ++ erase ext -> (forall e, e ∈ ext -> who e = t) -> follows t (phase_of p) ext (phase_of p') ->
  (forall m, (forall k v, m k = Some v <-> stored s k v) -> exists m', legal m ext m' /\ forall k v, m' k = Some v <-> stored s' k v) ->
  lin s'.
Proof.
  intros (h & m & Eh & L & St & F) A M Tr W Fo Me. destruct (Me m St) as (m' & L' & St').
  exists (h ++ ext), m'. split; [|split; [|split]].
  - rewrite Tr, <- Eh. unfold erase. by rewrite omap_app.
  - by eapply legal_app.
  - done.
  - intros u. eapply follows_app; [apply F|]. unfold tphase. destruct (decide (u = t)) as [->|N].
    + rewrite A. rewrite (at_self _ _ _ _ _ A M). done.
    + rewrite M, list_lookup_insert_ne by done. apply follows_others. intros e X Y. apply W in X. congruence.
Qed.
(** Nothing changes but the program point. *)
Lemma lin_same t p p' s s' : lin s -> at_pc s t p -> moves t p' s s' -> trace s' = trace s ->
  phase_of p' = phase_of p -> (forall k v, stored s' k v <-> stored s k v) -> lin s'.
Proof.
  intros L A M Tr Ph St. eapply (lin_step t p p' s s' []); try done.
  - simpl. by rewrite app_nil_r.
  - intros e X. by apply elem_of_nil in X.
  - rewrite Ph. constructor.
  - intros m Hm. exists m. split; [constructor|]. intros k v. by rewrite St.
Qed.
Lemma lin_ev t p p' s s' (e : hev) : lin s -> at_pc s t p -> moves t p' s s' -> trace s' = trace s ++ erase [e] ->
  who e = t -> follows t (phase_of p) [e] (phase_of p') -> (forall k v, stored s' k v <-> stored s k v) ->
  (forall m, (forall k v, m k = Some v <-> stored s k v) -> legal m [e] m) -> lin s'.
Proof.
  intros L A M Tr W Fo St Lg. eapply (lin_step t p p' s s' [e]); try done.
  - intros e' X. apply elem_of_list_singleton in X. congruence.
  - intros m Hm. exists m. split; [auto|]. intros k v. by rewrite St.
Qed.
(** A call answers that it is busy. *)
Lemma lin_busy t p s s' j : lin s -> at_pc s t p -> moves t (Done j RBusy) s s' -> trace s' = trace s ->
  phase_of p = PCalled (jcall j) -> (forall k v, stored s' k v <-> stored s k v) -> lin s'.
Proof.
  intros L A M Tr Ph St. destruct j as [o| |].
  - eapply (lin_ev t p (Done (JOp o) RBusy) s s' (HLin t o RBusy)); try done.
    + simpl. by rewrite app_nil_r.
    + rewrite Ph. cbn. constructor. constructor.
    + intros m _. econstructor; [by left|constructor].
  - eapply (lin_same t p); try done.
  - eapply (lin_same t p); try done.
Qed.
Lemma lin_cxl t p p' s s' c : lin s -> at_pc s t p -> moves t p' s s' -> trace s' = trace s ++ [Cxl t] ->
  phase_of p = PCalled c -> phase_of p' = POut -> (forall k v, stored s' k v <-> stored s k v) -> lin s'.
Proof.
  intros L A M Tr Ph Ph' St. eapply (lin_ev t p p' s s' (HCxl t)); try done.
  - rewrite Ph, Ph'. constructor. constructor.
  - intros m _. constructor. constructor.
Qed.

(** ** Steps that do not change the contents *)
Lemma stored_bks s s' : bks s' = bks s -> forall k v, stored s' k v <-> stored s k v.
Proof. intros E k v. unfold stored, stored_at. by rewrite E. Qed.
Lemma stored_es s s' : (forall x i, es (bks s' x i) = es (bks s x i)) -> forall k v, stored s' k v <-> stored s k v.
Proof.
  intros E k v. unfold stored, stored_at. split; intros (x & i & X); exists x, i; [by rewrite <- E|by rewrite E].
Qed.
Lemma es_set s x i (l : lock) : forall y i', es (bks (set_bk x i (Bk (es (bks s x i)) l) s) y i') = es (bks s y i').
Proof. intros y i'. simpl. by destruct (decide _) as [[-> ->]|]. Qed.
Lemma es_kill s x i : es (bks s x i) = [] -> forall y i', es (bks (kill x i s) y i') = es (bks s y i').
Proof. intros E y i'. simpl. by destruct (decide _) as [[-> ->]|]. Qed.
Lemma lock_excl_inv t s s' x i p q : lock_excl t s x i p q = Some s' ->
  exists p', (p' = p \/ p' = q \/ p' = Crash) /\ moves t p' s s' /\ trace s' = trace s /\ (forall y i', es (bks s' y i') = es (bks s y i')).
Proof.
  unfold lock_excl. destruct (i <? alen s x); [|intros [= <-]; exists Crash; split; [auto|done]].
  destruct (lk (bks s x i)); intros [= <-].
  - exists p. split; [auto|]. split; [done|]. split; [done|]. apply es_set.
  - exists q. split; [auto|done].
Qed.
Lemma lock_shared_inv t s s' x i p q : lock_shared t s x i p q = Some s' ->
  exists p', (p' = p \/ p' = q \/ p' = Crash) /\ moves t p' s s' /\ trace s' = trace s /\ (forall y i', es (bks s' y i') = es (bks s y i')).
Proof.
  unfold lock_shared. destruct (i <? alen s x); [|intros [= <-]; exists Crash; split; [auto|done]].
  destruct (lk (bks s x i)); intros [= <-].
  - exists p. split; [auto|]. split; [done|]. split; [done|]. apply es_set.
  - exists p. split; [auto|]. split; [done|]. split; [done|]. apply es_set.
  - exists q. split; [auto|done].
Qed.

(** ** The critical section *)
Lemma lin_crit t c s s' j a idx : inv s -> lin s -> at_pc s t (Crit j a idx) -> step hash t c s = Some s' -> lin s'.
Proof.
  intros I L A E. pose proof (i_pc _ _ I _ _ A) as P. cbn in P. unfold step in E. pose proof A as A'. unfold at_pc in A'. rewrite A' in E.
  destruct c; try discriminate. pose proof (i_shape _ _ I) as Sh. pose proof P as (J & Ei & _).
  pose proof (i_nd _ _ Sh a idx) as ND. set (l := es (bks s a idx)) in *.
  assert (Here : forall k v, (k, v) ∈ l <-> stored_at s a idx k v) by done.
  destruct j as [o|f st pr se|]; [| |by destruct J].
  - injection E as <-. set (s' := set_pc t _ _).
    assert (Eb : forall y i, es (bks s' y i) = if decide (y = a /\ i = idx) then (crit o l).1 else es (bks s y i)).
    { intros y i. simpl. by destruct (decide _). }
    eapply (lin_step t _ (Out (JOp o) a idx (crit o l).2) s s' [HLin t o (crit o l).2]); try done.
    + simpl. by rewrite app_nil_r.
    + intros e X. apply elem_of_list_singleton in X as ->. done.
    + cbn. constructor. constructor.
    + intros m Hm.
      assert (Ek : bi s a (okey o) = idx) by done.
      assert (Fk : m (okey o) = find (okey o) l).
      { destruct (find (okey o) l) as [v|] eqn:F.
        - apply Hm. exists a, idx. apply Here. by apply find_in.
        - destruct (m (okey o)) as [v|] eqn:Em; [|done]. exfalso. apply Hm in Em as (x & i & X).
          destruct (right_place s t _ a idx x i _ v I A Ek X) as [-> ->]. apply Here in X. by eapply find_none. }
      exists (fun k => if decide (k = okey o) then (answer o (m (okey o))).1 else m k). split.
      * econstructor; [|constructor]. right. split; [|split].
        -- rewrite crit_res, Fk. done.
        -- by rewrite decide_True.
        -- intros k N. by rewrite decide_False.
      * intros k v. rewrite Fk. split.
        -- destruct (decide (k = okey o)) as [->|N].
           ++ intros X. exists a, idx. unfold stored_at. rewrite Eb, decide_True by done. apply crit_in; auto.
           ++ intros X. apply Hm in X as (x & i & X). exists x, i. unfold stored_at. rewrite Eb.
              destruct (decide _) as [[-> ->]|]; [|done]. apply crit_in; auto.
        -- intros (x & i & X). unfold stored_at in X. rewrite Eb in X. destruct (decide (x = a /\ i = idx)) as [[-> ->]|Nx].
           ++ apply crit_in in X; [|done]. destruct X as [[N X]|[-> X]].
              ** rewrite decide_False by done. apply Hm. by exists a, idx.
              ** by rewrite decide_True.
           ++ destruct (decide (k = okey o)) as [->|N].
              ** exfalso. apply Nx. by eapply right_place.
              ** apply Hm. by exists x, i.
  - injection E as <-. set (s' := set_pc t _ _).
    assert (Eb : forall y i, es (bks s' y i) = if decide (y = a /\ i = idx) then visit f l else es (bks s y i)).
    { intros y i. simpl. by destruct (decide _). }
    destruct f as [f|].
    + eapply (lin_step t _ _ s s' [HVisit t f]); [done|done|reflexivity|simpl; by rewrite app_nil_r|..].
      * intros e X. apply elem_of_list_singleton in X as ->. done.
      * cbn. constructor. constructor.
      * intros m Hm. exists (fun k => match find k l with Some v => f k v | None => m k end).
        assert (Fm : forall k v, find k l = Some v -> m k = Some v).
        { intros k v F. apply Hm. exists a, idx. apply Here. by apply find_in. }
        split.
        -- econstructor; [|constructor]. intros k. cbn beta. destruct (find k l) as [v|] eqn:F; [|by left]. right.
           by rewrite (Fm _ _ F).
        -- intros k v. split.
           ++ destruct (find k l) as [v0|] eqn:F.
              ** intros X. exists a, idx. unfold stored_at. rewrite Eb, decide_True by done. apply visit_in.
                 exists v0. split; [by apply find_in|done].
              ** intros X. apply Hm in X as (x & i & X). exists x, i. unfold stored_at. rewrite Eb.
                 destruct (decide _) as [[-> ->]|]; [|done]. exfalso. by eapply find_none.
           ++ intros (x & i & X). unfold stored_at in X. rewrite Eb in X. destruct (decide (x = a /\ i = idx)) as [[-> ->]|Nx].
              ** apply visit_in in X as (v0 & X & Fv). by rewrite (in_find _ _ _ ND X).
              ** destruct (find k l) as [v0|] eqn:F; [|apply Hm; by exists x, i].
                 exfalso. apply Nx. apply find_in in F. destruct (one_place s x i a idx k v v0 I X F) as (-> & -> & _). done.
    + eapply (lin_same t _ _ s s'); [done|done|reflexivity|done|done|]. apply stored_es.
      intros x i. rewrite Eb. by destruct (decide _) as [[-> ->]|].
Qed.

Lemma phase_resume (k : kont K V) : phase_of (resume k) = match k with KAccess j _ _ => PCalled (jcall j) | KRet j r => dphase j r end.
Proof. by destruct k. Qed.
Lemma phase_next_rehash s j a o prev i : phase_of (next_rehash s j a o prev i) = PCalled (jcall j).
Proof. unfold next_rehash. by case_match. Qed.
Lemma phase_next_dedup s j a o i hi : phase_of (next_dedup hash s j a o i hi) = PCalled (jcall j).
Proof. unfold next_dedup. by case_match. Qed.
Lemma phase_relocated s c a o i : phase_of (relocated hash s c a o i) = PCalled (jcall (cont_job c)).
Proof. destruct c; [apply phase_next_rehash|apply phase_next_dedup]. Qed.
Lemma phase_loaded s j a : phase_of (loaded s j a) = PCalled (jcall j).
Proof. destruct j; [done| |done]. unfold loaded. by repeat case_match. Qed.
Lemma phase_unlocked s j a r : phase_of (unlocked s j a r) = dphase j r.
Proof. destruct j; [done| |done]. unfold unlocked. by case_match. Qed.

Theorem step_lin t c s s' : inv s -> lin s -> step hash t c s = Some s' -> lin s'.
Proof.
  intros I L E. assert (X : exists p, at_pc s t p).
  { unfold step in E. unfold at_pc. destruct (pcs s !! t) as [p|]; [eauto|discriminate]. }
  destruct X as (p & A). pose proof (step_inv hash hash64 t c s s' I E) as I'.
  assert (NC : ~ at_pc s' t Crash) by (intros Y; exact (i_pc _ _ I' _ _ Y)).
  assert (Same : forall p', moves t p' s s' -> trace s' = trace s -> phase_of p' = phase_of p ->
     (forall x i, es (bks s' x i) = es (bks s x i)) -> lin s').
  { intros p' M Tr Ph Es. eapply (lin_same t p p' s s'); try done. by apply stored_es. }
  assert (Lock : forall x i p1 q1, lock_excl t s x i p1 q1 = Some s' -> phase_of p1 = phase_of p -> phase_of q1 = phase_of p -> lin s').
  { intros x i p1 q1 Q P1 P2. apply lock_excl_inv in Q as (p' & D & M & Tr & Es). apply (Same p'); try done.
    destruct D as [->|[->| ->]]; try done. exfalso. apply NC. by eapply at_self. }
  assert (LockS : forall x i p1 q1, lock_shared t s x i p1 q1 = Some s' -> phase_of p1 = phase_of p -> phase_of q1 = phase_of p -> lin s').
  { intros x i p1 q1 Q P1 P2. apply lock_shared_inv in Q as (p' & D & M & Tr & Es). apply (Same p'); try done.
    destruct D as [->|[->| ->]]; try done. exfalso. apply NC. by eapply at_self. }
  pose proof (i_pc _ _ I _ _ A) as P. pose proof E as E0. pose proof A as A'. unfold at_pc in A'.
  unfold step in E. rewrite A' in E.
  destruct p.
  - (* Idle *) destruct c; try discriminate. injection E as <-.
    eapply (lin_ev t Idle _ s _ (HCall t c)); [done|done|reflexivity|done|done| |done|].
    + destruct c; cbn; constructor; constructor.
    + intros m _. constructor. constructor.
  - (* Load *)
    destruct c as [| | |n| | | | |]; try (destruct j; discriminate).
    + assert (E1 : Some s' = match cur s with
        | Some a => Some (set_pc t (loaded s j a) s)
        | None => match j with JOp o => if creates o then None else Some (set_pc t (Done j (absent o)) s)
          | JScan _ _ _ seen => Some (set_pc t (Done j (RSeen seen)) s) | JResize => Some (set_pc t (Done j RUnit) s) end end)
        by (destruct j; done).
      clear E. destruct (cur s) as [a|] eqn:C.
      * injection E1 as ->. eapply Same; try done. apply phase_loaded.
      * destruct j as [o| |]; [destruct (creates o) eqn:Cr; [discriminate|]| |]; injection E1 as ->; try (eapply Same; done).
        eapply (lin_ev t _ (Done (JOp o) (absent o)) s _ (HLin t o (absent o))); try done.
        -- simpl. by rewrite app_nil_r.
        -- cbn. constructor. constructor.
        -- intros m Hm.
           assert (N : forall k, m k = None).
           { intros k. destruct (m k) as [v|] eqn:Em; [|done]. exfalso. apply Hm in Em as (x & i & X).
             apply (i_live _ _ (i_shape _ _ I)) in X as [X|(c & X & _)]; congruence. }
           econstructor; [|constructor]. right. rewrite N. by destruct o.
    + destruct j as [o| |]; try discriminate. destruct (cur s) as [a|] eqn:C; [discriminate|].
      destruct (creates o); [|discriminate].
      destruct (CapModel.arr_new n) as [z|] eqn:Z; injection E as <-; [by eapply Same|].
      exfalso. apply NC. by eapply at_self.
  - (* Linked *) destruct c; try discriminate. destruct (link (arr s a)); injection E as <-; by eapply Same.
  - (* Relink *) destruct c; try discriminate. destruct (link (arr s a)); injection E as <-; by eapply Same.
  - (* Claim *) destruct c; try discriminate. destruct (claim _ _) as [[prev w]|]; injection E as <-; eapply Same; try done.
    apply phase_next_rehash.
  - (* Rehash *) destruct c; try discriminate.
    + eapply Lock; [done|done|]. apply phase_next_rehash.
    + injection E as <-. by eapply Same.
    + injection E as <-. by eapply (lin_cxl t _ (EndFail j a o prev true)).
  - (* EndOk *) destruct c; try discriminate. destruct (_ =? 0).
    + injection E as <-. exfalso. apply NC. by eapply at_self.
    + destruct (_ && _); injection E as <-; by eapply Same.
  - (* Detach *) destruct c; try discriminate. injection E as <-. by eapply Same.
  - (* EndFail *) destruct c; try discriminate. destruct (_ =? 0).
    + injection E as <-. exfalso. apply NC. by eapply at_self.
    + injection E as <-. eapply Same; try done. by destruct cx.
  - (* Dedup *) destruct c; try discriminate.
    + eapply Lock; [done|done|]. apply phase_next_dedup.
    + injection E as <-. by eapply (lin_busy t _ s _ j).
    + injection E as <-. by eapply (lin_cxl t _ Idle).
    + injection E as <-. by eapply Same.
    + destruct (link (arr s a)); [discriminate|]. injection E as <-. by eapply Same.
  - (* OldLocked *) destruct c; try discriminate. destruct (es (bks s o i)); injection E as <-; by eapply Same.
  - (* TLock *) destruct c; try (destruct w; discriminate).
    + destruct P as (_ & _ & _ & Ln & _). destruct w.
      * destruct (n <? hi); [|injection E as <-; by eapply Same].
        destruct (n <? alen s a); [|injection E as <-; exfalso; apply NC; by eapply at_self].
        destruct (lk (bks s a n)); try discriminate; injection E as <-;
          [|exfalso; apply NC; by eapply at_self].
        eapply Same; [reflexivity|done| |apply es_set]. by case_match.
      * destruct (n <? hi); [|injection E as <-; by eapply Same].
        destruct (n <? alen s a); [|injection E as <-; exfalso; apply NC; by eapply at_self].
        destruct (lk (bks s a n)); try discriminate; injection E as <-; try (by eapply Same);
          [|exfalso; apply NC; by eapply at_self].
        eapply Same; [reflexivity|done| |apply es_set]. by case_match.
    + assert (Es : s' = set_pc t (TBack c0 a o i lo n) s) by (destruct w; congruence). subst s'. by eapply Same.
    + destruct w; [|discriminate]. injection E as <-.
      eapply (lin_cxl t _ (gave_up c0 a o true)); [done|done|reflexivity|done|done|by destruct c0|].
      apply stored_es, es_set.
  - (* TBack *) destruct c; try discriminate. destruct (m <? n); injection E as <-; [|by eapply Same].
    eapply Same; [reflexivity|done|done|apply es_set].
  - (* TDrop *) destruct c; try discriminate. injection E as <-. destruct c0 as [j prev|j hi].
    + eapply Same; [reflexivity|done|done|apply es_set].
    + eapply (lin_busy t _ s _ j); [done|done|reflexivity|done|done|]. apply stored_es, es_set.
  - (* TMove *) destruct c; try discriminate. injection E as <-. destruct P as (C & -> & ->).
    destruct (reloc_link hash hash64 _ _ _ _ _ _ _ I A ltac:(cbn; auto) C) as (Lk & Cu & B & Li).
    eapply (lin_same t _ _ s); [done|done|reflexivity|done|done|].
    intros k v. split.
    + intros (x & i' & X). apply (move_in hash hash64 s a o i x i' k v I Lk) in X as [[X _]|(_ & _ & X)]; eexists _, _; done.
    + intros (x & i' & X). destruct (decide (x = o /\ i' = i)) as [[-> ->]|N].
      * exists a, (bi s a k). apply (move_in hash hash64 s a o i a (bi s a k) k v I Lk). right. done.
      * exists x, i'. apply (move_in hash hash64 s a o i x i' k v I Lk). left. done.
  - (* TUnlock *) destruct c; try discriminate. destruct (m <? hi); injection E as <-; [|by eapply Same].
    eapply Same; [reflexivity|done|done|apply es_set].
  - (* TKill *) destruct c; try discriminate. injection E as <-. destruct P as [_ P].
    eapply Same; [reflexivity|done|apply phase_relocated|by apply es_kill].
  - (* Access *) destruct c; try discriminate.
    + destruct (shared j); [by eapply LockS|by eapply Lock].
    + injection E as <-. by eapply Same.
    + injection E as <-. by eapply (lin_busy t _ s _ j).
    + injection E as <-. by eapply (lin_cxl t _ Idle).
  - (* Crit *) exact (lin_crit t c s s' j a idx I L A E0).
  - (* Out *) destruct c; try (destruct j; discriminate).
    + assert (Es : s' = set_pc t (unlocked s j a r) (release t a idx s)) by (destruct j; congruence). subst s'.
      eapply Same; [reflexivity|done|apply phase_unlocked|apply es_set].
    + destruct j as [|f st pr se|]; [discriminate| |discriminate]. injection E as <-.
      eapply Same; [reflexivity|done|done|apply es_set].
  - (* Done *) destruct c; try discriminate.
    + injection E as <-. eapply (lin_ev t _ Idle s _ (HRet t r)); [done|done|reflexivity|done|done| |done|].
      * destruct j; cbn; constructor; try done; constructor.
      * intros m _. constructor. constructor.
    + destruct (cur s) as [a|]; [|discriminate]. injection E as <-. by eapply Same.
  - (* RzCheck *) destruct c; try discriminate. destruct (cur s) as [c|]; [destruct (decide _)|]; injection E as <-;
      (eapply Same; try done; by rewrite ?phase_resume).
  - (* RzLink *) destruct c; try discriminate. destruct (link _); injection E as <-; (eapply Same; try done; by rewrite ?phase_resume).
  - (* RzLock *) destruct c; try discriminate. destruct (rsz s); injection E as <-; (eapply Same; try done; by rewrite ?phase_resume).
  - (* RzIn *) destruct c; try discriminate. destruct (decide _); injection E as <-; by eapply Same.
  - (* RzDo *) destruct c as [| | |n| | | | |]; try discriminate.
    + injection E as <-. by eapply Same.
    + destruct (CapModel.arr_new n); injection E as <-; [by eapply Same|]. exfalso. apply NC. by eapply at_self.
    + injection E as <-. by eapply Same.
  - (* DLock *) destruct c; try discriminate. destruct (n <? alen s s0).
    + destruct (lk (bks s s0 n)); [destruct (es (bks s s0 n)) eqn:Ee|..]; injection E as <-; try (by eapply Same).
      eapply Same; [reflexivity|done|done|]. rewrite <- Ee. apply es_set.
    + injection E as <-. by eapply Same.
  - (* DSwap *) destruct c; try discriminate. injection E as <-. by eapply Same.
  - (* DUnlock *) destruct c; try discriminate. destruct (N.ltb_spec n hi); injection E as <-; [|by eapply Same].
    destruct P as (_ & _ & _ & _ & P). destruct ok.
    + eapply Same; [reflexivity|done|done|]. apply es_kill. apply P; [done|lia].
    + eapply Same; [reflexivity|done|done|apply es_set].
  - (* RzOut *) destruct c; try discriminate. injection E as <-. eapply Same; try done. by rewrite phase_resume.
  - (* Crash *) destruct P.
Qed.
Lemma run_lin l s s' : inv s -> lin s -> run hash l s = Some s' -> lin s'.
Proof.
  revert s. induction l as [|[t c] l IH]; intros s I L E; cbn in E; [by injection E as <-|].
  destruct (step hash t c s) as [s1|] eqn:E1; [|discriminate].
  eapply IH; [by eapply (step_inv hash)|by eapply step_lin|done].
Qed.
End lin.
