(** Preservation of the parts of the invariant by the kinds of steps. *)
From Coq Require Import NArith Lia.
From stdpp Require Import prelude list numbers.
From Verif Require CapModel CapSpec CapFacts.
From Verif Require Import CtModel CtSpec CtInv.
Local Open Scope N_scope.

Section step.
Context {K V : Type} `{EqDecision K} (hash : K -> N).
Hypothesis hash64 : forall k, hash k < 2 ^ 64.
Notation state := (state K V). Notation pc := (pc K V). Notation job := (job K V).
Implicit Types (s : state) (p q : pc) (j : job) (x y a o : nat) (i n : N) (t u : nat).
Notation inv := (inv hash). Notation shape := (shape hash). Notation pc_ok := (pc_ok hash).

(** ** Threads *)
Definition moves t p' s s' : Prop := pcs s' = <[t := p']> (pcs s).
Lemma at_self s s' t p p' : at_pc s t p -> moves t p' s s' -> at_pc s' t p'.
Proof. intros A M. unfold at_pc. rewrite M. apply list_lookup_insert. by eapply lookup_lt_Some. Qed.
Lemma at_other s s' t p' u q : moves t p' s s' -> u <> t -> at_pc s u q -> at_pc s' u q.
Proof. intros M N A. unfold at_pc. rewrite M, list_lookup_insert_ne; done. Qed.
Lemma at_inv s s' t p p' u q : at_pc s t p -> moves t p' s s' -> at_pc s' u q ->
  (u = t /\ q = p') \/ (u <> t /\ at_pc s u q).
Proof.
  intros A M B. unfold at_pc in *. rewrite M in B. destruct (decide (u = t)) as [->|N].
  - rewrite list_lookup_insert in B by (by eapply lookup_lt_Some). left. split; congruence.
  - rewrite list_lookup_insert_ne in B by done. auto.
Qed.

(** ** Locks *)
Inductive ltrans t p p' x i : lock -> lock -> Prop :=
| lt_same l : (holds p x i <-> holds p' x i) -> (reads p x i <-> reads p' x i) -> ltrans t p p' x i l l
| lt_excl : ~ reads p' x i -> holds p' x i -> ltrans t p p' x i LFree (LExcl t)
| lt_free l : ~ reads p' x i -> ~ holds p' x i -> l = LFree \/ l = LDead -> ltrans t p p' x i (LExcl t) l
| lt_read1 : reads p' x i -> ~ holds p' x i -> ltrans t p p' x i LFree (LRead [t])
| lt_read ts : ~ reads p x i -> reads p' x i -> ~ holds p' x i -> ltrans t p p' x i (LRead ts) (LRead (t :: ts))
| lt_unread ts : ~ reads p' x i -> ~ holds p' x i -> ltrans t p p' x i (LRead ts) (unlock t (LRead ts)).

Lemma unlock_read t ts : NoDup ts ->
  (unlock t (LRead ts) = LFree /\ forall u, u ∈ ts -> u = t) \/
  exists us, unlock t (LRead ts) = LRead us /\ us <> [] /\ NoDup us /\ forall u, u ∈ us <-> u ∈ ts /\ u <> t.
Proof.
  intros ND. unfold unlock.
  assert (E : forall u, u ∈ List.filter (fun u => negb (u =? t)%nat) ts <-> u ∈ ts /\ u <> t).
  { intros u. rewrite !elem_of_list_In, filter_In. rewrite negb_true_iff, Nat.eqb_neq. done. }
  destruct (List.filter _ ts) as [|u0 us0] eqn:F.
  - left. split; [done|]. intros u U. destruct (decide (u = t)) as [|N]; [done|].
    assert (X : u ∈ @nil nat) by (apply E; done). by apply elem_of_nil in X.
  - right. exists (u0 :: us0). split; [done|]. split; [done|]. split; [|done].
    rewrite <- F. apply NoDup_ListNoDup, List.NoDup_filter, NoDup_ListNoDup. done.
Qed.

Lemma locks_step s s' t p p' : locks s -> at_pc s t p -> moves t p' s s' ->
  (forall x i, ltrans t p p' x i (lk (bks s x i)) (lk (bks s' x i))) -> locks s'.
Proof.
  intros L A M T. split.
  - intros u q x i B HH. destruct (at_inv _ _ _ _ _ _ _ A M B) as [[-> ->]|[N B']].
    + specialize (T x i). remember (lk (bks s x i)) as l eqn:El. remember (lk (bks s' x i)) as l' eqn:El'.
      destruct T as [l Hh Hr|Hr Hh|l Hr Hh Hl|Hr Hh|ts Hn Hr Hh|ts Hr Hh]; try done.
      rewrite El. eapply i_holds; [done|done|]. by apply Hh.
    + pose proof (i_holds _ L _ _ _ _ B' HH) as E. specialize (T x i). rewrite E in T.
      inversion T; subst; try congruence.
  - intros u x i E. specialize (T x i). rewrite E in T.
    remember (lk (bks s x i)) as l eqn:El. remember (LExcl u) as l' eqn:El'.
    destruct T as [l Hh Hr|Hr Hh|l Hr Hh Hl|Hr Hh|ts Hn Hr Hh|ts Hr Hh]; try done.
    + subst l. destruct (i_holder _ L u x i ltac:(congruence)) as (q & B & HH).
      destruct (decide (u = t)) as [->|N].
      * exists p'. split; [by eapply at_self|]. unfold at_pc in *. replace p with q in Hh by congruence. by apply Hh.
      * exists q. split; [by eapply at_other|done].
    + injection El' as ->. exists p'. split; [by eapply at_self|done].
    + destruct Hl; congruence.
    + exfalso. destruct (unlock_read t ts) as [[X _]|(us & X & _)]; [|congruence|congruence].
      destruct (i_reader _ L ts x i ltac:(congruence)) as (_ & ND & _). done.
  - intros u q x i B HH. destruct (at_inv _ _ _ _ _ _ _ A M B) as [[-> ->]|[N B']].
    + specialize (T x i). remember (lk (bks s x i)) as l eqn:El. remember (lk (bks s' x i)) as l' eqn:El'.
      destruct T as [l Hh Hr|Hr Hh|l Hr Hh Hl|Hr Hh|ts Hn Hr Hh|ts Hr Hh]; try done.
      * rewrite El. eapply i_reads; [done|done|]. by apply Hr.
      * exists [t]. split; [done|]. by apply elem_of_list_singleton.
      * exists (t :: ts). split; [done|]. left.
    + destruct (i_reads _ L _ _ _ _ B' HH) as (ts & E & I). specialize (T x i). rewrite E in T.
      inversion T; subst; try congruence.
      * eauto.
      * exists (t :: ts). split; [done|]. by right.
      * destruct (i_reader _ L ts x i E) as (_ & ND & _).
        destruct (unlock_read t ts ND) as [[X Y]|(us & X & _ & _ & Y)].
        -- exfalso. apply N, Y, I.
        -- exists us. split; [exact X|]. by apply Y.
  - intros us x i E. specialize (T x i). rewrite E in T.
    remember (lk (bks s x i)) as l eqn:El. remember (LRead us) as l' eqn:El'.
    destruct T as [l Hh Hr|Hr Hh|l Hr Hh Hl|Hr Hh|ts Hn Hr Hh|ts Hr Hh]; try done.
    + subst l. destruct (i_reader _ L us x i ltac:(congruence)) as (NE & ND & HH). do 2 (split; [done|]).
      intros u U. destruct (HH u U) as (q & B & R). destruct (decide (u = t)) as [->|N].
      * exists p'. split; [by eapply at_self|]. unfold at_pc in *. replace p with q in Hr by congruence. by apply Hr.
      * exists q. split; [by eapply at_other|done].
    + destruct Hl; congruence.
    + injection El' as <-. split; [done|]. split; [apply NoDup_singleton|].
      intros u U%elem_of_list_singleton. subst u. exists p'. split; [by eapply at_self|done].
    + injection El' as <-. destruct (i_reader _ L ts x i ltac:(congruence)) as (NE & ND & HH). split; [done|].
      split.
      * apply NoDup_cons_2; [|done]. intros U. destruct (HH t U) as (q & B & R).
        unfold at_pc in *. replace p with q in Hn by congruence. done.
      * intros u U. apply elem_of_cons in U as [->|U]; [exists p'; split; [by eapply at_self|done]|].
        destruct (HH u U) as (q & B & R). destruct (decide (u = t)) as [->|N].
        -- exists p'. split; [by eapply at_self|done].
        -- exists q. split; [by eapply at_other|done].
    + destruct (i_reader _ L ts x i ltac:(congruence)) as (NE & ND & HH).
      destruct (unlock_read t ts ND) as [[X Y]|(us' & X & NE' & ND' & Y)]; [congruence|].
      assert (us' = us) as -> by congruence. do 2 (split; [done|]). intros u U. apply Y in U as [U N].
      destruct (HH u U) as (q & B & R). exists q. split; [by eapply at_other|done].
Qed.

(** ** RESIZING *)
Lemma resz_step s s' t p p' : resz s -> at_pc s t p -> moves t p' s s' ->
  (resizing p' = true -> rsz s' = true /\ (resizing p = true \/ rsz s = false)) ->
  (forall u q, u <> t -> at_pc s u q -> resizing q = true -> rsz s' = true) -> resz s'.
Proof.
  intros R A M H1 H2. split.
  - intros u q B Q. destruct (at_inv _ _ _ _ _ _ _ A M B) as [[-> ->]|[N B']]; [by apply H1|eauto].
  - intros u w q r B C Q1 Q2.
    destruct (at_inv _ _ _ _ _ _ _ A M B) as [[-> ->]|[N B']];
    destruct (at_inv _ _ _ _ _ _ _ A M C) as [[-> ->]|[N' C']]; try done.
    + destruct (H1 Q1) as [_ [X|X]]; [by eapply (i_rsz1 _ R)|]. pose proof (i_rsz _ R _ _ C' Q2). congruence.
    + destruct (H1 Q2) as [_ [X|X]]; [by eapply (i_rsz1 _ R)|]. pose proof (i_rsz _ R _ _ B' Q1). congruence.
    + by eapply (i_rsz1 _ R).
Qed.

(** ** Words *)
Lemma filter_insert_len (f : pc -> bool) (l : list pc) t p p' : l !! t = Some p ->
  (length (List.filter f (<[t := p']> l)) + (if f p then 1 else 0) =
   length (List.filter f l) + (if f p' then 1 else 0))%nat.
Proof.
  revert t. induction l as [|q l IH]; intros [|t] E; try done; simpl in *.
  - injection E as ->. destruct (f p), (f p'); simpl; lia.
  - specialize (IH t E). destruct (f q); simpl; lia.
Qed.
Lemma nclaims_step s s' t p p' o : at_pc s t p -> moves t p' s s' ->
  (nclaims s' o + (if claims_b o p then 1 else 0) = nclaims s o + (if claims_b o p' then 1 else 0))%nat.
Proof. intros A M. unfold nclaims. rewrite M. by apply filter_insert_len. Qed.
Lemma nclaims_same s s' t p p' o : at_pc s t p -> moves t p' s s' -> claims p' = claims p -> nclaims s' o = nclaims s o.
Proof. intros A M E. pose proof (nclaims_step _ _ _ _ _ o A M) as X. unfold claims_b in X. rewrite E in X. lia. Qed.

Lemma words_same s s' t p p' : words s -> at_pc s t p -> moves t p' s s' -> mono s s' -> nxt s' = nxt s ->
  (forall o, word (arr s' o) = word (arr s o)) -> claims p' = claims p -> words s'.
Proof.
  intros W A M Mo Nx We C o O. rewrite Nx in O. rewrite We, (nclaims_same _ _ _ _ _ _ A M C).
  destruct (W o O) as (W1 & W2 & W3). do 2 (split; [done|]). rewrite (alen_mono _ _ _ Mo O).
  intros i I J. destruct (W3 i I J) as [D|(u & q & prev & B & Q)]; [left; by apply (m_dead _ _ Mo)|].
  right. destruct (decide (u = t)) as [->|N].
  - exists t, p', prev. split; [by eapply at_self|]. rewrite C. unfold at_pc in *. replace p with q by congruence. done.
  - exists u, q, prev. split; [by eapply at_other|done].
Qed.
(** ** Putting the parts together *)
Lemma link_lt s : shape s -> forall x o, link (arr s x) = Some o -> (o < x)%nat.
Proof. intros S x o E. destruct (i_link _ _ S x o E). lia. Qed.
Lemma inv_step s s' t p p' : inv s -> at_pc s t p -> moves t p' s s' -> mono s s' -> shape s' ->
  (forall x i, ltrans t p p' x i (lk (bks s x i)) (lk (bks s' x i))) -> words s' ->
  (resizing p' = true -> rsz s' = true /\ (resizing p = true \/ rsz s = false)) ->
  (rsz s' = rsz s \/ resizing p = true \/ rsz s = false) ->
  (forall x i, es (bks s' x i) = es (bks s x i) \/ lk (bks s x i) = LExcl t) ->
  (cur s' = cur s \/ resizing p = true \/ cur s = None) ->
  pc_ok s' p' -> inv s'.
Proof.
  intros I A M Mo Sh Lt W R1 R2 E C P. split; [done| |done| |].
  - eapply locks_step; [apply (i_locks _ _ I)|done|done|done].
  - eapply resz_step; [apply (i_resz _ _ I)|done|done|done|].
    intros u q N B Q. pose proof (i_rsz _ (i_resz _ _ I) _ _ B Q) as X.
    destruct R2 as [R2|[R2|R2]]; [congruence| |congruence].
    exfalso. apply N. by eapply (i_rsz1 _ (i_resz _ _ I)).
  - intros u q B. destruct (at_inv _ _ _ _ _ _ _ A M B) as [[-> ->]|[N B']]; [done|].
    pose proof (i_pc _ _ I _ _ B') as Q. eapply pc_stable; [|done| | |done].
    + apply link_lt, (i_shape _ _ I).
    + intros x i Hh. destruct (E x i) as [|X]; [done|].
      pose proof (i_holds _ (i_locks _ _ I) _ _ _ _ B' Hh). congruence.
    + intros D. destruct C as [|[C|C]]; [done| |].
      * exfalso. apply N. eapply (i_rsz1 _ (i_resz _ _ I)); [done|done| |done]. by destruct q.
      * destruct q; try done; cbn [CtInv.pc_ok] in Q.
        -- destruct Q as (_ & _ & _ & Q). congruence.
        -- destruct Q as (_ & _ & _ & Q & _). congruence.
        -- destruct Q as (_ & _ & _ & Q & _). congruence.
Qed.

(** A step that changes locks, rehashing words and the thread only. *)
Record quiet t p p' s s' : Prop := {
  q_at : at_pc s t p; q_moves : moves t p' s s';
  q_nxt : nxt s' = nxt s; q_sz : forall x, sz (arr s' x) = sz (arr s x);
  q_link : forall x, link (arr s' x) = link (arr s x);
  q_cur : cur s' = cur s;
  q_es : forall x i, es (bks s' x i) = es (bks s x i);
  q_far : forall x i, (nxt s <= x)%nat -> bks s' x i = bks s x i;
  q_dead : forall x i, dead s x i -> dead s' x i;
  q_new : forall x i, dead s' x i -> dead s x i \/ (cur s <> Some x /\ es (bks s x i) = []);
  q_moved : forall x i, moved p x i -> moved p' x i \/ dead s' x i;
  q_dropping : forall x i, dropping p x i -> dropping p' x i \/ dead s' x i }.
Lemma quiet_alen t p p' s s' x : quiet t p p' s s' -> alen s' x = alen s x.
Proof. intros Q. unfold alen. by rewrite (q_sz _ _ _ _ _ Q). Qed.
Lemma quiet_live t p p' s s' x : quiet t p p' s s' -> live s' x <-> live s x.
Proof.
  intros Q. unfold live. rewrite (q_cur _ _ _ _ _ Q). split; (intros [X|(c & X & Y)]; [by left|right; exists c]).
  - by rewrite (q_link _ _ _ _ _ Q) in Y.
  - by rewrite (q_link _ _ _ _ _ Q).
Qed.
Lemma quiet_mono t p p' s s' : quiet t p p' s s' -> mono s s'.
Proof.
  intros Q. split.
  - rewrite (q_nxt _ _ _ _ _ Q). lia.
  - intros x _. apply (q_sz _ _ _ _ _ Q).
  - apply (q_dead _ _ _ _ _ Q).
  - intros x _. left. apply (q_link _ _ _ _ _ Q).
  - intros x _. apply (quiet_live _ _ _ _ _ _ Q).
Qed.
Lemma quiet_shape t p p' s s' : shape s -> quiet t p p' s s' -> shape s'.
Proof.
  intros S Q. pose proof (quiet_mono _ _ _ _ _ Q) as Mo.
  assert (B : forall x k, bi hash s' x k = bi hash s x k) by (intros; unfold bi; by rewrite (q_sz _ _ _ _ _ Q)).
  assert (St : forall x i k v, stored_at s' x i k v <-> stored_at s x i k v)
    by (intros; unfold stored_at; by rewrite (q_es _ _ _ _ _ Q)).
  split.
  - rewrite (q_nxt _ _ _ _ _ Q), (q_cur _ _ _ _ _ Q). apply (i_cur _ _ S).
  - intros x. rewrite (q_nxt _ _ _ _ _ Q), (q_sz _ _ _ _ _ Q). apply (i_sz _ _ S).
  - intros x o. rewrite (q_nxt _ _ _ _ _ Q), (q_cur _ _ _ _ _ Q), (q_link _ _ _ _ _ Q). apply (i_link _ _ S).
  - intros x i. rewrite (q_nxt _ _ _ _ _ Q). intros X. rewrite (q_far _ _ _ _ _ Q) by done. by apply (i_fresh _ _ S).
  - intros x i D. rewrite (q_es _ _ _ _ _ Q). destruct (q_new _ _ _ _ _ Q _ _ D) as [|[_ ?]]; [by apply (i_dead _ _ S)|done].
  - intros c i. rewrite (q_cur _ _ _ _ _ Q). intros C D. destruct (q_new _ _ _ _ _ Q _ _ D) as [X|[X _]]; [|done].
    by eapply (i_curlive _ _ S).
  - intros x i k v. rewrite St, B. apply (i_idx _ _ S).
  - intros x i. rewrite (q_es _ _ _ _ _ Q). apply (i_nd _ _ S).
  - intros x i k v. rewrite St, (quiet_live _ _ _ _ _ _ Q). apply (i_live _ _ S).
  - intros a o i k v. rewrite (q_link _ _ _ _ _ Q), St, B, (q_es _ _ _ _ _ Q). intros L X.
    destruct (i_excl _ _ S _ _ _ _ _ L X) as [Y Z]. split; [done|].
    destruct Z as [Z|(u & q & A & Z)]; [left; by apply (q_dead _ _ _ _ _ Q)|].
    destruct (decide (u = t)) as [->|N].
    + assert (q = p) as -> by (pose proof (q_at _ _ _ _ _ Q); unfold at_pc in *; congruence).
      destruct (q_moved _ _ _ _ _ Q _ _ Z); [|by left]. right. exists t, p'. split; [|done].
      eapply at_self; [apply (q_at _ _ _ _ _ Q)|apply (q_moves _ _ _ _ _ Q)].
    + right. exists u, q. split; [|done]. eapply at_other; [apply (q_moves _ _ _ _ _ Q)|done|done].
  - intros x i. rewrite (q_nxt _ _ _ _ _ Q), (quiet_alen _ _ _ _ _ _ Q), (quiet_live _ _ _ _ _ _ Q). intros X Y Z.
    destruct (i_gone _ _ S x i X Y Z) as [D|(u & q & A & D)]; [left; by apply (q_dead _ _ _ _ _ Q)|].
    destruct (decide (u = t)) as [->|N].
    + assert (q = p) as -> by (pose proof (q_at _ _ _ _ _ Q); unfold at_pc in *; congruence).
      destruct (q_dropping _ _ _ _ _ Q _ _ D); [|by left]. right. exists t, p'. split; [|done].
      eapply at_self; [apply (q_at _ _ _ _ _ Q)|apply (q_moves _ _ _ _ _ Q)].
    + right. exists u, q. split; [|done]. eapply at_other; [apply (q_moves _ _ _ _ _ Q)|done|done].
Qed.
Lemma quiet_inv t p p' s s' : inv s -> quiet t p p' s s' ->
  (forall x i, ltrans t p p' x i (lk (bks s x i)) (lk (bks s' x i))) -> words s' ->
  (resizing p' = true -> rsz s' = true /\ (resizing p = true \/ rsz s = false)) ->
  (rsz s' = rsz s \/ resizing p = true \/ rsz s = false) ->
  pc_ok s' p' -> inv s'.
Proof.
  intros I Q L W R1 R2 P. eapply (inv_step s s' t p p').
  - done.
  - apply (q_at _ _ _ _ _ Q).
  - apply (q_moves _ _ _ _ _ Q).
  - by eapply quiet_mono.
  - eapply quiet_shape; [apply (i_shape _ _ I)|done].
  - done.
  - done.
  - done.
  - done.
  - intros x i. left. apply (q_es _ _ _ _ _ Q).
  - left. apply (q_cur _ _ _ _ _ Q).
  - done.
Qed.
(** The same for steps that do not touch rehashing words. *)
Lemma quiet_inv_w t p p' s s' : inv s -> quiet t p p' s s' ->
  (forall x i, ltrans t p p' x i (lk (bks s x i)) (lk (bks s' x i))) ->
  (forall o, word (arr s' o) = word (arr s o)) -> claims p' = claims p ->
  rsz s' = rsz s -> resizing p' = resizing p ->
  pc_ok s' p' -> inv s'.
Proof.
  intros I Q L W C R R' P. eapply quiet_inv; [done|done|done| | | |done].
  - eapply words_same; [apply (i_words _ _ I)|apply (q_at _ _ _ _ _ Q)|apply (q_moves _ _ _ _ _ Q)
      |by eapply quiet_mono|apply (q_nxt _ _ _ _ _ Q)|done|done].
  - intros X. rewrite R, <- R'. split; [|by left]. eapply (i_rsz _ (i_resz _ _ I)); [apply (q_at _ _ _ _ _ Q)|]. congruence.
  - by left.
Qed.

(** ** Kinds of steps *)
(** Only the thread moves on. *)
Lemma step_pc t p p' s s' : inv s -> at_pc s t p ->
  arr s' = arr s -> nxt s' = nxt s -> bks s' = bks s -> cur s' = cur s -> rsz s' = rsz s -> moves t p' s s' ->
  (forall x i, holds p x i <-> holds p' x i) -> (forall x i, reads p x i <-> reads p' x i) ->
  claims p' = claims p -> resizing p' = resizing p ->
  (forall x i, moved p x i -> moved p' x i) -> (forall x i, dropping p x i -> dropping p' x i) ->
  pc_ok s' p' -> inv s'.
Proof.
  intros I A Ea En Eb Ec Er M Hh Hr Hc Hz Hm Hd P.
  assert (forall x i, dead s' x i <-> dead s x i) as D by (intros; unfold dead; by rewrite Eb).
  eapply (quiet_inv_w t p p' s s'); try done.
  - split; try done; try (intros; congruence).
    + intros x i. rewrite D. auto.
    + intros x i X. left. auto.
    + intros x i X. left. auto.
  - intros x i. rewrite Eb. apply lt_same; auto.
  - intros o. by rewrite Ea.
Qed.

(** One bucket changes its lock, the thread moves on. *)
Lemma step_lock t p p' s s' x0 i0 l' : inv s -> at_pc s t p ->
  arr s' = arr s -> nxt s' = nxt s -> cur s' = cur s -> rsz s' = rsz s -> moves t p' s s' ->
  (forall y i, bks s' y i = if decide (y = x0 /\ i = i0) then Bk (es (bks s x0 i0)) l' else bks s y i) ->
  (x0 < nxt s)%nat ->
  ltrans t p p' x0 i0 (lk (bks s x0 i0)) l' ->
  (dead s x0 i0 -> l' = LDead) ->
  (l' = LDead -> dead s x0 i0 \/ (cur s <> Some x0 /\ es (bks s x0 i0) = [])) ->
  (forall x i, ~ (x = x0 /\ i = i0) -> holds p x i <-> holds p' x i) ->
  (forall x i, ~ (x = x0 /\ i = i0) -> reads p x i <-> reads p' x i) ->
  claims p' = claims p -> resizing p' = resizing p ->
  (forall x i, moved p x i -> moved p' x i \/ (x = x0 /\ i = i0 /\ l' = LDead)) ->
  (forall x i, dropping p x i -> dropping p' x i \/ (x = x0 /\ i = i0 /\ l' = LDead)) ->
  pc_ok s' p' -> inv s'.
Proof.
  intros I A Ea En Ec Er M Eb X0 Lt D1 D2 Hh Hr Hc Hz Hm Hd P.
  assert (D0 : l' = LDead -> dead s' x0 i0).
  { intros E. unfold dead. rewrite Eb, decide_True by done. done. }
  eapply (quiet_inv_w t p p' s s'); try done.
  - split; try done; try (intros; congruence).
    + intros x i. rewrite Eb. destruct (decide _) as [[-> ->]|]; done.
    + intros x i X. rewrite Eb, decide_False; [done|]. intros [-> _]. lia.
    + intros x i X. unfold dead in *. rewrite Eb. destruct (decide _) as [[-> ->]|]; [by apply D1|done].
    + intros x i. unfold dead. rewrite Eb. destruct (decide _) as [[-> ->]|]; [by apply D2|auto].
    + intros x i X. destruct (Hm x i X) as [|(-> & -> & ?)]; auto.
    + intros x i X. destruct (Hd x i X) as [|(-> & -> & ?)]; auto.
  - intros x i. rewrite Eb. destruct (decide _) as [[-> ->]|N]; [done|]. apply lt_same; auto.
  - intros o. by rewrite Ea.
Qed.
Lemma lock_mono s s' x0 i0 l' : arr s' = arr s -> nxt s' = nxt s -> cur s' = cur s ->
  (forall y i, bks s' y i = if decide (y = x0 /\ i = i0) then Bk (es (bks s x0 i0)) l' else bks s y i) ->
  (dead s x0 i0 -> l' = LDead) -> mono s s'.
Proof.
  intros Ea En Ec Eb D. split.
  - lia.
  - intros. by rewrite Ea.
  - intros x i X. unfold dead in *. rewrite Eb. destruct (decide _) as [[-> ->]|]; [by apply D|done].
  - intros. left. by rewrite Ea.
  - intros x _. unfold live. by rewrite Ec, Ea.
Qed.
Lemma step_lock_s t p p' s s' x0 i0 l' : inv s -> at_pc s t p ->
  arr s' = arr s -> nxt s' = nxt s -> cur s' = cur s -> rsz s' = rsz s -> moves t p' s s' ->
  (forall y i, bks s' y i = if decide (y = x0 /\ i = i0) then Bk (es (bks s x0 i0)) l' else bks s y i) ->
  (x0 < nxt s)%nat -> l' <> LDead -> ~ dead s x0 i0 ->
  ltrans t p p' x0 i0 (lk (bks s x0 i0)) l' ->
  (forall x i, ~ (x = x0 /\ i = i0) -> holds p x i <-> holds p' x i) ->
  (forall x i, ~ (x = x0 /\ i = i0) -> reads p x i <-> reads p' x i) ->
  claims p' = claims p -> resizing p' = resizing p ->
  (forall x i, moved p x i -> moved p' x i) -> (forall x i, dropping p x i -> dropping p' x i \/ (x = x0 /\ i = i0 /\ l' = LDead)) ->
  pc_ok s p' -> inv s'.
Proof.
  intros I A Ea En Ec Er M Eb X0 ND ND' Lt Hh Hr Hc Hz Hm Hd P.
  eapply (step_lock t p p' s s' x0 i0 l'); try done.
  - auto.
  - eapply (pc_stable hash s s'); [apply link_lt, (i_shape _ _ I)| | | |done].
    + eapply lock_mono; try done.
    + intros x i _. rewrite Eb. destruct (decide _) as [[-> ->]|]; done.
    + done.
Qed.

(** A rehashing word changes. *)
Lemma step_word t p p' s s' o w : inv s -> at_pc s t p -> (o < nxt s)%nat ->
  (forall x, arr s' x = if decide (x = o) then Meta (sz (arr s o)) (link (arr s o)) w else arr s x) ->
  nxt s' = nxt s -> bks s' = bks s -> cur s' = cur s -> rsz s' = rsz s -> moves t p' s s' ->
  (forall x i, holds p x i <-> holds p' x i) -> (forall x i, reads p x i <-> reads p' x i) ->
  resizing p' = resizing p ->
  (forall x i, moved p x i -> moved p' x i) -> (forall x i, dropping p x i -> dropping p' x i) ->
  (forall o', o' <> o -> claims_b o' p' = claims_b o' p) ->
  (forall o' prev, o' <> o -> claims p = Some (o', prev) -> claims p' = Some (o', prev)) ->
  (w mod 32 = N.of_nat (nclaims s' o) /\ (nclaims s' o < 32)%nat) ->
  (forall i, i < alen s o -> i < w - w mod 32 ->
     (i < word (arr s o) - word (arr s o) mod 32 /\
        (forall prev, claims p = Some (o, prev) -> prev <= i < prev + 32 ->
           dead s o i \/ (claims p' = Some (o, prev)))) \/
     exists prev, claims p' = Some (o, prev) /\ prev <= i < prev + 32) ->
  pc_ok s p' -> inv s'.
Proof.
  intros I A O Ea En Eb Ec Er M Hh Hr Hz Hm Hd Hc Hc' W1 W2 P.
  assert (D : forall x i, dead s' x i <-> dead s x i) by (intros; unfold dead; by rewrite Eb).
  assert (Es : forall x, sz (arr s' x) = sz (arr s x)).
  { intros x. rewrite Ea. destruct (decide _) as [->|]; done. }
  assert (El : forall x, link (arr s' x) = link (arr s x)).
  { intros x. rewrite Ea. destruct (decide _) as [->|]; done. }
  assert (Q : quiet t p p' s s').
  { split; try done; try (intros; congruence).
    + intros x i. rewrite D. auto.
    + intros x i X. left. auto.
    + intros x i X. left. auto. }
  eapply (quiet_inv t p p' s s'); [done|done| | | | |].
  - intros x i. rewrite Eb. apply lt_same; auto.
  - intros y Y. rewrite En in Y. rewrite (quiet_alen _ _ _ _ _ _ Q).
    destruct (decide (y = o)) as [->|Ny].
    + rewrite Ea, decide_True by done. simpl. destruct W1 as [W1 W1']. split; [done|]. split; [done|].
      intros i Hi Hw. destruct (W2 i Hi Hw) as [[Hw' Hp]|(prev & C & B)].
      * destruct (i_words _ _ I o Y) as (_ & _ & W3). destruct (W3 i Hi Hw') as [De|(u & q & prev & B & Cq & Bq)].
        { left. by rewrite D. }
        destruct (decide (u = t)) as [->|Nu].
        -- assert (q = p) as -> by (unfold at_pc in *; congruence).
           destruct (Hp prev Cq Bq) as [De|Cp]; [left; by rewrite D|].
           right. exists t, p', prev. split; [by eapply at_self|done].
        -- right. exists u, q, prev. split; [by eapply at_other|done].
      * right. exists t, p', prev. split; [by eapply at_self|done].
    + rewrite Ea, decide_False by done. destruct (i_words _ _ I y Y) as (V1 & V2 & V3).
      pose proof (nclaims_step _ _ _ _ _ y A M) as NC. rewrite (Hc y Ny) in NC.
      assert (nclaims s' y = nclaims s y) as -> by (destruct (claims_b y p); lia).
      do 2 (split; [done|]). intros i Hi Hw. destruct (V3 i Hi Hw) as [De|(u & q & prev & B & Cq & Bq)].
      { left. by rewrite D. }
      right. destruct (decide (u = t)) as [->|Nu].
      * assert (q = p) as -> by (unfold at_pc in *; congruence).
        exists t, p', prev. split; [by eapply at_self|]. split; [by apply Hc'|done].
      * exists u, q, prev. split; [by eapply at_other|done].
  - intros X. rewrite Er. rewrite Hz in X. split; [|by left]. by eapply (i_rsz _ (i_resz _ _ I)).
  - by left.
  - eapply (pc_stable hash s s'); [apply link_lt, (i_shape _ _ I)|by eapply quiet_mono| |done|done].
    intros x i _. by rewrite Eb.
Qed.
End step.
