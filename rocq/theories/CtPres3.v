(** Every step preserves the invariant: steps that change the contents or the arrays. *)
From Coq Require Import NArith Lia.
From stdpp Require Import prelude list numbers.
From Verif Require CapModel CapSpec CapFacts.
From Verif Require Import CtModel CtSpec CtInv CtStep CtPres CtPres2 CtList.
Local Open Scope N_scope.

Section pres.
Context {K V : Type} `{EqDecision K} (hash : K -> N).
Hypothesis hash64 : forall k, hash k < 2 ^ 64.
Notation state := (state K V). Notation pc := (pc K V). Notation job := (job K V).
Implicit Types (s : state) (p q : pc) (j : job) (x y a o : nat) (i n : N) (t u : nat).
Notation inv := (inv hash). Notation shape := (shape hash). Notation pc_ok := (pc_ok hash).
Notation jidx := (jidx hash). Notation acc_ok := (acc_ok hash). Notation cont_ok := (cont_ok hash).
Notation ded_ok := (ded_ok hash). Notation kont_ok := (kont_ok hash). Notation bi := (bi hash).

Ltac plain := split; (done || (intros; cbn; tauto)).
Ltac splain := eapply (step_plain hash); [eassumption|eassumption| | |reflexivity|reflexivity|reflexivity|reflexivity
   |reflexivity|reflexivity| ]; [try plain|try plain| ].
Ltac spc := eapply (step_pc hash); [eassumption|eassumption|reflexivity|reflexivity|reflexivity|reflexivity
   |reflexivity|reflexivity| | | | | | | ]; [try (cbn; intros; tauto)|try (cbn; intros; tauto)|try reflexivity
   |try reflexivity|try (cbn; intros; tauto)|try (cbn; intros; tauto)| ].

(** ** General facts *)
Lemma claims_lt s p o prev : pc_ok s p -> claims p = Some (o, prev) -> (o < nxt s)%nat.
Proof.
  intros P C. assert (CW : forall c a o' i, cclaims c o' = Some (o, prev) -> cont_ok s c a o' i -> (o < nxt s)%nat).
  { intros c a o' i E X. destruct c; [|done]. cbn in E. injection E as <- _. destruct (cont_wl _ _ _ _ _ _ X); lia. }
  destruct p; cbn in C; try discriminate; cbn in P.
  - injection C as -> ->. destruct P as [[[W _] _] _]. lia.
  - injection C as -> ->. destruct P as [[W _] _]. lia.
  - injection C as -> ->. destruct P as [[W _] _]. lia.
  - by eapply CW.
  - destruct P as [P _]. by eapply CW.
  - destruct P as [P _]. by eapply CW.
  - by eapply CW.
  - destruct P as [P _]. by eapply CW.
  - destruct P as [P _]. by eapply CW.
  - destruct P as [P _]. by eapply CW.
Qed.
Lemma nclaims_0 s o : (forall t p prev, at_pc s t p -> claims p <> Some (o, prev)) -> nclaims s o = 0%nat.
Proof.
  intros N. unfold nclaims. destruct (List.filter (claims_b o) (pcs s)) as [|p l] eqn:E; [done|]. exfalso.
  assert (X : In p (List.filter (claims_b o) (pcs s))) by (rewrite E; left; done).
  apply filter_In in X as [X Y]. apply elem_of_list_In, elem_of_list_lookup in X as (t & X).
  unfold claims_b in Y. destruct (claims p) as [[o' prev]|] eqn:C; [|done]. apply Nat.eqb_eq in Y as ->.
  by eapply N.
Qed.
Lemma stored_lt s x i k v : shape s -> stored_at s x i k v -> (x < nxt s)%nat /\ i < alen s x.
Proof.
  intros S X. assert (L : (x < nxt s)%nat).
  { destruct (decide (x < nxt s)%nat) as [|N]; [done|]. unfold stored_at in X. rewrite (i_fresh _ _ S) in X by lia.
    simpl in X. by apply elem_of_nil in X. }
  split; [done|]. rewrite <- (i_idx _ _ S _ _ _ _ X). unfold alen, CtInv.bi.
  apply CapFacts.bucket_index_lt; [|done]. apply table_wf, (i_sz _ _ S _ L).
Qed.
Lemma stored_dead s x i k v : shape s -> stored_at s x i k v -> ~ dead s x i.
Proof. intros S X D. unfold stored_at in X. rewrite (i_dead _ _ S) in X by done. by apply elem_of_nil in X. Qed.
Lemma drop_hold p x i : dropping p x i -> holds p x i.
Proof. destruct p; cbn; try done. by destruct ok. Qed.
Lemma moved_hold p x i : moved p x i -> holds p x i.
Proof. destruct p; cbn; tauto. Qed.
(** Inside a bucket, the array is live. *)
Lemma inside_live s t j a idx : inv s -> at_pc s t (Crit j a idx) -> live s a.
Proof.
  intros I A. pose proof (i_pc _ _ I _ _ A) as P. cbn in P. pose proof P as ([J _] & Ei & _).
  pose proof (jidx_lt hash hash64 s a j I ltac:(apply P)) as L. rewrite <- Ei in L.
  assert (Dc : live s a \/ ~ live s a).
  { unfold live. destruct (cur s) as [c|]; [|right; intros [|(? & ? & ?)]; done].
    destruct (decide (c = a)) as [->|N]; [left; by left|].
    destruct (link (arr s c)) as [o|] eqn:E.
    - destruct (decide (o = a)) as [->|N']; [left; right; eauto|].
      right. intros [X|(c' & X & Y)]; congruence.
    - right. intros [X|(c' & X & Y)]; congruence. }
  destruct Dc as [|NL]; [done|]. exfalso.
  destruct (i_gone _ _ (i_shape _ _ I) a idx J L NL) as [D|(u & q & B & X)].
  - destruct (shared j) eqn:Sh.
    + eapply (read_alive hash s t); [done|done| |done]. by cbn.
    + eapply (held_alive hash s t); [done|done| |done]. by cbn.
  - apply drop_hold in X as Y. pose proof (i_holds _ (i_locks _ _ I) _ _ _ _ B Y) as E.
    destruct (shared j) eqn:Sh.
    + destruct (i_reads _ (i_locks _ _ I) _ _ a idx A) as (ts & E' & _); [by cbn|]. congruence.
    + pose proof (i_holds _ (i_locks _ _ I) _ _ a idx A) as E'. cbn in E'. rewrite E' in E by done. injection E as <-.
      unfold at_pc in *. rewrite A in B. injection B as <-. by cbn in X.
Qed.

(** ** A new array *)
Lemma push_mono s s' z : shape s -> (forall c, cur s = Some c -> link (arr s c) = None) ->
  arr s' = arr (push z (cur s) s) -> nxt s' = S (nxt s) -> bks s' = bks s -> cur s' = Some (nxt s) -> mono s s'.
Proof.
  intros Sh Nl Ea En Eb Ec. 
  assert (Ax : forall x, (x < nxt s)%nat -> arr s' x = arr s x).
  { intros x X. rewrite Ea. simpl. rewrite decide_False by lia. done. }
  assert (An : arr s' (nxt s) = Meta z (cur s) 0).
  { rewrite Ea. simpl. by rewrite decide_True. }
  split.
  - lia.
  - intros x X. by rewrite Ax.
  - intros x i D. unfold dead in *. by rewrite Eb.
  - intros x X. left. by rewrite Ax.
  - intros x X. unfold live. rewrite Ec. intros [[= <-]|(c & [= <-] & Y)]; [lia|]. rewrite An in Y. by left.
Qed.
Lemma pres_push t p p' s s' z : inv s -> at_pc s t p -> CapSpec.table z ->
  (forall c, cur s = Some c -> link (arr s c) = None) ->
  arr s' = arr (push z (cur s) s) -> nxt s' = S (nxt s) -> bks s' = bks s -> cur s' = Some (nxt s) -> rsz s' = rsz s ->
  moves t p' s s' ->
  (forall x i, ~ holds p x i) -> (forall x i, ~ reads p x i) -> claims p = None ->
  (forall x i, ~ holds p' x i) -> (forall x i, ~ reads p' x i) -> claims p' = None ->
  resizing p' = resizing p -> (resizing p = true \/ cur s = None) -> pc_ok s' p' -> inv s'.
Proof.
  intros I A Tz Nl Ea En Eb Ec Er M Ph Pr Pc Ph' Pr' Pc' Rz Rc Ok.
  pose proof (i_shape _ _ I) as Sh.
  pose proof (push_mono s s' z Sh Nl Ea En Eb Ec) as Mo.
  assert (Ax : forall x, (x < nxt s)%nat -> arr s' x = arr s x).
  { intros x X. rewrite Ea. simpl. rewrite decide_False by lia. done. }
  assert (An : arr s' (nxt s) = Meta z (cur s) 0).
  { rewrite Ea. simpl. by rewrite decide_True. }
  assert (LL : forall x, live s x -> live s' x).
  { intros x [X|(c & X & Y)]; [|rewrite Nl in Y; done]. right. exists (nxt s). by rewrite Ec, An. }
  assert (Lk : forall x o, (x <> nxt s)%nat -> link (arr s' x) <> Some o).
  { intros x o X Y. rewrite Ea in Y. simpl in Y. rewrite decide_False in Y by done.
    pose proof (i_link _ _ Sh _ _ Y) as [X' _]. rewrite Nl in Y; done. }
  assert (St : forall x i k v, stored_at s' x i k v -> stored_at s x i k v /\ (x < nxt s)%nat).
  { intros x i k v X. assert (X' : stored_at s x i k v) by (unfold stored_at in *; by rewrite <- Eb).
    split; [done|]. by apply (stored_lt s x i k v). }
  eapply (inv_step hash s s' t p p'); try done.
  - split.
    + intros c. rewrite Ec, En. intros [= <-]. lia.
    + intros x. rewrite En. intros X. destruct (decide (x = nxt s)) as [->|N]; [by rewrite An|].
      rewrite Ax by lia. apply (i_sz _ _ Sh). lia.
    + intros x o L. destruct (decide (x = nxt s)) as [->|N]; [|by apply Lk in L].
      split; [done|]. rewrite An in L. simpl in L. pose proof (i_cur _ _ Sh o L). lia.
    + intros x i X. rewrite Eb. apply (i_fresh _ _ Sh). lia.
    + intros x i D. unfold dead in D. rewrite Eb in *. by apply (i_dead _ _ Sh).
    + intros c i X D. rewrite Ec in X. injection X as <-. unfold dead in D. rewrite Eb, (i_fresh _ _ Sh) in D by lia. done.
    + intros x i k v X. apply St in X as [X L]. unfold CtInv.bi. rewrite Ax by done. by eapply (i_idx _ _ Sh).
    + intros x i. rewrite Eb. apply (i_nd _ _ Sh).
    + intros x i k v X. apply St in X as [X L]. by eapply LL, (i_live _ _ Sh).
    + intros a o i k v L X. apply St in X as [X Lt]. apply Lk in L; [done|lia].
    + intros x i X Hi NL. assert (Lx : (x < nxt s)%nat).
      { destruct (decide (x = nxt s)) as [->|]; [|lia]. exfalso. apply NL. by left. }
      unfold alen in Hi. rewrite Ax in Hi by done.
      destruct (i_gone _ _ Sh x i Lx Hi) as [D|(u & q & B & D)].
      * intros L. by apply NL, LL.
      * left. unfold dead. by rewrite Eb.
      * right. exists u, q. split; [|done]. eapply at_other; [done| |done].
        intros ->. unfold at_pc in *. rewrite A in B. injection B as <-. apply (Ph x i). by apply drop_hold.
  - intros x i. rewrite Eb. apply lt_same.
    + pose proof (Ph x i). pose proof (Ph' x i). tauto.
    + pose proof (Pr x i). pose proof (Pr' x i). tauto.
  - intros o O. rewrite En in O. rewrite (nclaims_same s s' t p p' o A M) by congruence.
    destruct (decide (o = nxt s)) as [->|N].
    + rewrite An. simpl. rewrite nclaims_0; [split; [done|]; split; [lia|]; intros; lia|].
      intros u q prev B C. pose proof (claims_lt s q _ _ (i_pc _ _ I _ _ B) C). lia.
    + unfold alen. rewrite Ax by lia. destruct (i_words _ _ I o ltac:(lia)) as (W1 & W2 & W3).
      do 2 (split; [done|]). intros i Hi Hw. destruct (W3 i Hi Hw) as [D|(u & q & prev & B & C & X)].
      * left. unfold dead. by rewrite Eb.
      * right. exists u, q, prev. split; [|done]. eapply at_other; [done| |done].
        intros ->. unfold at_pc in *. rewrite A in B. injection B as <-. congruence.
  - rewrite Rz, Er. intros X. split; [|by left]. by eapply (i_rsz _ (i_resz _ _ I)).
  - by left.
  - intros x i. left. by rewrite Eb.
  - destruct Rc; auto.
Qed.
Lemma pres_load t c s s' j : inv s -> at_pc s t (Load j) -> step hash t c s = Some s' -> inv s'.
Proof.
  intros I A E. pose proof (i_pc _ _ I _ _ A) as P. cbn in P. unfold step in E. pose proof A as A'. unfold at_pc in A'. rewrite A' in E.
  destruct c as [| | |n| | | | |]; try (destruct j; discriminate).
  - assert (E1 : Some s' = match cur s with
      | Some a => Some (set_pc t (loaded s j a) s)
      | None => match j with JOp o => if creates o then None else Some (set_pc t (Done j (absent o)) s)
        | JScan _ _ _ seen => Some (set_pc t (Done j (RSeen seen)) s) | JResize => Some (set_pc t (Done j RUnit) s) end end)
      by (destruct j; done).
    clear E. destruct (cur s) as [a|] eqn:C.
    + injection E1 as ->. splain; [apply loaded_plain|]. exact (loaded_ok hash s j a I P C).
    + destruct j as [o| |]; [destruct (creates o); [discriminate|]| |]; injection E1 as ->; splain; done.
  - destruct j as [o| |]; try discriminate. destruct (cur s) as [a|] eqn:C; [discriminate|].
    destruct (creates o); [|discriminate].
    destruct (CapModel.arr_new n) as [z|] eqn:Z.
    + injection E as <-. eapply (pres_push t _ _ s _ z I A); try done; try (intros; cbn; tauto); try reflexivity.
      * by exists n.
      * intros c. congruence.
      * by rewrite C.
      * split; [simpl; lia|done].
    + destruct (CapFacts.arr_new_spec n) as (k & sz' & E' & _). congruence.
Qed.

(** ** Detaching the old array *)
Lemma pres_detach t c s s' j a o : inv s -> at_pc s t (Detach j a o) -> step hash t c s = Some s' -> inv s'.
Proof.
  intros I A E. pose proof (i_pc _ _ I _ _ A) as (W & J & AD). unfold step in E. pose proof A as A'. unfold at_pc in A'. rewrite A' in E.
  destruct c; try discriminate. injection E as <-. pose proof (i_shape _ _ I) as Sh.
  set (p' := dedup_from hash s j a o). set (s' := set_pc t p' _).
  assert (M : moves t p' s s') by done.
  assert (Ar : forall x, sz (arr s' x) = sz (arr s x) /\ word (arr s' x) = word (arr s x)).
  { intros x. simpl. by destruct (decide (x = a)) as [->|]. }
  assert (Bi : forall x k, bi s' x k = bi s x k).
  { intros x k. unfold CtInv.bi. by rewrite (proj1 (Ar x)). }
  assert (Al : forall x, alen s' x = alen s x).
  { intros x. unfold alen. by rewrite (proj1 (Ar x)). }
  assert (La : forall x, x <> a -> link (arr s' x) = link (arr s x)).
  { intros x X. simpl. by rewrite decide_False. }
  assert (La' : link (arr s' a) = None).
  { simpl. by rewrite decide_True. }
  assert (Lsub : forall x o', link (arr s' x) = Some o' -> link (arr s x) = Some o' /\ x <> a).
  { intros x o' L. destruct (decide (x = a)) as [->|N]; [congruence|]. by rewrite La in L. }
  assert (Lo : forall o', link (arr s a) = Some o' -> o' = o).
  { destruct W as [_ [W|[W _]]]; congruence. }
  assert (Lv : forall x, live s x -> live s' x \/ x = o).
  { intros x [X|(c & X & Y)]; [left; by left|]. destruct (decide (c = a)) as [->|N]; [right; by apply Lo|].
    left. right. exists c. by rewrite La. }
  assert (Mo : mono s s').
  { split; try done.
    - intros x _. apply Ar.
    - intros x _. destruct (decide (x = a)) as [->|N]; [|left; by apply La]. right. split; [done|].
      intros o' L. apply Lo in L as ->. intros i Hi. rewrite Al in Hi. by apply AD.
    - intros x _ [X|(c & X & Y)]; [by left|]. apply Lsub in Y as [Y _]. right. by exists c. }
  eapply (inv_step hash s s' t (Detach j a o) p'); try done.
  - split; try done.
    + apply (i_cur _ _ Sh).
    + intros x X. rewrite (proj1 (Ar x)). by apply (i_sz _ _ Sh).
    + intros x o' L. apply Lsub in L as [L _]. by apply (i_link _ _ Sh).
    + apply (i_fresh _ _ Sh).
    + apply (i_dead _ _ Sh).
    + apply (i_curlive _ _ Sh).
    + intros x i k v X. rewrite Bi. by eapply (i_idx _ _ Sh).
    + apply (i_nd _ _ Sh).
    + intros x i k v X. destruct (Lv x (i_live _ _ Sh _ _ _ _ X)) as [| ->]; [done|].
      exfalso. eapply (stored_dead s o i k v Sh X). apply AD. by eapply (stored_lt s).
    + intros a' o' i k v L X. apply Lsub in L as [L Na]. rewrite !Bi.
      destruct (i_excl _ _ Sh _ _ _ _ _ L X) as [Q1 [Q2|(u & q & B & Q2)]]; (split; [done|]); [by left|].
      right. exists u, q. split; [|done]. eapply at_other; [done| |done].
      intros ->. unfold at_pc in *. rewrite A in B. injection B as <-. by cbn in Q2.
    + intros x i X Hi NL. rewrite Al in Hi.
      assert (Dl : (x = o) \/ ~ live s x).
      { destruct (decide (x = o)); [by left|right]. intros L. apply Lv in L as [|]; done. }
      destruct Dl as [->|NL']; [left; by apply AD|].
      destruct (i_gone _ _ Sh x i X Hi NL') as [D|(u & q & B & D)]; [by left|].
      right. exists u, q. split; [|done]. eapply at_other; [done| |done].
      intros ->. unfold at_pc in *. rewrite A in B. injection B as <-. by cbn in D.
  - intros x i. by apply lt_same.
  - eapply (words_same s s' t _ p'); try done; [apply (i_words _ _ I)|]. intros x. apply Ar.
  - by left.
  - intros x i. by left.
  - by left.
  - eapply (pc_stable hash s s'); try done; [by apply (link_lt hash s)|].
    exact (dedup_from_ok hash hash64 s j a o I W J).
Qed.

(** ** The critical section *)
Lemma pres_es t j j' s s' a idx r es' : inv s -> at_pc s t (Crit j a idx) -> 
  arr s' = arr s -> nxt s' = nxt s -> cur s' = cur s -> rsz s' = rsz s -> moves t (Out j' a idx r) s s' ->
  (forall y i, bks s' y i = if decide (y = a /\ i = idx) then Bk es' (lk (bks s a idx)) else bks s y i) ->
  shared j' = shared j -> (shared j = true -> es' = es (bks s a idx)) -> acc_ok s j' a idx ->
  (forall k v, (k, v) ∈ es' -> bi s a k = idx) -> NoDup (map fst es') -> inv s'.
Proof.
  intros I A Ea En Ec Er M Eb Es Sh1 Ok Hi Hn. pose proof (i_shape _ _ I) as Sh.
  pose proof (i_pc _ _ I _ _ A) as P. cbn in P. pose proof P as ([Ja _] & _ & Rd).
  pose proof (inside_live s t j a idx I A) as Lv.
  assert (Lk : forall y i, lk (bks s' y i) = lk (bks s y i)).
  { intros y i. rewrite Eb. by destruct (decide _) as [[-> ->]|]. }
  assert (Dd : forall y i, dead s' y i <-> dead s y i) by (intros; unfold dead; by rewrite Lk).
  assert (Nd : ~ dead s a idx).
  { destruct (shared j) eqn:Q; [eapply (read_alive hash s t)|eapply (held_alive hash s t)]; try done; by cbn. }
  assert (Mo : mono s s').
  { split; try (intros; by rewrite ?Ea, ?En).
    - intros y i. by rewrite Dd.
    - intros y _. left. by rewrite Ea.
    - intros y _. unfold live. by rewrite Ec, Ea. }
  assert (St : forall y i k v, stored_at s' y i k v ->
     (y = a /\ i = idx /\ (k, v) ∈ es') \/ (~ (y = a /\ i = idx) /\ stored_at s y i k v)).
  { intros y i k v X. unfold stored_at in X. rewrite Eb in X. destruct (decide _) as [[-> ->]|N]; auto. }
  assert (Lve : forall y, live s' y <-> live s y) by (intros y; unfold live; by rewrite Ec, Ea).
  assert (Bi : forall y k, bi s' y k = bi s y k) by (intros; unfold CtInv.bi; by rewrite Ea).
  eapply (inv_step hash s s' t (Crit j a idx) (Out j' a idx r)); try done.
  - split.
    + rewrite Ec, En. apply (i_cur _ _ Sh).
    + intros x. rewrite En, Ea. apply (i_sz _ _ Sh).
    + intros x o. rewrite En, Ea, Ec. apply (i_link _ _ Sh).
    + intros x i. rewrite En, Eb. intros X. rewrite decide_False by (intros [-> _]; lia). by apply (i_fresh _ _ Sh).
    + intros x i D. apply Dd in D. rewrite Eb. destruct (decide _) as [[-> ->]|N]; [done|by apply (i_dead _ _ Sh)].
    + intros c i. rewrite Ec, Dd. apply (i_curlive _ _ Sh).
    + intros x i k v X. rewrite Bi. apply St in X as [(-> & -> & X)|[_ X]]; [by eapply Hi|by eapply (i_idx _ _ Sh)].
    + intros x i. rewrite Eb. destruct (decide _); [done|apply (i_nd _ _ Sh)].
    + intros x i k v X. apply Lve. apply St in X as [(-> & -> & X)|[_ X]]; [done|by eapply (i_live _ _ Sh)].
    + intros a0 o i k v L X. rewrite Ea in L. rewrite Bi, Dd. pose proof (i_link _ _ Sh _ _ L) as [C0 B0].
      assert (Main : es (bks s o (bi s o k)) = [] /\ (dead s o (bi s o k) \/
         exists t p, at_pc s t p /\ moved p o (bi s o k))).
      { apply St in X as [(-> & -> & X)|[_ X]]; [|by eapply (i_excl _ _ Sh)].
        assert (D : dead s o (bi s o k)).
        { eapply Rd; [done|]. rewrite <- (Hi _ _ X). apply (range_bi hash hash64); [done|lia|lia]. }
        split; [by apply (i_dead _ _ Sh)|by left]. }
      destruct Main as [Q1 Q2]. split.
      * rewrite Eb. destruct (decide _) as [[-> Eq]|N]; [|done]. exfalso. rewrite Eq in Q2.
        destruct Q2 as [D|(u & q & B & Q2)]; [done|]. apply moved_hold in Q2 as H2.
        pose proof (i_holds _ (i_locks _ _ I) _ _ _ _ B H2) as E.
        destruct (shared j) eqn:Q.
        -- destruct (i_reads _ (i_locks _ _ I) _ _ a idx A) as (ts & E' & _); [by cbn|]. congruence.
        -- pose proof (i_holds _ (i_locks _ _ I) _ _ a idx A) as E'. cbn in E'. rewrite E' in E by done. injection E as <-.
           unfold at_pc in *. rewrite A in B. injection B as <-. by cbn in Q2.
      * destruct Q2 as [|(u & q & B & Q2)]; [by left|]. right. exists u, q. split; [|done]. eapply at_other; [done| |done].
        intros ->. unfold at_pc in *. rewrite A in B. injection B as <-. by cbn in Q2.
    + intros x i X Hx NL. rewrite En in X. unfold alen in Hx. rewrite Ea in Hx.
      destruct (i_gone _ _ Sh x i X Hx) as [D|(u & q & B & D)]; [by rewrite <- Lve|left; by apply Dd|].
      right. exists u, q. split; [|done]. eapply at_other; [done| |done].
      intros ->. unfold at_pc in *. rewrite A in B. injection B as <-. by cbn in D.
  - intros x i. rewrite Lk. apply lt_same; cbn; rewrite Es; done.
  - eapply (words_same s s' t _ _); try done; [apply (i_words _ _ I)|]. intros x. by rewrite Ea.
  - by left.
  - intros x i. rewrite Eb. destruct (decide _) as [[-> ->]|N]; [|by left].
    destruct (shared j) eqn:Q; [left; simpl; auto|]. right. eapply (i_holds _ (i_locks _ _ I)); [done|]. by cbn.
  - by left.
  - cbn. eapply (acc_mono hash s s'); [by apply (link_lt hash s)|done|done].
Qed.
Lemma pres_crit t c s s' j a idx : inv s -> at_pc s t (Crit j a idx) -> step hash t c s = Some s' -> inv s'.
Proof.
  intros I A E. pose proof (i_pc _ _ I _ _ A) as P. cbn in P. unfold step in E. pose proof A as A'. unfold at_pc in A'. rewrite A' in E.
  destruct c; try discriminate. pose proof (i_shape _ _ I) as Sh. pose proof P as (J & Ei & Rd).
  pose proof (i_nd _ _ Sh a idx) as ND.
  destruct j as [o|f st pr se|]; [| |by destruct J].
  - injection E as <-.
    eapply (pres_es t (JOp o) (JOp o) s _ a idx _ (crit o (es (bks s a idx))).1 I A); try done.
    + by destruct o.
    + intros k v X. apply crit_in in X as [[_ X]|[-> _]]; [|by rewrite Ei|done]. by eapply (i_idx _ _ Sh).
    + by apply crit_nd.
  - injection E as <-.
    eapply (pres_es t (JScan f st pr se) (JScan f st pr (se ++ es (bks s a idx))) s _ a idx _ (visit f (es (bks s a idx))) I A); try done.
    + by destruct f.
    + intros k v X. destruct f as [f|]; [apply visit_in in X as (v0 & X & _)|]; by eapply (i_idx _ _ Sh).
    + by apply visit_nd.
Qed.
End pres.
