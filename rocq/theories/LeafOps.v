(** Well-formed leaves and what the operations do to them. *)
From stdpp Require Import prelude list sorting.
From Verif Require Import LeafModel LeafSpec LeafFacts OrdFacts.

Section ops.
Context {K V : Type} (cmp : K -> K -> comparison) (T : total_order cmp).
Implicit Types (l : leaf K V) (ss : list (option (K * V))) (m : meta).

(** The ranks of a snapshot order the entries of the slots. *)
Record coherent m ss : Prop := {
  co_len : length (ranks m) = 14;
  co_slen : length ss = 14;
  co_le : forall i r, ranks m !! i = Some r -> r <= 15;
  co_init : forall i r, ranks m !! i = Some r -> live r = true -> exists e, ss !! i = Some (Some e);
  co_inj : forall i j r, ranks m !! i = Some r -> ranks m !! j = Some r -> live r = true -> i = j;
  co_ord : forall i j r r' e e', ranks m !! i = Some r -> ranks m !! j = Some r' ->
    live r = true -> live r' = true -> ss !! i = Some (Some e) -> ss !! j = Some (Some e') ->
    r < r' -> cmp e.1 e'.1 = Lt }.

Definition tally (c : list bool) : nat := length (List.filter (fun b => b) c).
Lemma entry_at_some ss i e : entry_at ss i = Some e <-> ss !! i = Some (Some e).
Proof. unfold entry_at. destruct (ss !! i) as [[x|]|]; simpl; split; congruence. Qed.
Lemma compare_at_some ss k i e : ss !! i = Some (Some e) -> compare_at cmp ss k i = cmp e.1 k.
Proof. intros H. unfold compare_at. apply entry_at_some in H. rewrite H. symmetry. apply T. Qed.

Lemma co_mono_lt m ss k : coherent m ss -> forall i j r r', ranks m !! i = Some r -> ranks m !! j = Some r' ->
  live r = true -> live r' = true -> r < r' -> compare_at cmp ss k j <> Gt -> compare_at cmp ss k i = Lt.
Proof.
  intros C i j r r' Hi Hj Li Lj Lt_.
  destruct (co_init _ _ C _ _ Hi Li) as [e He]. destruct (co_init _ _ C _ _ Hj Lj) as [e' He'].
  rewrite (compare_at_some _ _ _ _ He), (compare_at_some _ _ _ _ He'). intros N.
  eapply cmp_lt_le; [done| |done]. by eapply (co_ord _ _ C i j).
Qed.
Lemma co_mono_gt m ss k : coherent m ss -> forall i j r r', ranks m !! i = Some r -> ranks m !! j = Some r' ->
  live r = true -> live r' = true -> r < r' -> compare_at cmp ss k i <> Lt -> compare_at cmp ss k j = Gt.
Proof.
  intros C i j r r' Hi Hj Li Lj Lt_.
  destruct (co_init _ _ C _ _ Hi Li) as [e He]. destruct (co_init _ _ C _ _ Hj Lj) as [e' He'].
  rewrite (compare_at_some _ _ _ _ He), (compare_at_some _ _ _ _ He'). intros N.
  apply cmp_gt; [done|]. eapply cmp_le_lt; [done| |by eapply (co_ord _ _ C i j)].
  intros X. by apply cmp_gt in X.
Qed.

(** Entries reachable in a snapshot. *)
Definition sstored m ss (e : K * V) : Prop :=
  exists i r, ranks m !! i = Some r /\ live r = true /\ ss !! i = Some (Some e).
Lemma stored_eq l e : stored l e <-> sstored (md l) (slots l) e.
Proof. done. Qed.
Lemma sstored_slot m ss i j r r' e e' : coherent m ss -> ranks m !! i = Some r -> ranks m !! j = Some r' ->
  live r = true -> live r' = true -> ss !! i = Some (Some e) -> ss !! j = Some (Some e') -> e.1 = e'.1 -> i = j.
Proof.
  intros C Hi Hj Li Lj He He' E. destruct (lt_eq_lt_dec r r') as [[H|H]|H].
  - exfalso. eapply cmp_lt_neq; [done|by eapply (co_ord _ _ C i j)|done].
  - subst. by eapply co_inj.
  - exfalso. eapply cmp_lt_neq; [done|by eapply (co_ord _ _ C j i)|done].
Qed.
Lemma sstored_fun m ss k v v' : coherent m ss -> sstored m ss (k, v) -> sstored m ss (k, v') -> v = v'.
Proof.
  intros C (i & r & Hi & Li & He) (j & r' & Hj & Lj & He').
  assert (i = j) as -> by (by eapply (sstored_slot m ss i j)). congruence.
Qed.

Lemma search_slot_spec m ss k : coherent m ss ->
  match search_slot cmp ss k m with
  | Some i => exists r v, ranks m !! i = Some r /\ live r = true /\ ss !! i = Some (Some (k, v))
  | None => forall v, ~ sstored m ss (k, v)
  end.
Proof.
  intros C. unfold search_slot.
  pose proof (search_loop_spec (ranks m) (compare_at cmp ss k) (co_le _ _ C) (co_inj _ _ C)
    (co_mono_lt _ _ k C) (co_mono_gt _ _ k C) (ranks m) 0 0 removed_rank eq_refl
    (lo_0 _ _) (hi_15 _ _ _) (told_0 _ _ _ _)) as S.
  destruct (search_loop _ _ _ _ _) as [i|].
  - destruct S as (S & r & Hr & Lr). destruct (co_init _ _ C _ _ Hr Lr) as [[k' v] He].
    rewrite (compare_at_some _ _ _ _ He) in S. apply cmp_eq in S; [|done]. simpl in S. subst k'. eauto 8.
  - intros v (i & r & Hr & Lr & He). apply (S i r Hr Lr).
    rewrite (compare_at_some _ _ _ _ He). by apply cmp_refl.
Qed.
Lemma search_entry_spec l k : coherent (md l) (slots l) ->
  match search_entry cmp l k with
  | Some e => e.1 = k /\ stored l e
  | None => forall v, ~ stored l (k, v)
  end.
Proof.
  intros C. unfold search_entry. pose proof (search_slot_spec _ _ k C) as S.
  destruct (search_slot cmp (slots l) k (md l)) as [i|]; simpl.
  - destruct S as (r & v & Hr & Lr & He). apply entry_at_some in He as He'. rewrite He'.
    split; [done|]. exists i, r. done.
  - intros v. apply S.
Qed.

Lemma next_spec m index : length (ranks m) = 14 -> (forall i r, ranks m !! i = Some r -> r <= 15) ->
  index = 14 \/ (exists r, ranks m !! index = Some r /\ live r = true) ->
  succ_slot (ranks m) (if index =? 14 then 0 else nth index (ranks m) 0) (next index m).
Proof.
  intros Ln Le H. unfold next. unfold num_entries.
  set (cr := if index =? 14 then 0 else nth index (ranks m) 0).
  destruct (cr <? 14) eqn:B.
  - apply next_loop_spec; auto.
    + intros r Hr. subst cr. destruct H as [->|(r' & Hr' & _)].
      * exfalso. apply lookup_lt_Some in Hr. lia.
      * destruct (index =? 14) eqn:E.
        { apply Nat.eqb_eq in E. subst. apply lookup_lt_Some in Hr. lia. }
        apply nth_lookup_Some with (d := 0) in Hr. congruence.
    + intros; lia.
  - apply Nat.ltb_ge in B. left. split; [done|]. intros j r Hj Lr.
    pose proof (Le _ _ Hj). apply live_spec in Lr. lia.
Qed.

Lemma scan_from_spec m ss : coherent m ss -> forall fuel index cr,
  cr = (if index =? 14 then 0 else nth index (ranks m) 0) -> index = 14 \/ (exists r, ranks m !! index = Some r /\ live r = true) ->
  15 <= fuel + cr ->
  ascending cmp (scan_from fuel m ss index) /\
  forall e, e ∈ scan_from fuel m ss index <-> exists i r, ranks m !! i = Some r /\ live r = true /\ cr < r /\ ss !! i = Some (Some e).
Proof.
  intros C. induction fuel as [|f IH]; intros index cr Ecr Hx F.
  - exfalso. assert (cr <= 14); [|lia]. subst cr. destruct (index =? 14) eqn:E; [lia|].
    destruct Hx as [->|(r & Hr & Lr)]; [done|]. pose proof (co_le _ _ C _ _ Hr).
    apply nth_lookup_Some with (d := 0) in Hr. rewrite Hr. apply live_spec in Lr. lia.
  - cbn [scan_from]. pose proof (next_spec m index (co_len _ _ C) (co_le _ _ C) Hx) as S.
    rewrite <-Ecr in S. set (i := next index m) in *. destruct S as [[-> S]|(rb & Hb & Lb & Cb & S)].
    + cbn. split; [apply asc_nil|]. intros e. rewrite elem_of_nil. split; [done|].
      intros (j & r & Hj & Lj & Hc & _). pose proof (S j r Hj Lj). lia.
    + assert (i < 14) as Hi by (rewrite <-(co_len _ _ C); by eapply lookup_lt_Some).
      assert (i =? num_entries = false) as -> by (apply Nat.eqb_neq; unfold num_entries; lia).
      destruct (co_init _ _ C _ _ Hb Lb) as [e He]. apply entry_at_some in He as He'. rewrite He'.
      assert (rb = (if i =? 14 then 0 else nth i (ranks m) 0)) as Erb.
      { assert (i =? 14 = false) as -> by (apply Nat.eqb_neq; lia).
        symmetry. by apply nth_lookup_Some. }
      destruct (IH i rb Erb) as [A E]; [right; eauto|lia|]. split.
      * apply asc_cons. split; [done|]. intros x Hx'. apply E in Hx' as (j & r & Hj & Lj & Hr & Hs).
        by eapply (co_ord _ _ C i j).
      * intros x. rewrite elem_of_cons, E. split.
        -- intros [->|(j & r & Hj & Lj & Hr & Hs)]; [eauto 8|]. exists j, r. repeat split; auto. lia.
        -- intros (j & r & Hj & Lj & Hr & Hs). destruct (decide (r = rb)) as [->|N].
           ++ left. assert (j = i) as -> by (by eapply (co_inj _ _ C)). congruence.
           ++ right. exists j, r. repeat split; auto. pose proof (S j r Hj Lj Hr). lia.
Qed.
Lemma scan_spec l : coherent (md l) (slots l) -> ascending cmp (scan l) /\ forall e, e ∈ scan l <-> stored l e.
Proof.
  intros C. unfold scan. destruct (scan_from_spec _ _ C 15 14 0) as [A E]; [done|by left|lia|].
  split; [done|]. intros e. rewrite E. split.
  - intros (i & r & Hi & Li & _ & Hs). exists i, r. done.
  - intros (i & r & Hi & Li & Hs). exists i, r. repeat split; auto. apply live_spec in Li. lia.
Qed.
Lemma scan_eq l es : coherent (md l) (slots l) -> ascending cmp es -> (forall e, e ∈ es <-> stored l e) -> scan l = es.
Proof.
  intros C A E. destruct (scan_spec _ C) as [A' E']. eapply asc_ext; eauto.
  intros e. by rewrite E, E'.
Qed.

Lemma tally_le c : tally c <= length c.
Proof. unfold tally. induction c as [|[] c IH]; simpl; lia. Qed.
Lemma tally_set c i : c !! i = Some false -> tally (<[i := true]> c) = S (tally c).
Proof.
  revert i. induction c as [|b c IH]; intros [|i] H; simpl in *; try done.
  - by injection H as ->.
  - unfold tally in *. simpl. destruct b; simpl; by rewrite IH.
Qed.
Lemma tally_lt c i : c !! i = Some false -> tally c < length c.
Proof. intros H. pose proof (tally_le (<[i:=true]> c)) as L. rewrite (tally_set _ _ H), insert_length in L. lia. Qed.

(** The shared state of a leaf: [c] tells which slots have been given a rank at some time; the others are
    free or reserved by insertions that are under way. *)
Record winv (c : list bool) m ss : Prop := {
  wi_co : coherent m ss;
  wi_clen : length c = 14;
  wi_c : forall i, c !! i = Some true -> ranks m !! i <> Some 0;
  wi_live : forall i r, ranks m !! i = Some r -> live r = true -> c !! i = Some true /\ r <= tally c;
  wi_ret : retired m = true -> forall i r, ranks m !! i = Some r -> live r = false }.
Definition good l : Prop := exists c, winv c (md l) (slots l).
Lemma good_co l : good l -> coherent (md l) (slots l).
Proof. intros [c W]. apply W. Qed.

Lemma bumped_cases cf j r : bumped cf j r = r \/ (live r = true /\ cf j = Gt /\ bumped cf j r = S r).
Proof. unfold bumped. destruct (live r), (cf j); auto. Qed.
Lemma bumped_live cf j r n : live r = true -> r <= n -> n < 14 -> live (bumped cf j r) = true /\ bumped cf j r <= S n.
Proof.
  intros L H1 H2. destruct (bumped_cases cf j r) as [->|(_ & _ & ->)]; [split; [done|lia]|].
  split; [apply live_spec|]; lia.
Qed.
Lemma bumped_dead cf j r : live r = false -> bumped cf j r = r.
Proof. unfold bumped. by intros ->. Qed.

(** Committing the entry in the reserved slot [free]. *)
Lemma post_spec c m ss free k v : winv c m ss -> retired m = false -> ranks m !! free = Some 15 ->
  c !! free = Some false -> ss !! free = Some (Some (k, v)) ->
  match post (compare_at cmp ss k) m free with
  | None => exists v', sstored m ss (k, v')
  | Some m' => winv (<[free := true]> c) m' ss /\ frozen m' = frozen m /\ retired m' = false /\
      (forall e, sstored m' ss e <-> e = (k, v) \/ sstored m ss e) /\ (forall v', ~ sstored m ss (k, v')) /\
      (forall i, i <> free -> (exists r, ranks m !! i = Some r /\ live r = true) \/ ranks m' !! i = ranks m !! i)
  end.
Proof.
  intros W Rt Hf Cf Sf. pose proof (wi_co _ _ _ W) as C. unfold post.
  set (cf := compare_at cmp ss k).
  pose proof (post_loop_spec (ranks m) cf (co_le _ _ C) (co_inj _ _ C)
    (co_mono_lt _ _ k C) (co_mono_gt _ _ k C) (ranks m) 0 0 removed_rank eq_refl
    (lo_0 _ _) (hi_15 _ _ _) (told_0 _ _ _ _)) as P.
  destruct (post_loop cf (ranks m) 0 0 removed_rank) as [[z lo]|]; cbn [mbind option_bind fst snd].
  2:{ destruct P as (j & r & Hj & Lj & Ej). destruct (co_init _ _ C _ _ Hj Lj) as [[k' v'] He].
      unfold cf in Ej. rewrite (compare_at_some _ _ _ _ He) in Ej. apply cmp_eq in Ej; [|done]. simpl in Ej. subst k'.
      exists v', j, r. done. }
  destruct P as (Lz & Z & Lo & F).
  assert (forall j r, ranks m !! j = Some r -> z !! j = Some (bumped cf j r)) as Z' by (intros; by apply Z).
  clear Z. rename Z' into Z.
  pose proof (tally_lt _ _ Cf) as Tl. rewrite (wi_clen _ _ _ W) in Tl.
  assert (lo <= tally c) as Hlo.
  { destruct Lo as [->|(j & Hj & Lj & _)]; [lia|]. by eapply wi_live. }
  assert (live (S lo) = true) as Ls by (apply live_spec; lia).
  assert (free < length z) as Hfz by (rewrite Lz; by eapply lookup_lt_Some).
  set (R' := <[free := S lo]> z).
  assert (R' !! free = Some (S lo)) as R1 by (by apply list_lookup_insert).
  assert (forall j, j <> free -> R' !! j = z !! j) as R2 by (intros; by apply list_lookup_insert_ne).
  (* the slots of the new metadata *)
  assert (forall j r', R' !! j = Some r' -> (j = free /\ r' = S lo) \/
    (j <> free /\ exists r, ranks m !! j = Some r /\ r' = bumped cf j r)) as Inv.
  { intros j r' H. destruct (decide (j = free)) as [->|N]; [left; split; congruence|].
    rewrite R2 in H by done. right. split; [done|].
    destruct (lookup_lt_is_Some_2 (ranks m) j) as [r Hr].
    { rewrite <-Lz. by eapply lookup_lt_Some. }
    exists r. split; [done|]. rewrite (Z _ _ Hr) in H. congruence. }
  assert (forall j r, ranks m !! j = Some r -> live (bumped cf j r) = live r) as Lv.
  { intros j r Hr. destruct (live r) eqn:E; [|by rewrite bumped_dead].
    pose proof (wi_live _ _ _ W _ _ Hr E) as [_ ?]. by eapply bumped_live with (n := tally c). }
  assert (forall j r, ranks m !! j = Some r -> live r = true -> j <> free) as Nf.
  { intros j r Hr Lr ->. rewrite Hf in Hr. injection Hr as <-. done. }
  assert (forall j r, ranks m !! j = Some r -> live r = true ->
    (cf j = Lt /\ bumped cf j r = r /\ r <= lo) \/ (cf j = Gt /\ bumped cf j r = S r /\ lo < r)) as FF.
  { intros j r Hr Lr. unfold bumped. rewrite Lr. destruct (F j r Hr Lr) as [[-> ?]|[-> ?]]; auto. }
  assert (coherent (Meta R' (frozen m) (retired m)) ss) as C'.
  { split; cbn [ranks].
    - unfold R'. rewrite insert_length, Lz. apply C.
    - apply C.
    - intros j r' H. apply Inv in H as [[-> ->]|(N & r & Hr & ->)]; [lia|].
      destruct (live r) eqn:E; [|rewrite bumped_dead by done; by eapply (co_le _ _ C)].
      destruct (bumped_live cf j r (tally c)); [done|by eapply wi_live|done|lia].
    - intros j r' H L. apply Inv in H as [[-> ->]|(N & r & Hr & ->)]; [eauto|].
      rewrite Lv in L by done. by eapply (co_init _ _ C).
    - intros i j r' Hi Hj L.
      apply Inv in Hi as [[-> Er]|(N & r & Hr & Er)]; apply Inv in Hj as [[-> Er2]|(N2 & r2 & Hr2 & Er2)].
      + done.
      + exfalso. rewrite Er2, Lv in L by done. destruct (FF _ _ Hr2 L) as [(? & ? & ?)|(? & ? & ?)]; lia.
      + exfalso. rewrite Er, Lv in L by done. destruct (FF _ _ Hr L) as [(? & ? & ?)|(? & ? & ?)]; lia.
      + assert (live r = true) as L1 by (by rewrite Er, Lv in L).
        assert (live r2 = true) as L2 by (by rewrite Er2, Lv in L).
        assert (r = r2) as ->.
        { destruct (FF _ _ Hr L1) as [(? & ? & ?)|(? & ? & ?)], (FF _ _ Hr2 L2) as [(? & ? & ?)|(? & ? & ?)]; lia. }
        by eapply (co_inj _ _ C).
    - intros i j r1 r2 e e' Hi Hj L1 L2 He He' Hlt.
      apply Inv in Hi as [[-> ->]|(N & r & Hr & ->)]; apply Inv in Hj as [[-> ->]|(N2 & r' & Hr' & ->)].
      + lia.
      + rewrite Lv in L2 by done. destruct (FF _ _ Hr' L2) as [(? & ? & ?)|(Cj & ? & ?)]; [lia|].
        unfold cf in Cj. rewrite (compare_at_some _ _ _ _ He') in Cj. rewrite Sf in He. injection He as <-.
        by apply cmp_gt in Cj.
      + rewrite Lv in L1 by done. destruct (FF _ _ Hr L1) as [(Cj & ? & ?)|(Cj & ? & ?)]; [|lia].
        unfold cf in Cj. rewrite (compare_at_some _ _ _ _ He) in Cj. rewrite Sf in He'. injection He' as <-. done.
      + rewrite Lv in L1, L2 by done. eapply (co_ord _ _ C i j r r'); eauto.
        destruct (FF _ _ Hr L1) as [(? & ? & ?)|(? & ? & ?)], (FF _ _ Hr' L2) as [(? & ? & ?)|(? & ? & ?)]; lia. }
  unfold augment. cbn [ranks frozen retired]. fold R'. split; [|split; [done|split; [done|split; [|split]]]].
  - split; [done|by rewrite insert_length; apply W| | |by rewrite Rt].
    + intros i H E. cbn [ranks] in E. apply Inv in E as [[-> E]|(N & r & Hr & E)]; [done|].
      rewrite list_lookup_insert_ne in H by done. apply (wi_c _ _ _ W i H).
      destruct (bumped_cases cf i r) as [E'|(_ & _ & E')]; [congruence|lia].
    + intros i r' H L. cbn [ranks] in H. rewrite (tally_set _ _ Cf).
      apply Inv in H as [[-> ->]|(N & r & Hr & ->)].
      * rewrite list_lookup_insert; [split; [done|lia]|]. by eapply lookup_lt_Some.
      * rewrite Lv in L by done. destruct (wi_live _ _ _ W _ _ Hr L). rewrite list_lookup_insert_ne by done.
        split; [done|]. by eapply bumped_live.
  - intros e. split.
    + intros (i & r' & H & L & He). cbn [ranks] in H. apply Inv in H as [[-> ->]|(N & r & Hr & ->)].
      * left. congruence.
      * right. rewrite Lv in L by done. exists i, r. done.
    + intros [->|(i & r & Hr & L & He)].
      * exists free, (S lo). done.
      * exists i, (bumped cf i r). cbn [ranks]. rewrite R2 by (by eapply Nf). split; [by apply Z|]. by rewrite Lv.
  - intros v' (i & r & Hr & L & He). destruct (F i r Hr L) as [[Ci _]|[Ci _]];
      unfold cf in Ci; rewrite (compare_at_some _ _ _ _ He) in Ci; simpl in Ci; by rewrite cmp_refl in Ci.
  - intros i N. destruct (ranks m !! i) as [r|] eqn:Hr.
    + destruct (live r) eqn:E; [left; eauto|]. right. cbn [ranks]. rewrite R2, (Z _ _ Hr), bumped_dead; done.
    + right. cbn [ranks]. rewrite R2 by done. apply lookup_ge_None. rewrite Lz. by apply lookup_ge_None.
Qed.

(** Removing the entry of a live slot. *)
Lemma removal_spec c m ss i r k v : winv c m ss -> ranks m !! i = Some r -> live r = true -> ss !! i = Some (Some (k, v)) ->
  let m' := removal m i in
  winv c m' ss /\ frozen m' = frozen m /\ ranks m' !! i = Some 15 /\
  (retired m' = true <-> others_empty (ranks m) 0 i = true) /\
  (others_empty (ranks m) 0 i = true <-> forall e, ~ sstored m' ss e) /\
  (forall j, j <> i -> ranks m' !! j = ranks m !! j) /\
  (forall e, sstored m' ss e <-> sstored m ss e /\ e.1 <> k).
Proof.
  intros W Hr Lr He. pose proof (wi_co _ _ _ W) as C.
  assert (retired m = false) as Rt.
  { destruct (retired m) eqn:E; [|done]. rewrite (wi_ret _ _ _ W E _ _ Hr) in Lr. done. }
  assert (i < length (ranks m)) as Hi by (by eapply lookup_lt_Some).
  set (R' := <[i := 15]> (ranks m)).
  assert (R' !! i = Some 15) as R1 by (by apply list_lookup_insert).
  assert (forall j, j <> i -> R' !! j = ranks m !! j) as R2 by (intros; by apply list_lookup_insert_ne).
  assert (forall j r', R' !! j = Some r' -> live r' = true -> j <> i /\ ranks m !! j = Some r') as Inv.
  { intros j r' H L. destruct (decide (j = i)) as [->|N]; [|rewrite R2 in H by done; done].
    rewrite R1 in H. injection H as <-. done. }
  assert (forall f t, (t = true -> forall j r', R' !! j = Some r' -> live r' = false) -> winv c (Meta R' f t) ss) as WW.
  { intros f t Ht. split; cbn [ranks retired].
    - split; cbn [ranks].
      + unfold R'. rewrite insert_length. apply C.
      + apply C.
      + intros j r' H. destruct (decide (j = i)) as [->|N].
        * rewrite R1 in H. injection H as <-. lia.
        * rewrite R2 in H by done. by eapply (co_le _ _ C).
      + intros j r' H L. apply Inv in H as [_ H]; [|done]. by eapply (co_init _ _ C).
      + intros j j' r' H1 H2 L. apply Inv in H1 as [_ H1]; [|done]. apply Inv in H2 as [_ H2]; [|done]. by eapply (co_inj _ _ C).
      + intros j j' r1 r2 e e' H1 H2 L1 L2. apply Inv in H1 as [_ H1]; [|done]. apply Inv in H2 as [_ H2]; [|done].
        by eapply (co_ord _ _ C).
    - apply W.
    - intros j H E. destruct (decide (j = i)) as [->|N]; [by rewrite R1 in E|].
      rewrite R2 in E by done. by apply (wi_c _ _ _ W j).
    - intros j r' H L. apply Inv in H as [_ H]; [|done]. by eapply (wi_live _ _ _ W).
    - done. }
  assert (forall f t e, sstored (Meta R' f t) ss e <-> sstored m ss e /\ e.1 <> k) as SS.
  { intros f t e. split.
    - intros (j & r' & H & L & Hs). cbn [ranks] in H. apply Inv in H as [N H]; [|done]. split; [by exists j, r'|].
      intros E. apply N. by eapply (sstored_slot m ss j i r' r e (k, v)).
    - intros [(j & r' & H & L & Hs) N]. exists j, r'. cbn [ranks]. rewrite R2; [done|].
      intros ->. apply N. rewrite He in Hs. by injection Hs as <-. }
  assert (others_empty (ranks m) 0 i = true <-> forall j r', R' !! j = Some r' -> live r' = false) as OE.
  { rewrite others_empty_spec. split.
    - intros H j r' Hj. destruct (decide (j = i)) as [->|N]; [rewrite R1 in Hj; by injection Hj as <-|].
      rewrite R2 in Hj by done. by eapply H.
    - intros H j r' Hj N. apply (H j). by rewrite R2. }
  assert (forall f t, (forall j r', R' !! j = Some r' -> live r' = false) <-> forall e, ~ sstored (Meta R' f t) ss e) as NS.
  { intros f t. split.
    - intros H e (j & r' & Hj & L & _). cbn [ranks] in Hj. by rewrite (H _ _ Hj) in L.
    - intros H j r' Hj. apply not_true_is_false. intros L. apply Inv in Hj as Hj'; [|done]. destruct Hj' as [_ Hj'].
      destruct (co_init _ _ C _ _ Hj' L) as [e Hs]. apply (H e). by exists j, r'. }
  unfold removal. destruct (others_empty (ranks m) 0 i) eqn:E; cbn zeta; unfold retire, augment; cbn [ranks frozen retired]; fold R'.
  - split; [apply WW; intros _; by apply OE|]. split; [done|]. split; [done|]. split; [done|].
    split; [|split; [done|apply SS]]. split; [intros _; apply NS; by apply OE|done].
  - split; [apply WW; by rewrite Rt|]. split; [done|]. split; [done|]. split; [by rewrite Rt|].
    split; [|split; [done|apply SS]]. split; [done|]. intros H. apply OE. by eapply NS.
Qed.

Lemma reserve_spec c m ss i x : winv c m ss -> ranks m !! i = Some 0 ->
  winv c (augment m i 15) (<[i := x]> ss) /\ c !! i = Some false /\
  forall e, sstored (augment m i 15) (<[i := x]> ss) e <-> sstored m ss e.
Proof.
  intros W Hi. pose proof (wi_co _ _ _ W) as C.
  assert (i < length (ranks m)) as Hl by (by eapply lookup_lt_Some).
  assert (forall j r', <[i := 15]> (ranks m) !! j = Some r' -> live r' = true -> j <> i /\ ranks m !! j = Some r') as Inv.
  { intros j r' H L. destruct (decide (j = i)) as [->|N]; [|by rewrite list_lookup_insert_ne in H].
    rewrite list_lookup_insert in H by done. injection H as <-. done. }
  assert (forall j e, j <> i -> <[i := x]> ss !! j = Some (Some e) <-> ss !! j = Some (Some e)) as SI.
  { intros. by rewrite list_lookup_insert_ne. }
  split; [|split].
  - split; unfold augment; cbn [ranks retired].
    + split; cbn [ranks].
      * rewrite insert_length. apply C.
      * rewrite insert_length. apply C.
      * intros j r' H. destruct (decide (j = i)) as [->|N].
        -- rewrite list_lookup_insert in H by done. injection H as <-. lia.
        -- rewrite list_lookup_insert_ne in H by done. by eapply (co_le _ _ C).
      * intros j r' H L. apply Inv in H as [N H]; [|done]. destruct (co_init _ _ C _ _ H L) as [e He]. exists e. by apply SI.
      * intros j j' r' H1 H2 L. apply Inv in H1 as [_ H1]; [|done]. apply Inv in H2 as [_ H2]; [|done]. by eapply (co_inj _ _ C).
      * intros j j' r1 r2 e e' H1 H2 L1 L2. apply Inv in H1 as [N1 H1]; [|done]. apply Inv in H2 as [N2 H2]; [|done].
        rewrite !SI by done. by eapply (co_ord _ _ C).
    + apply W.
    + intros j H E. destruct (decide (j = i)) as [->|N]; [by rewrite list_lookup_insert in E|].
      rewrite list_lookup_insert_ne in E by done. by apply (wi_c _ _ _ W j).
    + intros j r' H L. apply Inv in H as [_ H]; [|done]. by eapply (wi_live _ _ _ W).
    + intros Rt j r' H. destruct (decide (j = i)) as [->|N].
      * rewrite list_lookup_insert in H by done. by injection H as <-.
      * rewrite list_lookup_insert_ne in H by done. by eapply (wi_ret _ _ _ W).
  - destruct (lookup_lt_is_Some_2 c i) as [[] H]; [rewrite (wi_clen _ _ _ W); by rewrite <-(co_len _ _ C)| |done].
    by destruct (wi_c _ _ _ W i H).
  - intros e. split.
    + intros (j & r' & H & L & Hs). apply Inv in H as [N H]; [|done]. exists j, r'. by rewrite SI in Hs.
    + intros (j & r' & H & L & Hs). assert (j <> i) as N by (intros ->; rewrite Hi in H; by injection H as <-).
      exists j, r'. cbn. rewrite list_lookup_insert_ne, SI; done.
Qed.
Lemma unreserve_spec c m ss i x : winv c m ss -> c !! i = Some false -> ranks m !! i = Some 15 ->
  winv c (augment m i 0) (<[i := x]> ss) /\
  forall e, sstored (augment m i 0) (<[i := x]> ss) e <-> sstored m ss e.
Proof.
  intros W Ci Hi. pose proof (wi_co _ _ _ W) as C.
  assert (i < length (ranks m)) as Hl by (by eapply lookup_lt_Some).
  assert (forall j r', <[i := 0]> (ranks m) !! j = Some r' -> live r' = true -> j <> i /\ ranks m !! j = Some r') as Inv.
  { intros j r' H L. destruct (decide (j = i)) as [->|N]; [|by rewrite list_lookup_insert_ne in H].
    rewrite list_lookup_insert in H by done. injection H as <-. done. }
  assert (forall j e, j <> i -> <[i := x]> ss !! j = Some (Some e) <-> ss !! j = Some (Some e)) as SI.
  { intros. by rewrite list_lookup_insert_ne. }
  split.
  - split; unfold augment; cbn [ranks retired].
    + split; cbn [ranks].
      * rewrite insert_length. apply C.
      * rewrite insert_length. apply C.
      * intros j r' H. destruct (decide (j = i)) as [->|N].
        -- rewrite list_lookup_insert in H by done. injection H as <-. lia.
        -- rewrite list_lookup_insert_ne in H by done. by eapply (co_le _ _ C).
      * intros j r' H L. apply Inv in H as [N H]; [|done]. destruct (co_init _ _ C _ _ H L) as [e He]. exists e. by apply SI.
      * intros j j' r' H1 H2 L. apply Inv in H1 as [_ H1]; [|done]. apply Inv in H2 as [_ H2]; [|done]. by eapply (co_inj _ _ C).
      * intros j j' r1 r2 e e' H1 H2 L1 L2. apply Inv in H1 as [N1 H1]; [|done]. apply Inv in H2 as [N2 H2]; [|done].
        rewrite !SI by done. by eapply (co_ord _ _ C).
    + apply W.
    + intros j H E. destruct (decide (j = i)) as [->|N]; [congruence|].
      rewrite list_lookup_insert_ne in E by done. by apply (wi_c _ _ _ W j).
    + intros j r' H L. apply Inv in H as [_ H]; [|done]. by eapply (wi_live _ _ _ W).
    + intros Rt j r' H. destruct (decide (j = i)) as [->|N].
      * rewrite list_lookup_insert in H by done. by injection H as <-.
      * rewrite list_lookup_insert_ne in H by done. by eapply (wi_ret _ _ _ W).
  - intros e. split.
    + intros (j & r' & H & L & Hs). apply Inv in H as [N H]; [|done]. exists j, r'. by rewrite SI in Hs.
    + intros (j & r' & H & L & Hs). assert (j <> i) as N by (intros ->; rewrite Hi in H; by injection H as <-).
      exists j, r'. cbn. rewrite list_lookup_insert_ne, SI; done.
Qed.
End ops.
