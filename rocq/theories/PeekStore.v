(** What one store of a writer changes for the readers of the bucket. *)
From Coq Require Import NArith Lia.
From stdpp Require Import prelude list numbers.
From Verif Require BucketSpec BucketFacts BucketOps.
From Verif Require Import PeekModel PeekSpec PeekInv PeekGood PeekOps.

Section store.
Context {K V : Type} `{EqDecision K} (hash : K -> N).
Notation obj := (obj K V).
Notation node := (node K V).
Notation bucket := (bucket K V).
Implicit Types (b : bucket) (nd : node) (x : obj) (n j h : nat) (w : write K V).
Implicit Types (E g e : N) (bs : list bucket) (ex : list (nat * nat * nat)).
Local Arguments BucketModel.bit : simpl never.
Local Arguments BucketSpec.tb : simpl never.
Local Arguments N.lor : simpl never.
Local Arguments N.ldiff : simpl never.
Local Arguments live_at : simpl never.
Local Arguments lv : simpl never.
Local Arguments byte : simpl never.

Definition tgt w : option nat :=
  match w with
  | WData n _ _ | WCell n _ _ | WStamp n _ | WOcc n _ | WRem n _ | WNext n _ | WDrop n _ => Some n
  | WLen _ | WNew _ => None
  end.
Definition eff e w nd : node :=
  match w with
  | WData _ j x => Node (occ nd) (rem nd) (cells nd) (<[j := Some x]> (data nd)) (next nd)
  | WCell _ j c => Node (occ nd) (rem nd) (<[j := c]> (cells nd)) (data nd) (next nd)
  | WStamp _ j => Node (occ nd) (rem nd) (<[j := byte e]> (cells nd)) (data nd) (next nd)
  | WOcc _ m => Node m (rem nd) (cells nd) (data nd) (next nd)
  | WRem _ m => Node (occ nd) m (cells nd) (data nd) (next nd)
  | WNext _ q => Node (occ nd) (rem nd) (cells nd) (data nd) q
  | WDrop _ j => Node (occ nd) (rem nd) (cells nd) (<[j := None]> (data nd)) (next nd)
  | WLen _ | WNew _ => nd
  end.
Lemma store_frozen e b w b' : store e b w = Some b' -> frozen b' = frozen b.
Proof. destruct w; cbn; unfold put; try (destruct (nodes b !! n); cbn); intros Q; try done; by injection Q as <-. Qed.
Lemma store_at e b w b' n nd : store e b w = Some b' -> nodes b !! n = Some nd ->
  exists nd', nodes b' !! n = Some nd' /\ ((tgt w <> Some n /\ nd' = nd) \/ (tgt w = Some n /\ nd' = eff e w nd)).
Proof.
  intros S En. assert (forall m f, put b m f = Some b' ->
    exists nd', nodes b' !! n = Some nd' /\ ((Some m <> Some n /\ nd' = nd) \/ (Some m = Some n /\ nd' = f nd))) as A.
  { intros m f P. unfold put in P. destruct (nodes b !! m) as [md|] eqn:Em; [|done]. cbn in P. injection P as <-. cbn.
    destruct (decide (m = n)) as [->|D].
    - rewrite En in Em. injection Em as <-. exists (f nd). split; [|by right]. apply list_lookup_insert. by eapply lookup_lt_Some.
    - exists nd. rewrite list_lookup_insert_ne by done. split; [done|]. left. split; [congruence|done]. }
  destruct w; cbn in S; try (by apply (A _ _ S)); injection S as <-; exists nd; cbn.
  - split; [done|]. by left.
  - split; [by apply lookup_app_l_Some|]. by left.
Qed.
Lemma store_back e b w b' n nd' : store e b w = Some b' -> nodes b' !! n = Some nd' ->
  (exists nd, nodes b !! n = Some nd) \/ (w = WNew nd' /\ n = length (nodes b)).
Proof.
  intros S En. assert (forall m f, put b m f = Some b' -> exists nd, nodes b !! n = Some nd) as A.
  { intros m f P. unfold put in P. destruct (nodes b !! m) as [md|] eqn:Em; [|done]. cbn in P. injection P as <-. cbn in En.
    apply lookup_lt_Some in En. rewrite insert_length in En. by apply lookup_lt_is_Some in En. }
  destruct w; cbn in S; try (left; by apply (A _ _ S)); injection S as <-; cbn in En.
  - left. by exists nd'.
  - apply lookup_app_Some in En as [En|[L En]]; [left; by exists nd'|]. apply list_lookup_singleton_Some in En as [Z ->].
    right. split; [done|lia].
Qed.

(** Entries that are not exempted stay, or have been transferred. *)
Lemma store_live E g ex bs h b w b' e n j x : pre E g ex bs h b w -> store e b w = Some b' ->
  live_at b n j = Some x -> (h, n, j) ∉ ex ->
  live_at b' n j = Some x \/
  (frozen b = true /\ h = 0 /\ exists t n' j', bs !! 1 = Some t /\ live_at t n' j' = Some x /\ (1, n', j') ∉ ex).
Proof.
  intros P S Lv NX. destruct (live_at_inv _ _ _ _ Lv) as (nd & En & Ln). destruct (store_at _ _ _ _ _ _ S En) as (nd' & En' & Q).
  rewrite (live_at_lv _ _ _ _ En'). destruct Q as [[_ ->]|[T ->]]; [by left|].
  pose proof Ln as Ln'. apply lv_some in Ln as (Oj & Rj & Dj).
  destruct w as [m i y|m i c|m i|m o|m r|l|m q|d|m i]; cbn in T; try done; injection T as ->; cbn in P.
  - destruct P as (_ & nd0 & E0 & O0). rewrite En in E0. injection E0 as <-. left. apply lv_some. cbn. repeat split; try done.
    rewrite list_lookup_insert_ne; [done|]. intros ->. congruence.
  - left. by apply lv_some.
  - left. by apply lv_some.
  - destruct P as (nd0 & E0 & P). rewrite En in E0. injection E0 as <-.
    destruct P as [(_ & i & y & -> & _)|[(_ & d & -> & D)|(F & Z & i & y & -> & Ly & t & n' & j' & Ht & Lt & Nt)]].
    + left. apply lv_some. cbn. by rewrite BucketFacts.tb_lor, Oj.
    + left. apply lv_some. cbn. rewrite BucketFacts.tb_ldiff, Oj. destruct (tb d j) eqn:Dd; [|done].
      destruct (D j Dd) as [? _]. congruence.
    + destruct (decide (i = j)) as [->|Nj].
      * right. split; [done|]. split; [done|]. exists t, n', j'. rewrite Lv in Ly. injection Ly as <-. done.
      * left. apply lv_some. cbn. by rewrite BucketFacts.tb_ldiff, BucketFacts.tb_bit, Oj, bool_decide_eq_false_2 by done.
  - destruct P as (_ & nd0 & E0 & P). rewrite En in E0. injection E0 as <-. left. apply lv_some. cbn. repeat split; try done.
    destruct P as [(i & r0 & -> & Mi & _)|(d & -> & _)].
    + rewrite BucketFacts.tb_lor, Rj, BucketFacts.tb_bit, bool_decide_eq_false_2; [done|]. by intros ->.
    + by rewrite BucketFacts.tb_ldiff, Rj.
  - left. by apply lv_some.
  - destruct P as (_ & nd0 & E0 & O0). rewrite En in E0. injection E0 as <-. left. apply lv_some. cbn. repeat split; try done.
    rewrite list_lookup_insert_ne; [done|]. intros ->. congruence.
Qed.

(** Blocks with entries stay behind the blocks they are behind of. *)
Inductive behind (ns : list node) : nat -> nat -> Prop :=
| behind_here n : behind ns n n
| behind_next m md q n : ns !! m = Some md -> next md = Some q -> behind ns q n -> behind ns m n.
Lemma path_behind (ns : list node) c : forall m n, path ns m c -> n ∈ m :: c -> behind ns m n.
Proof.
  induction c as [|q c IH]; intros m n P M.
  - apply elem_of_list_singleton in M as ->. constructor.
  - apply elem_of_cons in M as [->|M]; [constructor|]. destruct P as (md & Em & Nx & P). eapply behind_next; [done|done|]. by apply IH.
Qed.
Lemma behind_ext (ns ns' : list node) m n : (forall q qd, ns !! q = Some qd -> exists qd', ns' !! q = Some qd' /\ next qd' = next qd) ->
  behind ns m n -> behind ns' m n.
Proof.
  intros A B. induction B as [|m md q n Em Nx B IH]; [constructor|].
  destruct (A m md Em) as (md' & Em' & Nx'). eapply behind_next; [done|by rewrite Nx'|done].
Qed.
Lemma store_behind E g ex bs h b w b' e m n nd : pre E g ex bs h b w -> store e b w = Some b' ->
  behind (nodes b) m n -> nodes b !! n = Some nd -> occ nd <> 0%N -> behind (nodes b') m n.
Proof.
  intros P S B En Oc.
  assert ((exists k q, w = WNext k q) \/ (forall k q, w <> WNext k q)) as [(k & q & ->)|NN]
    by (destruct w; (by left; eauto) || (by right; intros)).
  2:{ apply (behind_ext (nodes b)); [|done]. intros q qd Eq. destruct (store_at _ _ _ _ _ _ S Eq) as (qd' & Eq' & Q).
      exists qd'. split; [done|]. destruct Q as [[_ ->]|[_ ->]]; [done|]. destruct w; try done. exfalso. by eapply NN. }
  cbn in P. destruct P as (_ & kd & Ek & P).
  assert (nodes b' !! k = Some (Node (occ kd) (rem kd) (cells kd) (data kd) q)) as Ek'.
  { destruct (store_at _ _ _ _ _ _ S Ek) as (kd' & Ek' & [[T _]|[_ ->]]); [done|done]. }
  assert (forall i d, i <> k -> nodes b !! i = Some d -> nodes b' !! i = Some d) as Ne.
  { intros i d D Ei. destruct (store_at _ _ _ _ _ _ S Ei) as (d' & Ei' & [[_ ->]|[T _]]); [done|]. cbn in T. congruence. }
  induction B as [n|m md q' n Em Nx B IH]; [constructor|]. specialize (IH En).
  destruct (decide (m = k)) as [->|D].
  2:{ eapply behind_next; [by apply Ne|done|done]. }
  rewrite Ek in Em. injection Em as <-. destruct P as [(-> & u & ud & Nu & Eu & Ou & Xu)|[(Nk & _)|(u & ud & -> & Eu & Xu & Du)]].
  - exfalso. rewrite Nx in Nu. injection Nu as ->. inversion B as [|? ? ? ? Em' Nx']; subst; congruence.
  - congruence.
  - eapply behind_next; [done|done|]. cbn. eapply behind_next; [apply Ne; [congruence|done]|by rewrite Xu|done].
Qed.

(** A slot that is not in use is used by an insertion only. *)
Definition free nd j : Prop := tb (occ nd) j = false /\ tb (rem nd) j = false.
Lemma store_free E g ex bs h b w b' e n nd j : pre E g ex bs h b w -> store e b w = Some b' ->
  nodes b !! n = Some nd -> free nd j -> exists nd', nodes b' !! n = Some nd' /\ (free nd' j \/ exists x, live_at b' n j = Some x).
Proof.
  intros P S En (Oj & Rj). destruct (store_at _ _ _ _ _ _ S En) as (nd' & En' & Q). exists nd'. split; [done|].
  rewrite (live_at_lv _ _ _ _ En'). destruct Q as [[_ ->]|[T ->]]; [by left|].
  destruct w as [m i y|m i c|m i|m o|m r|l|m q|d|m i]; cbn in T; try done; injection T as ->; cbn in P; try (by left).
  - destruct P as (nd0 & E0 & P). rewrite En in E0. injection E0 as <-.
    destruct P as [(_ & i & y & -> & Oi & Ri & Di & _)|[(_ & d & -> & D)|(F & Z & i & y & -> & _)]].
    + destruct (decide (i = j)) as [->|Nj].
      * right. exists y. apply lv_some. cbn. by rewrite BucketFacts.tb_lor, BucketFacts.tb_bit, bool_decide_eq_true_2, orb_true_r.
      * left. split; [|done]. cbn. by rewrite BucketFacts.tb_lor, BucketFacts.tb_bit, Oj, bool_decide_eq_false_2.
    + left. split; [|done]. cbn. by rewrite BucketFacts.tb_ldiff, Oj.
    + left. split; [|done]. cbn. by rewrite BucketFacts.tb_ldiff, Oj.
  - destruct P as (_ & nd0 & E0 & P). rewrite En in E0. injection E0 as <-. left. split; [done|]. cbn.
    destruct P as [(i & r0 & -> & _ & Oi & _)|(d & -> & _)].
    + rewrite BucketFacts.tb_lor, Rj, BucketFacts.tb_bit, bool_decide_eq_false_2; [done|]. intros ->. congruence.
    + by rewrite BucketFacts.tb_ldiff, Rj.
Qed.

(** The contents of a slot in use stay, and its removal is stamped with an epoch that is not older than
    the guards that may see it. *)
Definition held_back (E g : N) nd j : Prop :=
  tb (occ nd) j = true /\ (tb (rem nd) j = true -> exists r, cells nd !! j = Some (byte r) /\ (r <= E)%N /\ (g <= r + 1)%N).
Lemma store_held E g ex bs h b w b' g' n nd j :
  pre E g ex bs h b w -> store E b w = Some b' -> (E <= g + 1)%N -> (g' <= E)%N ->
  nodes b !! n = Some nd -> held_back E g' nd j -> (forall m, w = WOcc n m -> tb m j = true) ->
  exists nd', nodes b' !! n = Some nd' /\ data nd' !! j = data nd !! j /\ held_back E g' nd' j.
Proof.
  intros P S Eg Eg' En (Oj & Rj) Qt. destruct (store_at _ _ _ _ _ _ S En) as (nd' & En' & Q). exists nd'. split; [done|].
  destruct Q as [[_ ->]|[T ->]]; [by split|].
  destruct w as [m i y|m i c|m i|m o|m r|l|m q|d|m i]; cbn in T; try done; injection T as ->; cbn in P.
  - destruct P as (_ & nd0 & E0 & O0). rewrite En in E0. injection E0 as <-. cbn. rewrite list_lookup_insert_ne by congruence. by split.
  - destruct P as (_ & nd0 & E0 & O0). rewrite En in E0. injection E0 as <-. split; [done|]. split; [done|]. cbn.
    rewrite list_lookup_insert_ne by congruence. done.
  - destruct P as (_ & _ & nd0 & E0 & O0). rewrite En in E0. injection E0 as <-. split; [done|]. split; [done|]. cbn. intros R.
    rewrite list_lookup_insert_ne by congruence. auto.
  - split; [done|]. split; [|done]. cbn. by apply Qt.
  - destruct P as (_ & nd0 & E0 & P). rewrite En in E0. injection E0 as <-. split; [done|]. split; [done|]. cbn. intros R.
    destruct P as [(i & r0 & -> & _ & Oi & Ci & Hr)|(d & -> & _)].
    + rewrite BucketFacts.tb_lor, BucketFacts.tb_bit in R. apply orb_prop in R as [R|R]; [auto|]. apply bool_decide_eq_true in R as ->.
      exists r0. split; [done|]. lia.
    + rewrite BucketFacts.tb_ldiff in R. apply andb_prop in R as [R _]. auto.
  - destruct P as (_ & nd0 & E0 & O0). rewrite En in E0. injection E0 as <-. cbn. rewrite list_lookup_insert_ne by congruence. by split.
Qed.
(** Nothing is written to the slots of a bucket that is being relocated. *)
Lemma store_frozen_data E g ex bs h b w b' e n nd : pre E g ex bs h b w -> store e b w = Some b' -> frozen b = true ->
  nodes b !! n = Some nd -> exists nd', nodes b' !! n = Some nd' /\ data nd' = data nd.
Proof.
  intros P S F En. destruct (store_at _ _ _ _ _ _ S En) as (nd' & En' & Q). exists nd'. split; [done|].
  destruct Q as [[_ ->]|[T ->]]; [done|]. destruct w; cbn in *; try done; destruct P as [P _]; congruence.
Qed.
(** Links lead to blocks. *)
Definition nexts b : Prop := forall n nd q, nodes b !! n = Some nd -> next nd = Some q -> exists qd, nodes b !! q = Some qd.
Lemma store_nexts E g ex bs h b w b' e : pre E g ex bs h b w -> store e b w = Some b' -> nexts b -> nexts b'.
Proof.
  intros P S N n nd' q En' Nx. assert (forall q qd, nodes b !! q = Some qd -> exists qd', nodes b' !! q = Some qd') as G.
  { intros q' qd Eq. destruct (store_at _ _ _ _ _ _ S Eq) as (? & ? & _). eauto. }
  assert (exists qd, nodes b !! q = Some qd) as (qd & Eq); [|by apply (G q qd)].
  destruct (store_back _ _ _ _ _ _ S En') as [(nd & En)|[-> ->]].
  2:{ destruct P as (_ & P). by apply P. }
  destruct (store_at _ _ _ _ _ _ S En) as (nd'' & En'' & Q). rewrite En' in En''. injection En'' as <-.
  destruct Q as [[_ ->]|[T ->]]; [by apply (N n nd)|]. destruct w; cbn in T, Nx; try (by apply (N n nd)). injection T as ->. subst.
  cbn in P. destruct P as (_ & nd0 & E0 & P). destruct P as [(? & _)|[(_ & u & ud & [= ->] & Eu)|(u & ud & [= ->] & Eu & _)]]; [done|eauto|eauto].
Qed.
End store.
