(** An entry of a HashCache that was put or got survives the next 31 uses of its bucket. *)
From Coq Require Import NArith Lia.
From stdpp Require Import prelude list numbers.
From Verif Require Import MapSpec MapFacts BucketModel TableModel CacheModel CacheSpec CacheThms LvSpec.

Section facts.
Context {K V : Type} `{EqDecision K} (hash : K -> N).
Implicit Types (m l : list (K * V)) (k : K).

(** ** Runs *)
Fixpoint lru_end cap m (os : list (cop K V)) : list (K * V) :=
  match os with [] => m | o :: os' => lru_end cap (next m o (lru_out hash cap m o)) os' end.
Lemma lru_end_app cap os os' : forall m, lru_end cap m (os ++ os') = lru_end cap (lru_end cap m os) os'.
Proof. induction os as [|o os IH]; intros m; [done|]. cbn. apply IH. Qed.
Lemma lru_run_snoc cap os o : forall m, lru_run hash cap m (os ++ [o]) = lru_run hash cap m os ++ [lru_out hash cap (lru_end cap m os) o].
Proof. induction os as [|o' os IH]; intros m; [done|]. cbn. by rewrite IH. Qed.
Lemma crun_snoc sg (os : list (cop K V)) o : forall tb, crun sg hash tb (os ++ [o]) = r ← crun sg hash tb os; q ← cstep sg hash r.1 o; Some (q.1, r.2 ++ [q.2]).
Proof.
  induction os as [|o' os IH]; intros tb; cbn [crun app].
  - change (crun sg hash tb []) with (Some (tb, @nil (cout K V))). cbn [mbind option_bind fst snd]. destruct (cstep sg hash tb o) as [[]|]; done.
  - destruct (cstep sg hash tb o') as [[tb1 x]|]; [|done]. cbn [mbind option_bind fst snd]. rewrite IH.
    destruct (crun sg hash tb1 os) as [[tb2 xs]|]; [|done]. cbn [mbind option_bind fst snd]. destruct (cstep sg hash tb2 o) as [[]|]; done.
Qed.
Context (Hh : forall k, (hash k < 2 ^ 64)%N).
Lemma cafter_lru sg mn mx (os : list (cop K V)) o : (0 < mn)%N -> (mx <= mn)%N -> let cap := cap_after sg hash mn mx (@nil (cop K V)) in
  exists x, cafter sg hash mn mx os o = Some x /\ agree x (lru_out hash cap (lru_end cap [] os) o).
Proof.
  intros P Le cap. destruct (lC21_cache_is_lru hash Hh sg mn mx (os ++ [o]) P Le) as (tb & outs & E & A). fold cap in A.
  unfold run_cache in E. unfold cafter, run_cache. destruct (new_cache mn mx) as [t0|]; [|done]. cbn [mbind option_bind] in *.
  rewrite crun_snoc in E. destruct (crun sg hash t0 os) as [[tb1 xs]|]; [|done]. cbn [mbind option_bind fst snd] in *.
  destruct (cstep sg hash tb1 o) as [[tb2 x]|]; [|done]. cbn [mbind option_bind fst snd] in *. injection E as <- <-.
  rewrite lru_run_snoc in A. exists x. split; [done|]. apply Forall2_app_inv_l in A as (l1 & l2 & A1 & A2 & E2).
  inversion A2 as [|? y ? l3 Ay A3]; subst. inversion A3; subst. apply app_inj_tail in E2 as [_ ->]. done.
Qed.
Lemma look_lru sg mn mx (os : list (cop K V)) k : (0 < mn)%N -> (mx <= mn)%N -> let cap := cap_after sg hash mn mx (@nil (cop K V)) in
  look sg hash mn mx os k = assoc k (lru_end cap [] os).
Proof.
  intros P Le cap. destruct (cafter_lru sg mn mx os (CRead k) P Le) as (x & E & A). fold cap in A. unfold look. rewrite E.
  cbn in A. destruct x; try done. injection A as ->. by destruct (assoc k _).
Qed.

(** ** The entry and how many of its bucket are more recent *)
Definition nb cap k l : list (K * V) := filter (fun e => bucket_of cap (hash e.1) = bucket_of cap (hash k)) l.
Definition ahead cap k m (i : nat) : Prop := exists l1 v l2, m = l1 ++ (k, v) :: l2 /\ k ∉ l1.*1 /\ k ∉ l2.*1 /\ length (nb cap k l1) <= i.
Lemma ahead_some cap k m i : ahead cap k m i -> exists v, assoc k m = Some v.
Proof.
  intros (l1 & v & l2 & -> & N1 & _). exists v. induction l1 as [|[k1 v1] l1 IH]; cbn; [by rewrite decide_True|].
  cbn in N1. apply not_elem_of_cons in N1 as [N N1]. rewrite decide_False by done. by apply IH.
Qed.
Lemma nb_le cap k l l' : sublist l l' -> length (nb cap k l) <= length (nb cap k l').
Proof.
  unfold nb. induction 1 as [|x l l' S IH|x l l' S IH]; [done| |]; rewrite ?filter_cons; repeat destruct (decide _); cbn; try lia; done.
Qed.
Lemma filter_sub (P : K * V -> Prop) `{forall x, Decision (P x)} l : sublist (filter P l) l.
Proof. induction l as [|x l IH]; [done|]. rewrite filter_cons. destruct (decide _); by constructor. Qed.
Lemma keys_del k k' l : k ∉ l.*1 -> k ∉ (del k' l).*1.
Proof. intros N M. apply N. apply elem_of_list_fmap in M as (e & -> & M). apply elem_of_list_filter in M as [_ M]. apply elem_of_list_fmap. eauto. Qed.
Lemma ahead_del cap k k' m i : k' <> k -> ahead cap k m i -> ahead cap k (del k' m) i.
Proof.
  intros D (l1 & v & l2 & -> & N1 & N2 & L). exists (del k' l1), v, (del k' l2). unfold del. rewrite list.filter_app, filter_cons. cbn.
  destruct (decide (k <> k')) as [_|X]; [|exfalso; apply X; congruence]. split; [done|]. split; [by apply keys_del|]. split; [by apply keys_del|].
  etrans; [|exact L]. apply nb_le, filter_sub.
Qed.
Lemma ahead_mono cap k m i j : i <= j -> ahead cap k m i -> ahead cap k m j.
Proof. intros L (l1 & v & l2 & -> & N1 & N2 & L1). exists l1, v, l2. split; [done|]. split; [done|]. split; [done|]. lia. Qed.
(** A change of values, entry by entry. *)
Lemma ahead_map cap k m i (g : K * V -> V) : ahead cap k m i -> ahead cap k (map (fun e => (e.1, g e)) m) i.
Proof.
  intros (l1 & v & l2 & -> & N1 & N2 & L). rewrite map_app. cbn [map fst].
  exists (map (fun e => (e.1, g e)) l1), (g (k, v)), (map (fun e => (e.1, g e)) l2). split; [done|].
  assert (Q : forall l, (map (fun e => (e.1, g e)) l).*1 = l.*1) by (intros l; induction l as [|e l IH]; cbn; [done|by rewrite IH]).
  rewrite !Q. split; [done|]. split; [done|]. etrans; [|exact L]. clear. unfold nb. induction l1 as [|e l1 IH]; [done|]. cbn [map]. rewrite !filter_cons. cbn [fst].
  destruct (decide _); cbn; lia.
Qed.
Lemma upd_map k w m : upd k w m = map (fun e => (e.1, if decide (e.1 = k) then w else e.2)) m.
Proof. unfold upd. apply map_ext. intros [k' v']. cbn. by destruct (decide (k' = k)) as [->|]. Qed.
Lemma ahead_filter cap k m i (p : K * V -> bool) : (forall v, p (k, v) = true) -> ahead cap k m i -> ahead cap k (filter (fun e => p e = true) m) i.
Proof.
  intros Pk (l1 & v & l2 & -> & N1 & N2 & L). exists (filter (fun e => p e = true) l1), v, (filter (fun e => p e = true) l2).
  rewrite list.filter_app, filter_cons. rewrite decide_True by apply Pk. split; [done|].
  assert (F : forall l, k ∉ l.*1 -> k ∉ (filter (fun e => p e = true) l).*1).
  { intros l N M. apply N. apply elem_of_list_fmap in M as (e & -> & M). apply elem_of_list_filter in M as [_ M]. apply elem_of_list_fmap. eauto. }
  split; [by apply F|]. split; [by apply F|]. etrans; [|exact L]. apply nb_le, filter_sub.
Qed.
(** It is not evicted while fewer than 31 of its bucket are more recent. *)
Lemma ahead_victim cap k m i k' : i <= 30 -> ahead cap k m i -> forall x, victim hash cap m k' = Some x -> x.1 <> k.
Proof.
  intros Li (l1 & v & l2 & -> & N1 & N2 & L) x. unfold victim. destruct (_ <? 32)%nat eqn:E; [done|]. apply Nat.ltb_ge in E. intros La Q.
  assert (M : x ∈ neighbours hash cap (l1 ++ (k, v) :: l2) k').
  { apply list.last_Some in La as (l & ->). apply elem_of_app. right. left. }
  apply elem_of_list_filter in M as [Bx _]. rewrite Q in Bx.
  assert (E' : neighbours hash cap (l1 ++ (k, v) :: l2) k' = nb cap k l1 ++ (k, v) :: nb cap k l2).
  { unfold neighbours, nb. rewrite list.filter_app, filter_cons. cbn [fst]. rewrite decide_True by done. rewrite Bx. done. }
  rewrite E' in *. rewrite app_length in E. cbn [length] in E. destruct (nb cap k l2) as [|y l3] eqn:En; [cbn in E; lia|].
  rewrite list.last_app_cons in La. rewrite last_cons_cons in La.
  apply N2. rewrite <- Q. apply elem_of_list_fmap. exists x. split; [done|].
  assert (M : x ∈ nb cap k l2). { rewrite En. apply list.last_Some in La as (l & ->). apply elem_of_app. right. left. }
  apply elem_of_list_filter in M. apply M.
Qed.
Lemma ahead_without cap k m i k' : i <= 30 -> ahead cap k m i -> ahead cap k (without (victim hash cap m k') m) i.
Proof.
  intros Li A. destruct (victim hash cap m k') as [x|] eqn:E; [|done]. cbn. apply ahead_del; [|done]. by eapply ahead_victim.
Qed.
Lemma ahead_top cap k v m : k ∉ m.*1 -> ahead cap k ((k, v) :: m) 0.
Proof. intros N. exists [], v, m. split; [done|]. split; [by apply not_elem_of_nil|]. done. Qed.
Lemma del_no k m : k ∉ (del k m).*1.
Proof. intros M. apply elem_of_list_fmap in M as (e & Q & M). apply elem_of_list_filter in M as [N _]. by apply N. Qed.
Lemma assoc_none_keys k m : assoc k m = None -> k ∉ m.*1.
Proof. intros N M. apply elem_of_list_fmap in M as ([k' v'] & -> & M). cbn in *. induction m as [|[k1 v1] m IH]; [by apply elem_of_nil in M|]. cbn in N.
  destruct (decide _); [done|]. apply elem_of_cons in M as [[= -> ->]|M]; [done|]. by apply IH. Qed.
(** One more ahead of it, if that one is in its bucket. *)
Definition one cap k k' : nat := if decide (bucket_of cap (hash k') = bucket_of cap (hash k)) then 1 else 0.
Lemma ahead_cons cap k e m i : e.1 <> k -> ahead cap k m i -> ahead cap k (e :: m) (i + one cap k e.1).
Proof.
  intros D (l1 & v & l2 & -> & N1 & N2 & L). exists (e :: l1), v, l2. split; [done|]. split; [cbn; by apply not_elem_of_cons|]. split; [done|].
  unfold nb, one in *. rewrite filter_cons. destruct (decide _); cbn; lia.
Qed.
(** An eviction on behalf of a key of another bucket is of an entry of that bucket. *)
Lemma victim_bucket cap m k' x : victim hash cap m k' = Some x -> bucket_of cap (hash x.1) = bucket_of cap (hash k').
Proof.
  unfold victim. destruct (_ <? 32)%nat; [done|]. intros La. apply list.last_Some in La as (l & E).
  assert (M : x ∈ neighbours hash cap m k') by (rewrite E; apply elem_of_app; right; left). apply elem_of_list_filter in M. apply M.
Qed.
Lemma ahead_without' cap k m i k' : i + one cap k k' <= 31 -> ahead cap k m i -> ahead cap k (without (victim hash cap m k') m) i.
Proof.
  unfold one. destruct (decide _) as [B|B]; intros Li A; [apply ahead_without; [lia|done]|].
  destruct (victim hash cap m k') as [x|] eqn:E; [|done]. cbn. apply ahead_del; [|done]. intros Q. apply victim_bucket in E. rewrite Q in E. by rewrite E in B.
Qed.
Definition more cap k (o : cop K V) : nat := match used_key o with Some k' => one cap k k' | None => 0 end.
Lemma ahead_step cap k m i o : spares k o -> i + more cap k o <= 31 -> ahead cap k m i ->
  ahead cap k (next m o (lru_out hash cap m o)) (i + more cap k o).
Proof.
  intros Sp Li A. destruct (ahead_some _ _ _ _ A) as (v0 & Ak).
  destruct o as [k' v|k' f|k' f|k' c|k'| | | | |p| ]; unfold more in *; cbn [next lru_out used_key] in *; rewrite ?Nat.add_0_r in *; try done.
  - destruct (assoc k' m) eqn:A'; cbn; [by apply (ahead_mono _ _ _ i); [lia|]|]. apply (ahead_cons cap k (k', v)); [cbn; congruence|].
    by apply ahead_without'.
  - destruct (assoc k' m) as [v|] eqn:A'; [|by apply (ahead_mono _ _ _ i); [lia|]]. cbn in Sp. destruct (decide (k' = k)) as [->|D].
    + destruct Sp as [?|Sp]; [done|]. destruct (f v) as [w|] eqn:Ef; [|by destruct (Sp v)]. apply (ahead_mono _ _ _ 0); [lia|]. apply ahead_top, del_no.
    + destruct (f v) as [w|]; [apply (ahead_cons cap k (k', w)); [done|]|apply (ahead_mono _ _ _ i); [lia|]]; by apply ahead_del.
  - cbn in Sp. destruct (assoc k' m) as [v|] eqn:A'.
    + destruct (f (Some v)) as [w|] eqn:Ef; [rewrite upd_map; apply ahead_map; apply (ahead_mono _ _ _ i); [lia|done]|].
      destruct (decide (k' = k)) as [->|D]; [destruct Sp as [?|Sp]; [done|by destruct (Sp v)]|]. apply (ahead_mono _ _ _ i); [lia|]. by apply ahead_del.
    + destruct (f None) as [w|] eqn:Ef; [|by apply (ahead_mono _ _ _ i); [lia|]]. apply (ahead_cons cap k (k', w)); [cbn; congruence|].
      by apply ahead_without'.
  - cbn in Sp. destruct (assoc k' m) as [v|] eqn:A'; [|done]. destruct ((c v).2) eqn:Ec; [|rewrite upd_map; by apply ahead_map].
    apply ahead_del; [|done]. destruct Sp as [?|Sp]; [done|]. rewrite Sp in Ec. done.
  - apply (ahead_map cap k _ i (fun e => (p e).1)). by apply (ahead_filter cap k m i (fun e => (p e).2)).
Qed.
Lemma uses_cons cap k o os : uses hash cap k (o :: os) = more cap k o + uses hash cap k os.
Proof.
  unfold uses, more, one, used_near. rewrite filter_cons. destruct (used_key o) as [k'|]; [|by rewrite decide_False].
  case_bool_decide as B; [rewrite decide_True by done|rewrite decide_False by done]; destruct (decide (bucket_of _ _ = _)); done.
Qed.
Lemma ahead_run cap k os : forall m i, Forall (spares k) os -> i + uses hash cap k os <= 31 -> ahead cap k m i ->
  ahead cap k (lru_end cap m os) (i + uses hash cap k os).
Proof.
  induction os as [|o os IH]; intros m i F L A; [by rewrite Nat.add_0_r|]. inversion F as [|? ? F1 F2]; subst. rewrite uses_cons in *.
  cbn [lru_end]. rewrite Nat.add_assoc. apply IH; [done|lia|]. apply ahead_step; [done|lia|done].
Qed.

Lemma survives sg mn mx (os : list (cop K V)) o k later : (0 < mn)%N -> (mx <= mn)%N -> touches sg hash mn mx os o k -> Forall (spares k) later -> uses hash (cap_after sg hash mn mx (@nil (cop K V))) k later <= 31 ->
  look sg hash mn mx (os ++ o :: later) k <> None.
Proof.
  intros P Le T F L. rewrite look_lru by done. set (cap := cap_after sg hash mn mx _). rewrite lru_end_app. cbn [lru_end].
  destruct (cafter_lru sg mn mx os o P Le) as (x & E & Ag). fold cap in Ag. set (m := lru_end cap [] os) in *.
  assert (A : ahead cap k (next m o (lru_out hash cap m o)) 0).
  { destruct o as [k' v|k' f|k' f| | | | | | | | ]; try done; cbn [touches] in T.
    - destruct T as (-> & ev & Ec). rewrite Ec in E. injection E as <-. cbn in Ag |- *. destruct (assoc k m) eqn:Ak; [done|]. apply ahead_top.
      unfold without. destruct (victim _ _ _ _); [apply keys_del|]; by apply assoc_none_keys.
    - destruct T as (-> & v & w & Ec & Ef). rewrite Ec in E. injection E as <-. cbn in Ag |- *. injection Ag as Ag. rewrite <- Ag, Ef. apply ahead_top, del_no.
    - destruct T as (-> & ev & w & Ec & Ef). rewrite Ec in E. injection E as <-. cbn in Ag |- *. injection Ag as Ag _. rewrite <- Ag, Ef. apply ahead_top.
      unfold without. destruct (victim _ _ _ _); [apply keys_del|]; by apply assoc_none_keys. }
  destruct (ahead_some _ _ _ _ (ahead_run cap k later _ 0 F L A)) as (v & ->). done.
Qed.
End facts.
