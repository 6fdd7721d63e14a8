(** A cache whose capacity cannot change: the entries of every bucket in the order of their use. *)
From Coq Require Import NArith Lia.
From stdpp Require Import numbers prelude list.
From Verif Require CapModel CapSpec CapFacts CapThms.
From Verif Require Import LruModel LruFacts BucketModel BucketSpec BucketFacts BucketOps BucketOps2 BucketOps3 BucketRunFacts
  MapSpec MapFacts TableModel TableSpec TableFacts TableReloc TableResize TableHouse TableAccess TableOps
  IterSpec TableIter MapFacts2 MapModel MapRef MapRunFacts CacheModel CacheSpec CacheFacts CacheOps CacheRunFacts.

Section lists.
Context {A : Type}.
Lemma last_app_inv (r : list A) i : list.last r = Some i -> r = removelast r ++ [i].
Proof.
  intros H. destruct (decide (r = [])) as [->|N]; [done|].
  pose proof (app_removelast_last i N) as E. rewrite E in H. rewrite last_snoc in H. congruence.
Qed.
Lemma removelast_snoc (r : list A) i : removelast (r ++ [i]) = r.
Proof. apply removelast_last. Qed.
(** A sublist of a duplicate-free list is determined by its members. *)
Lemma sublist_ext (l : list A) : NoDup l -> forall a b, a `sublist_of` l -> b `sublist_of` l ->
  (forall x, x ∈ a <-> x ∈ b) -> a = b.
Proof.
  induction l as [|y l IH]; intros ND a b Ha Hb E.
  - apply sublist_nil_r in Ha, Hb. by subst.
  - apply list.NoDup_cons in ND as [Ny ND].
    assert (X : forall c, c `sublist_of` y :: l -> (exists c', c = y :: c' /\ c' `sublist_of` l) \/ (c `sublist_of` l /\ y ∉ c)).
    { intros c Hc. apply sublist_cons_r in Hc as [Hc|(c' & -> & Hc)]; [right|by left; exists c'].
      split; [done|]. intros Hy. apply Ny. eapply elem_of_submseteq; [exact Hy|by apply sublist_submseteq]. }
    destruct (X a Ha) as [(a' & -> & Ha')|[Ha' Na]]; destruct (X b Hb) as [(b' & -> & Hb')|[Hb' Nb]].
    + f_equal. apply IH; [done..|]. intros x.
      assert (Fa : y ∉ a') by (intros Hy; apply Ny; eapply elem_of_submseteq; [exact Hy|by apply sublist_submseteq]).
      assert (Fb : y ∉ b') by (intros Hy; apply Ny; eapply elem_of_submseteq; [exact Hy|by apply sublist_submseteq]).
      specialize (E x). rewrite !elem_of_cons in E. split; intros Hx.
      * destruct (proj1 E (or_intror Hx)) as [->|]; [done|done].
      * destruct (proj2 E (or_intror Hx)) as [->|]; [done|done].
    + exfalso. apply Nb. apply E. left.
    + exfalso. apply Na. apply E. left.
    + by apply IH.
Qed.
End lists.

Section lru_view.
Context {K V : Type} `{EqDecision K}.
Context (hash : K -> N).
Implicit Types (b : bucket K V) (L : list (K * V)).
Notation slot b := (live_at CACHE (main b)).

(** [L]: the entries of [b], most recently used first; all of them are in the main block. *)
Record lview b L : Prop := LView {
  lv_wf : wf_bucket hash CACHE b;
  lv_links : links b = [];
  lv_order : exists r, tracks b r /\ (forall i, is_Some (slot b i) -> i ∈ r) /\ omap (slot b) r = L }.

Lemma omap_all (f : nat -> option (K * V)) (r : list nat) : (forall i, i ∈ r -> is_Some (f i)) -> length (omap f r) = length r.
Proof.
  induction r as [|i r IH]; intros H; [done|]. cbn [omap list_omap]. destruct (H i) as [x ->]; [left|].
  cbn [length]. f_equal. apply IH. intros j Hj. apply H. by right.
Qed.
Lemma omap_ext_in (f g : nat -> option (K * V)) (r : list nat) : (forall i, i ∈ r -> f i = g i) -> omap f r = omap g r.
Proof.
  induction r as [|i r IH]; intros H; [done|]. cbn [omap list_omap]. rewrite (H i) by left.
  rewrite IH; [done|]. intros j Hj. apply H. by right.
Qed.
Lemma omap_perm (f : nat -> option (K * V)) (r r' : list nat) : r ≡ₚ r' -> omap f r ≡ₚ omap f r'.
Proof. by intros ->. Qed.
Lemma omap_filter (f : nat -> option (K * V)) (r : list nat) : omap f r = omap f (filter (fun i => is_Some (f i)) r).
Proof.
  induction r as [|i r IH]; [done|]. cbn [omap list_omap]. destruct (f i) as [x|] eqn:E.
  - rewrite filter_cons_True by (by rewrite E). cbn [omap list_omap]. rewrite E. by f_equal.
  - rewrite filter_cons_False by (rewrite E; by intros [? ?]). done.
Qed.

Lemma slot_lt b i e : wf_bucket hash CACHE b -> slot b i = Some e -> i < 32.
Proof. intros W H. eapply (live_lt hash BUCKET_LEN); [apply W|done]. Qed.
Lemma lview_entries b L : lview b L -> entries CACHE b ≡ₚ L.
Proof.
  intros [W Lk (r & T & A & <-)]. unfold entries, all_ents. rewrite Lk, lents_nil, app_nil_r, ents_eq.
  rewrite omap_filter. cbn [Nat.sub BUCKET_LEN].
  rewrite (omap_filter (slot b) r). apply omap_perm. apply NoDup_Permutation.
  - apply NoDup_filter, NoDup_seq.
  - apply NoDup_filter. destruct T as [(_ & ND & _) _]. done.
  - intros i. rewrite !elem_of_list_filter, elem_of_seq. split; intros [H1 H2]; (split; [done|]).
    + by apply A.
    + destruct H1 as [e He]. apply (slot_lt b i e W) in He. lia.
Qed.
Lemma lview_len b L r : lview b L -> tracks b r -> omap (slot b) r = L -> length r = length L.
Proof.
  intros [W _ _] T <-. symmetry. apply omap_all. intros i Hi. by apply (tracks_slot hash b r); [apply W| |].
Qed.
Lemma lview_full b L : lview b L -> length L <= 32 /\ (occ (main b) = u32_max <-> length L = 32).
Proof.
  intros LV. pose proof LV as [W Lk (r & T & A & E)]. pose proof (lview_len b L r LV T E) as Hl.
  assert (SL : forall i, i ∈ r -> i ∈ seq 0 32).
  { intros i Hi. apply elem_of_seq. destruct T as [R _]. pose proof (rep_lt _ _ _ R Hi). lia. }
  assert (ND : NoDup r) by apply T.
  assert (Le : length r <= 32).
  { pose proof (submseteq_length r (seq 0 32)) as X. rewrite seq_length in X. apply X.
    by apply NoDup_submseteq. }
  split; [lia|]. split; intros H.
  - assert (X : forall i, i ∈ seq 0 32 -> i ∈ r).
    { intros i Hi. apply elem_of_seq in Hi. apply A. apply (slot_occ hash); [apply W|]. rewrite H, tb_u32_max.
      apply bool_decide_true. lia. }
    pose proof (submseteq_length (seq 0 32) r) as Y. rewrite seq_length in Y.
    assert (32 <= length r); [|lia]. apply Y. apply NoDup_submseteq; [apply NoDup_seq|done].
  - apply tb_ext. intros j. rewrite tb_u32_max. case_bool_decide as Hj.
    + apply (slot_occ hash); [apply W|]. apply (tracks_slot hash b r); [apply W|done|].
      assert (P : r ≡ₚ seq 0 32).
      { apply submseteq_Permutation_length_le; [rewrite seq_length; lia|by apply NoDup_submseteq]. }
      rewrite P. apply elem_of_seq. lia.
    + destruct (tb (occ (main b)) j) eqn:F; [|done].
      apply (slot_occ hash b j (wf_bucket_core _ _ _ W)) in F as [e He]. apply (slot_lt b j e W) in He. lia.
Qed.

Lemma lview_new : lview new_bucket [].
Proof.
  split; [apply wf_new_bucket|done|]. exists []. split; [|split; [|done]].
  - split; [apply rep_new|]. by intros i ?%elem_of_nil.
  - intros i [e He]. unfold new_bucket in He; cbn [main] in He. by rewrite live_new in He.
Qed.

Lemma lview_put sg b L k v b' ev : lview b L -> put_bucket sg b (hash k) (k, v) = Some (b', ev) ->
  if decide (length L < 32) then ev = None /\ lview b' ((k, v) :: L)
  else ev = list.last L /\ lview b' ((k, v) :: removelast L).
Proof.
  intros LV P. pose proof LV as [W Lk (r & T & A & E)].
  destruct (put_bucket_spec hash sg b (hash k) (k, v) r W T eq_refl)
    as (b1 & ev1 & i & P1 & W1 & Lk1 & Si & Si' & So & X).
  rewrite P in P1. injection P1 as <- <-.
  destruct (lview_full b L LV) as [Le Fu]. pose proof (lview_len b L r LV T E) as Hlen.
  assert (Lk' : links b' = []) by congruence.
  destruct ev as [x|].
  - destruct X as (O & Hi & T' & _). apply Fu in O as HL. rewrite decide_False by lia.
    assert (Hlast : list.last r = Some i).
    { destruct (list.last r) as [z|] eqn:El; [by subst i|]. apply last_None in El. subst r. cbn in Hlen. lia. }
    pose proof (last_app_inv _ _ Hlast) as Er. assert (ND : NoDup r) by apply T.
    assert (Ni : i ∉ removelast r) by (by apply last_removelast_notin).
    assert (EL : L = omap (slot b) (removelast r) ++ [x]).
    { rewrite <- E. rewrite Er at 1. rewrite omap_app. cbn. by rewrite Si. }
    assert (G : omap (slot b') (removelast r) = removelast L).
    { rewrite EL, removelast_snoc. apply omap_ext_in. intros j Hj. apply So. intros ->. done. }
    split; [by rewrite EL, last_snoc|]. split; [done|done|].
    exists (i :: removelast r). split; [done|]. split.
    + intros j Hj. destruct (decide (j = i)) as [->|Nj]; [left|right]. rewrite So in Hj by done.
      apply A in Hj. rewrite Er in Hj. apply elem_of_app in Hj as [Hj|Hj]; [done|].
      apply elem_of_list_singleton in Hj. done.
    + cbn [omap list_omap]. rewrite Si'. by f_equal.
  - destruct X as (O & _ & _ & T'). rewrite decide_True by (destruct (decide (length L = 32)); [tauto|lia]).
    split; [done|]. split; [done|done|].
    assert (Ni : i ∉ r).
    { intros Hk. apply (tracks_slot hash b r i) in Hk; [|apply W|done]. rewrite Si in Hk. by destruct Hk. }
    exists (i :: r). split; [done|]. split.
    + intros j Hj. destruct (decide (j = i)) as [->|Nj]; [left|right]. apply A. by rewrite So in Hj.
    + cbn [omap list_omap]. rewrite Si'. f_equal. rewrite <- E. apply omap_ext_in. intros j Hj. apply So. congruence.
Qed.

(** Pointers only designate main slots. *)
Lemma lview_ptr b L p e : lview b L -> points_to CACHE b p e -> exists i, p = EPtr None (Some i) /\ slot b i = Some e.
Proof.
  intros LV (bl & i & Hb & Hi & Hl). unfold ptr_block in Hb. destruct p as [[j|] ix]; cbn in *.
  - by rewrite (lv_links _ _ LV) in Hb.
  - injection Hb as <-. subst ix. by exists i.
Qed.
Lemma lview_split b L r i e : lview b L -> tracks b r -> (forall j, is_Some (slot b j) -> j ∈ r) -> omap (slot b) r = L ->
  slot b i = Some e -> NoDup L.*1 ->
  exists r1 r2, r = r1 ++ i :: r2 /\ i ∉ r1 /\ i ∉ r2 /\ L = omap (slot b) r1 ++ e :: omap (slot b) r2 /\
    del e.1 L = omap (slot b) r1 ++ omap (slot b) r2 /\
    (forall w, upd e.1 w L = omap (slot b) r1 ++ (e.1, w) :: omap (slot b) r2) /\
    filter (fun x => x <> i) r = r1 ++ r2.
Proof.
  intros LV T A E Hs ND. assert (Hi : i ∈ r) by (apply A; by exists e).
  apply elem_of_list_split in Hi as (r1 & r2 & ->). exists r1, r2.
  assert (NDr : NoDup (r1 ++ i :: r2)) by apply T.
  pose proof NDr as NDr'. apply NoDup_app in NDr' as (_ & N1 & N2). apply list.NoDup_cons in N2 as [N2 _].
  assert (Ni : i ∉ r1) by (intros H; apply (N1 _ H); left).
  assert (EL : L = omap (slot b) r1 ++ e :: omap (slot b) r2).
  { rewrite <- E, omap_app. cbn [omap list_omap]. by rewrite Hs. }
  destruct e as [k v]. cbn [fst].
  split; [done|]. split; [done|]. split; [done|]. split; [done|]. split.
  { rewrite EL. apply del_split. by rewrite EL in ND. }
  split.
  - intros w. rewrite EL in *. rewrite fmap_app in ND. cbn in ND. apply NoDup_app in ND as (_ & M1 & M2).
    apply list.NoDup_cons in M2 as [M2 _]. unfold upd. rewrite map_app. cbn [map fst]. rewrite decide_True by done.
    change (upd k w (omap (slot b) r1) ++ (k, w) :: upd k w (omap (slot b) r2) =
            omap (slot b) r1 ++ (k, w) :: omap (slot b) r2).
    rewrite !upd_notin; [done|done|]. intros H. apply (M1 _ H). left.
  - by apply filter_ne_mid.
Qed.

Lemma lview_promote b L p e b' : lview b L -> NoDup L.*1 -> points_to CACHE b p e -> update_lru_tail b p = Some b' ->
  lview b' (e :: del e.1 L).
Proof.
  intros LV ND PT U. destruct (lview_ptr b L p e LV PT) as (i & -> & Hs). pose proof LV as [W Lk (r & T & A & E)].
  destruct (update_lru_tail_spec hash b _ e W PT) as (b1 & U1 & W1 & _). rewrite U in U1. injection U1 as <-.
  destruct (promote_slots hash b i e r b' W Hs T U) as (Lk' & Sl & T').
  destruct (lview_split b L r i e LV T A E Hs ND) as (r1 & r2 & -> & N1 & N2 & EL & ED & _ & EF).
  split; [done|congruence|]. exists (i :: r1 ++ r2). rewrite EF in T'. split; [done|]. split.
  - intros j Hj. rewrite Sl in Hj. apply A in Hj. set_solver.
  - cbn [omap list_omap]. rewrite Sl, Hs. f_equal. rewrite ED, omap_app. f_equal; apply omap_ext_in; done.
Qed.
Lemma lview_remove b L p e b' p' x : lview b L -> NoDup L.*1 -> points_to CACHE b p e -> remove CACHE b p = Some (b', p', x) ->
  lview b' (del e.1 L).
Proof.
  intros LV ND PT U. destruct (lview_ptr b L p e LV PT) as (i & -> & Hs). pose proof LV as [W Lk (r & T & A & E)].
  destruct (remove_spec hash CACHE b _ e W PT) as (b1 & p1 & U1 & W1 & _). rewrite U in U1. injection U1 as <- <- ->.
  destruct (remove_slots hash b i e r b' _ _ W Hs T U) as (Lk' & Sn & Sl & T').
  destruct (lview_split b L r i e LV T A E Hs ND) as (r1 & r2 & -> & N1 & N2 & EL & ED & _ & EF).
  split; [done|congruence|]. exists (r1 ++ r2). rewrite EF in T'. split; [done|]. split.
  - intros j Hj. destruct (decide (j = i)) as [->|Nj]; [rewrite Sn in Hj; by destruct Hj|].
    rewrite Sl in Hj by done. apply A in Hj. set_solver.
  - rewrite ED, omap_app. f_equal; apply omap_ext_in; intros j Hj; apply Sl; congruence.
Qed.
Lemma lview_replace b L p e v b' x : lview b L -> NoDup L.*1 -> points_to CACHE b p e -> replace_value b p v = Some (b', x) ->
  lview b' (upd e.1 v L) /\ points_to CACHE b' p (e.1, v).
Proof.
  intros LV ND PT U. destruct (lview_ptr b L p e LV PT) as (i & -> & Hs). pose proof LV as [W Lk (r & T & A & E)].
  destruct (replace_value_spec hash CACHE b _ e v W PT) as (b1 & U1 & W1 & _ & _ & _ & PT' & _).
  rewrite U in U1. injection U1 as <- ->.
  destruct (replace_slots hash b i e r v b' _ W Hs T U) as (Lk' & Sn & Sl & T').
  destruct (lview_split b L r i e LV T A E Hs ND) as (r1 & r2 & -> & N1 & N2 & EL & _ & EU & _).
  split; [|done]. split; [done|congruence|]. exists (r1 ++ i :: r2). split; [done|]. split.
  - intros j Hj. destruct (decide (j = i)) as [->|Nj]; [set_solver|]. rewrite Sl in Hj by done. by apply A.
  - rewrite EU, omap_app. cbn [omap list_omap]. rewrite Sn. f_equal; [|f_equal]; apply omap_ext_in; intros j Hj; apply Sl; congruence.
Qed.

(** The loop of [iter_mut]/[retain] deletes entries and changes values but keeps the order. *)
Lemma upd_sub k (w : V) L : (upd k w L).*1 = L.*1.
Proof. apply upd_keys. Qed.
Lemma del_sublist k L : (del k L).*1 `sublist_of` L.*1.
Proof. apply fmap_sublist. apply filter_sub. Qed.
Lemma mut_loop_order {S} (f : S -> K * V -> verdict V S) n : forall s b p out L b' s' o g,
  lview b L -> NoDup L.*1 -> wf_ptr b p -> mut_loop n CACHE f s b p out = Some (b', s', o, g) ->
  exists L', lview b' L' /\ L'.*1 `sublist_of` L.*1.
Proof.
  induction n as [|n IH]; intros s b p out L b' s' o g LV ND Wp; cbn [mut_loop]; [done|].
  pose proof (move_to_next_spec hash CACHE b p (wf_bucket_core _ _ _ (lv_wf _ _ LV)) Wp) as M.
  destruct (move_to_next CACHE b p) as [p1 []].
  2:{ intros [= <- <- <- <-]. exists L. done. }
  destruct M as (e & PT & _). rewrite (points_to_get _ _ _ _ PT), obind.
  destruct (replace_value_spec hash CACHE b p1 e (v_value (f s e)) (lv_wf _ _ LV) PT) as (b1 & R & W1 & _ & _ & _ & PT1 & _).
  rewrite R, obind. cbn [fst].
  destruct (lview_replace b L p1 e _ b1 _ LV ND PT R) as [LV1 _].
  assert (ND1 : NoDup (upd e.1 (v_value (f s e)) L).*1) by (by rewrite upd_keys).
  destruct (v_keep (f s e)).
  - rewrite obind. cbn [fst snd]. destruct (v_go (f s e)).
    + intros H. destruct (IH _ _ _ _ _ _ _ _ _ LV1 ND1 (points_to_wf_ptr hash CACHE b1 p1 _ (wf_bucket_core _ _ _ W1) PT1) H)
        as (L' & LV' & Sb). exists L'. split; [done|]. by rewrite upd_keys in Sb.
    + intros [= <- <- <- <-]. eexists. split; [exact LV1|]. by rewrite upd_keys.
  - destruct (remove_spec hash CACHE b1 p1 _ W1 PT1) as (b2 & p2 & Rm & W2 & Tk). rewrite Rm, !obind. cbn [fst snd].
    pose proof (lview_remove b1 _ p1 _ b2 p2 _ LV1 ND1 PT1 Rm) as LV2. cbn [fst] in LV2.
    assert (Sub2 : (del e.1 (upd e.1 (v_value (f s e)) L)).*1 `sublist_of` L.*1).
    { etrans; [apply del_sublist|]. by rewrite upd_keys. }
    assert (ND2 : NoDup (del e.1 (upd e.1 (v_value (f s e)) L)).*1) by (by apply del_NoDup).
    destruct (v_go (f s e)).
    + intros H. destruct (IH _ _ _ _ _ _ _ _ _ LV2 ND2 (taken_ptr _ _ _ _ _ _ _ Tk) H) as (L' & LV' & Sb).
      exists L'. split; [done|]. by etrans.
    + intros [= <- <- <- <-]. eexists. split; [exact LV2|done].
Qed.

(** What a stateless predicate retains. *)
Definition kept_of (q : K * V -> V * bool) L : list (K * V) :=
  map (fun e => (e.1, (q e).1)) (filter (fun e => (q e).2 = true) L).
Lemma kept_keys q L : (kept_of q L).*1 `sublist_of` L.*1.
Proof.
  assert ((kept_of q L).*1 = (filter (fun e => (q e).2 = true) L).*1) as ->.
  { unfold kept_of. generalize (filter (fun e => (q e).2 = true) L). intros l. induction l; [done|]. cbn. by f_equal. }
  apply fmap_sublist, filter_sub.
Qed.
Lemma keyed_ext (a b : list (K * V)) : a ≡ₚ b -> a.*1 = b.*1 -> NoDup a.*1 -> a = b.
Proof.
  revert b. induction a as [|[k v] a IH]; intros b P E ND.
  - by apply Permutation_nil in P.
  - destruct b as [|[k' v'] b]; [done|]. cbn in E. injection E as <- E. cbn in ND. apply list.NoDup_cons in ND as [Nk ND].
    assert (v' = v) as ->.
    { assert (X : (k, v') ∈ (k, v) :: a) by (rewrite P; left). apply elem_of_cons in X as [X|X]; [congruence|].
      exfalso. apply Nk. by apply (elem_of_list_fmap_1 fst) in X. }
    f_equal. apply IH; [by apply Permutation_cons_inv in P|done|done].
Qed.
Lemma mut_loop_retain (q : K * V -> V * bool) (f : unit -> K * V -> verdict V unit) n b L :
  (forall e, f tt e = Verdict _ tt (q e).1 (q e).2 true) ->
  lview b L -> NoDup L.*1 -> length (entries CACHE b) < n -> 
  exists b' cons, mut_loop n CACHE f tt b null_ptr [] = Some (b', tt, cons, true) /\
    lview b' (kept_of q L).
Proof.
  intros Hf LV ND Hn. pose proof (lv_wf _ _ LV) as W.
  destruct (mut_loop_spec hash CACHE f n (ltac:(done)) tt b null_ptr [] []) as (b' & [] & kept & cons & go & E & Vm & W' & EE).
  { done. } { apply wf_null. } { by rewrite after_null. } { by rewrite after_null. }
  rewrite after_null in Vm.
  assert (Vm' : visit_mut (of_verdict f) tt (entries CACHE b) = (tt, kept_of q (entries CACHE b),
      map (fun e => (e.1, (q e).1)) (filter (fun e => (q e).2 = false) (entries CACHE b)), true)).
  { unfold kept_of. rewrite <- (visit_retain q). generalize (entries CACHE b). intros l.
    induction l as [|e l IH]; [done|]. cbn [visit_mut].
    assert (G : of_verdict f tt e = (tt, (q e).1, (q e).2, true)) by (unfold of_verdict; by rewrite Hf).
    rewrite G. rewrite IH. done. }
  rewrite Vm' in Vm. injection Vm as <- <- <-. cbn [app] in *.
  eexists _, _. split; [exact E|].
  destruct (mut_loop_order f n tt b null_ptr [] L b' tt _ true LV ND (wf_null b) E) as (L' & LV' & Sb).
  assert (P : L' ≡ₚ kept_of q L).
  { rewrite <- (lview_entries _ _ LV'), EE. unfold kept_of. by rewrite (lview_entries _ _ LV). }
  assert (NDL' : NoDup L'.*1) by (eapply sublist_nodup; [exact Sb|done]).
  assert (L' = kept_of q L) as ->; [|done].
  apply keyed_ext; [done| |done]. apply (sublist_ext L.*1 ND); [done|apply kept_keys|]. intros x. by rewrite P.
Qed.
End lru_view.
