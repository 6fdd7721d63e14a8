(** Resizing decisions executed: [try_resize], [try_enlarge], [try_shrink], [create]. *)
From Coq Require Import NArith Lia.
From stdpp Require Import numbers prelude list.
From Verif Require CapModel CapSpec CapFacts CapThms.
From Verif Require Import LruModel BucketModel BucketSpec BucketFacts BucketOps BucketOps2 BucketOps3
  TableModel TableSpec TableFacts TableReloc TableHouse.

Section resize.
Context {K V : Type} `{EqDecision K}.
Context (hash : K -> N).
Context (Hh : forall k, (hash k < 2 ^ 64)%N).
Implicit Types (a c o : barray K V) (x : cell K V) (tb : table K V) (b : bucket K V).

(** The table's sizes. *)
Lemma slots_pow s : CapSpec.table s -> CapSpec.power_of_two (CapModel.num_slots s) /\ (64 <= CapModel.num_slots s)%N.
Proof.
  intros [n E]. destruct (CapFacts.capacity_rounding n) as (a & E' & P & B & _).
  rewrite E in E'. injection E' as <-. split; [done|]. apply B.
Qed.
Lemma minimum_le tb : wf_min tb -> (minimum tb <= maxcap tb)%N.
Proof.
  intros [_ (m0 & I) _ L]. unfold minimum, CapModel.minimum_capacity.
  rewrite (CapFacts.min_inv_masked m0 (maxcap tb)); [|lia|done]. apply I.
Qed.
(** Rounding up does not pass a power of two. *)
Lemma arr_new_le n m s : CapSpec.power_of_two m -> (64 <= m)%N -> (n <= m)%N -> CapModel.arr_new n = Some s ->
  (CapModel.num_slots s <= m)%N.
Proof.
  intros [k ->] B L E. destruct (CapFacts.capacity_rounding n) as (a & E' & [j P] & _ & _ & U).
  rewrite E in E'. injection E' as <-. rewrite P in *.
  assert (2 ^ j < 2 ^ (N.succ k))%N by (rewrite N.pow_succ_r'; lia).
  apply CapFacts.pow2_lt_inv in H. apply CapFacts.pow2_le. lia.
Qed.

Lemma forall_le_sum (l : list N) : Forall (fun n : N => 0 <= n <= CapFacts.sumN l)%N l.
Proof.
  induction l as [|n l IH]; constructor; cbn [CapFacts.sumN]; [lia|].
  eapply Forall_impl; [exact IH|]. cbn. lia.
Qed.
Lemma sample_some t c i : wf_array hash t c -> (i < alen c)%N ->
  exists v, CapModel.sample (sz c) (map clen (bks c)) i = Some v.
Proof.
  intros W Hi.
  destruct (CapThms.lC04_estimate_is_between_extremes (sz c) (map clen (bks c)) i 0
              (CapFacts.sumN (map clen (bks c)))) as (v & E & _).
  - apply W.
  - rewrite map_length, (wa_len _ _ _ W). unfold alen. lia.
  - done.
  - apply forall_le_sum.
  - by exists v.
Qed.

Lemma kill_all_spec t cs : (forall x, x ∈ cs -> wf_cell hash t x /\ entries t (bkt x) = []) ->
  exists cs', kill_all t cs = Some (cs', []) /\ length cs' = length cs /\
    (forall i x, cs' !! i = Some x -> wf_core hash t (bkt x) /\ dead x = true /\ entries t (bkt x) = []) /\
    concat (map (fun x => stored (bkt x)) cs') ≡ₚ concat (map (fun x => stored (bkt x)) cs).
Proof.
  induction cs as [|x cs IH]; intros W; cbn [kill_all map concat].
  { exists []. done. }
  destruct (W x) as [Wx Ex]; [set_solver|].
  destruct (kill_empty hash t (bkt x) (wc_core _ _ _ Wx) Ex) as (b' & Ek & Wb & E' & S'). rewrite Ek, obind.
  destruct IH as (cs' & Ec & Lc & Dc & Sc); [set_solver|]. rewrite Ec, obind. cbn [fst snd app].
  exists (Cell b' true :: cs'). split; [done|]. split; [by cbn; rewrite Lc|]. split.
  - intros [|i] y; cbn; [intros [= <-]; by cbn|apply Dc].
  - cbn [map concat bkt]. by rewrite S', Sc.
Qed.

Lemma clen_entries t x : wf_core hash t (bkt x) -> (clen x =? 0)%N = true -> entries t (bkt x) = [].
Proof.
  intros W E. apply N.eqb_eq in E. unfold clen in E. apply length_zero_iff_nil.
  rewrite <- (wf_len _ _ _ W). lia.
Qed.

Definition dropped tb tb' : Prop := cur tb' = None /\ old tb' = None.
Definition resized tb tb' : Prop := exists c a, cur tb = Some c /\ old tb = None /\
  cur tb' = Some a /\ old tb' = Some c /\ forall t', aents t' a = [].

Lemma try_resize_spec t tb c i : wf_table hash t tb -> cur tb = Some c -> (i < alen c)%N ->
  exists tb', try_resize t tb i = Some tb' /\ same hash t tb tb' /\
    (tb' = tb \/ (old tb = None /\ tents t tb = [] /\ dropped tb tb') \/ resized tb tb').
Proof.
  intros W C Hi. unfold try_resize. rewrite C.
  destruct (old tb) as [o|] eqn:O.
  { exists tb. split; [done|]. split; [by apply same_refl|by left]. }
  destruct (wf_tab_cur _ _ _ _ W C) as (Wc & Al & Z).
  destruct (sample_some t c i Wc Hi) as (v & Ev). rewrite Ev, obind.
  pose proof (wt_min _ _ _ W) as Wm. pose proof (minimum_le _ Wm) as Mle.
  destruct (slots_pow _ (wa_table _ _ _ Wc)) as [Pc Lc].
  pose proof (wt_size _ _ _ W c C) as Sc.
  destruct (CapThms.lC04_resize_bounds (CapModel.num_slots (sz c)) (minimum tb) (maxcap tb) v Pc)
    as (n & En & Pn & Bn & Mn & _); [apply Wm|lia|apply Wm|lia|].
  unfold CapModel.resize_decision. rewrite En. cbn [CapModel.obind]. rewrite obind.
  destruct (negb (negb (n =? CapModel.num_slots (sz c))%N) && negb ((v =? 0)%N && (minimum tb =? 0)%N)) eqn:Q.
  { exists tb. split; [done|]. split; [by apply same_refl|by left]. }
  destruct ((v =? 0)%N && (minimum tb =? 0)%N) eqn:Dt.
  - destruct (forallb (fun x => clen x =? 0)%N (bks c)) eqn:Fb.
    2:{ exists tb. split; [done|]. split; [by apply same_refl|by left]. }
    rewrite forallb_forall in Fb.
    assert (Em : forall x, x ∈ bks c -> wf_cell hash t x /\ entries t (bkt x) = []).
    { intros x Hx. pose proof (wf_cores _ _ _ Wc x Hx) as Wx. split.
      - apply elem_of_list_lookup in Hx as [j Hj]. exact (wa_cells _ _ _ Wc j x Hj).
      - apply clen_entries; [done|]. apply Fb. by apply elem_of_list_In. }
    destruct (kill_all_spec t (bks c) Em) as (cs & Ek & Lk & Dk & Sk). rewrite Ek, obind. cbn [fst snd].
    set (c1 := BArray (sz c) cs (cleared c)).
    assert (W1 : wf_array hash t c1).
    { split; cbn [c1 sz bks].
      - apply Wc.
      - rewrite Lk. apply Wc.
      - intros j x Hx. destruct (Dk j x Hx) as (? & ? & ?). split; [done|done|congruence].
      - intros j x e Hx He. destruct (Dk j x Hx) as (_ & _ & E). rewrite E in He. by apply elem_of_nil in He. }
    assert (D1 : forall j x, bks c1 !! j = Some x -> dead x = true) by (intros j x Hx; by destruct (Dk j x Hx) as (_ & ? & _)).
    assert (E0 : aents t c = []).
    { apply (concat_nil (fun x => entries t (bkt x))). intros j x Hx. apply Em. by apply elem_of_list_lookup_2 in Hx. }
    destruct (defer_reclaim_spec hash Hh t (release (with_cur tb None) []) c1 W1 (aents_dead _ _ _ W1 D1) D1)
      as (tb2 & E2 & C2 & O2 & M2 & X2 & R2 & A2 & G2).
    cbn [release with_cur cur old mst maxcap released garbage] in C2, O2, M2, X2, R2, A2, G2. rewrite app_nil_r in *.
    exists tb2. split; [done|]. assert (T0 : tents t tb = []) by (unfold tents; rewrite O, C; cbn [oents app]; done).
    assert (T2 : tents t tb2 = []) by (unfold tents; rewrite O2, C2, O; done).
    split; [split|].
    + split.
      * by rewrite C2, O2, O.
      * intros c2. by rewrite C2.
      * intros o2. by rewrite O2, O.
      * apply G2. apply W.
      * rewrite T2. constructor.
      * by apply (wf_min_eq tb).
    + by rewrite T0, T2.
    + unfold tstored. rewrite C2, O2, C, O. cbn [ostored app]. rewrite A2.
      change (astored c1) with (concat (map (fun x => stored (bkt x)) cs)). by rewrite Sk.
    + done.
    + done.
    + done.
    + right. left. split; [done|]. split; [done|]. split; [done|by rewrite O2].
  - destruct (new_barray_spec (K:=K) (V:=V) hash t n) as (a & Ea & Wa & Ia & Sa & Ca & La & Na). rewrite Ea, obind.
    eexists. split; [done|]. split; [split|].
    + split; cbn [with_arrays cur old mst maxcap garbage].
      * split; [|split; [|done]].
        -- split; [done|done|done|]. intros _ j x e _ _ He. rewrite Ia in He. by apply elem_of_nil in He.
        -- split; rewrite Z; [by exists 0%N|apply alen_pos; apply Wc|lia].
      * intros c2 [= <-]. apply (arr_new_le n); [apply Wm|apply Wm|lia|done].
      * intros o2 [= <-]. done.
      * apply W.
      * pose proof (wt_keys _ _ _ W) as N. unfold tents in *. rewrite C, O in N. cbn [with_arrays cur old oents app] in *.
        by rewrite Ia, app_nil_r.
      * by apply (wf_min_eq tb).
    + unfold tents. rewrite C, O. cbn [with_arrays cur old oents app]. by rewrite Ia, app_nil_r.
    + unfold tstored. rewrite C, O. cbn [with_arrays cur old ostored app released garbage]. by rewrite Sa.
    + done.
    + done.
    + done.
    + right. right. exists c, a. split; [done|]. split; [done|]. split; [done|]. split; [done|]. intros t'.
      destruct (new_barray_spec (K:=K) (V:=V) hash t' n) as (a' & Ea' & _ & Ia' & _). congruence.
Qed.

Lemma cell_mod t c i j : wf_array hash t c -> exists x, cell_at c ((i + j) mod alen c) = Some x.
Proof.
  intros W. apply lookup_lt_is_Some_2. rewrite (wa_len _ _ _ W).
  pose proof (alen_pos c (wa_table _ _ _ W)).
  pose proof (N.mod_upper_bound (i + j) (alen c)). lia.
Qed.
Lemma enlarge_any_some t c th i : wf_array hash t c -> forall n j num,
  exists r, enlarge_any c th i j n num = Some r.
Proof.
  intros W n. induction n as [|n IH]; intros j num; cbn [enlarge_any]; [by exists false|].
  destruct (cell_mod t c i j W) as (x & Ex). rewrite Ex, obind. destruct (th <? num + clen x)%N; [by exists true|apply IH].
Qed.
Lemma shrink_count_some t c th i : wf_array hash t c -> forall n j num,
  exists r, shrink_count c th i j n num = Some r.
Proof.
  intros W n. induction n as [|n IH]; intros j num; cbn [shrink_count]; [by eexists|].
  destruct (cell_mod t c i j W) as (x & Ex). rewrite Ex, obind. destruct (th <=? num + clen x)%N; [by exists None|apply IH].
Qed.

Definition resize_outcome t tb tb' : Prop := same hash t tb tb' /\
    (tb' = tb \/ (old tb = None /\ tents t tb = [] /\ dropped tb tb') \/ resized tb tb').
Lemma resize_refl t tb : wf_table hash t tb -> resize_outcome t tb tb.
Proof. intros W. split; [by apply same_refl|by left]. Qed.

Lemma try_enlarge_spec t tb c i num : wf_table hash t tb -> cur tb = Some c -> (i < alen c)%N ->
  exists tb', try_enlarge t tb i num = Some tb' /\ resize_outcome t tb tb'.
Proof.
  intros W C Hi. unfold try_enlarge. rewrite C. pose proof (resize_refl t tb W) as RR.
  destruct (old tb) as [o|] eqn:O; [by exists tb|].
  destruct (wf_tab_cur _ _ _ _ W C) as (Wc & _).
  set (s := CapModel.sample_size (sz c)).
  assert (exists r, (if (s * 2 * 13 <? num)%N then Some true
     else enlarge_any c (s * 2 * 13) i 1 (N.to_nat (s - 1)) num) = Some r) as (r & Er).
  { destruct (s * 2 * 13 <? num)%N; [by exists true|]. by eapply enlarge_any_some. }
  rewrite Er, obind. destruct r; [|by exists tb].
  exact (try_resize_spec t tb c i W C Hi).
Qed.
Lemma try_shrink_spec t tb c i : wf_table hash t tb -> cur tb = Some c -> (i < alen c)%N ->
  exists tb', try_shrink t tb i = Some tb' /\ resize_outcome t tb tb'.
Proof.
  intros W C Hi. unfold try_shrink. rewrite C. pose proof (resize_refl t tb W) as RR.
  destruct (old tb) as [o|] eqn:O; [by exists tb|].
  destruct (wf_tab_cur _ _ _ _ W C) as (Wc & _).
  destruct (minimum tb <? CapModel.num_slots (sz c))%N; [|by exists tb].
  set (s := CapModel.sample_size (sz c)).
  destruct (shrink_count_some t c (s * 32 / 8) i Wc (N.to_nat s) 0 0) as (r & Er).
  rewrite Er, obind. destruct r as [n|]; [|by exists tb]. destruct (n <=? s * 32 / 8)%N; [|by exists tb].
  exact (try_resize_spec t tb c i W C Hi).
Qed.
(** Same, when the table may not be allocated. *)
Lemma try_shrink_any t tb i : wf_table hash t tb -> (forall c, cur tb = Some c -> (i < alen c)%N) ->
  exists tb', try_shrink t tb i = Some tb' /\ resize_outcome t tb tb'.
Proof.
  intros W Hi. destruct (cur tb) as [c|] eqn:C.
  - apply (try_shrink_spec t tb c); [done|done|]. by apply Hi.
  - unfold try_shrink. rewrite C. exists tb. split; [done|]. by apply resize_refl.
Qed.
Lemma try_resize_any t tb i : wf_table hash t tb -> (forall c, cur tb = Some c -> (i < alen c)%N) ->
  exists tb', try_resize t tb i = Some tb' /\ resize_outcome t tb tb'.
Proof.
  intros W Hi. destruct (cur tb) as [c|] eqn:C.
  - apply (try_resize_spec t tb c); [done|done|]. by apply Hi.
  - unfold try_resize. rewrite C. exists tb. split; [done|]. by apply resize_refl.
Qed.

Lemma create_spec t tb : wf_table hash t tb ->
  exists tb' c, create tb = Some tb' /\ same hash t tb tb' /\ cur tb' = Some c /\ old tb' = old tb /\
    (forall c, cur tb = Some c -> tb' = tb).
Proof.
  intros W. unfold create. destruct (cur tb) as [c|] eqn:C.
  { exists tb, c. split; [done|]. split; [by apply same_refl|]. done. }
  pose proof (wf_tab_none _ _ _ W C) as O. pose proof (wt_min _ _ _ W) as Wm.
  destruct (new_barray_spec (K:=K) (V:=V) hash t (minimum tb)) as (a & Ea & Wa & Ia & Sa & Ca & La & Na). rewrite Ea, obind.
  eexists _, a. split; [done|]. split; [split|].
  - split; cbn [with_cur cur old mst maxcap garbage].
    + rewrite O. done.
    + intros c2 [= <-]. apply (arr_new_le (minimum tb)); [apply Wm|apply Wm|by apply minimum_le|done].
    + intros o2. by rewrite O.
    + apply W.
    + unfold tents. cbn [with_cur cur old]. rewrite O. cbn [oents app]. rewrite Ia. constructor.
    + by apply (wf_min_eq tb).
  - unfold tents. cbn [with_cur cur old]. rewrite C, O. cbn [oents app]. by rewrite Ia.
  - unfold tstored. cbn [with_cur cur old released garbage]. rewrite C, O. cbn [ostored app]. by rewrite Sa.
  - done.
  - done.
  - done.
  - cbn [with_cur cur old]. done.
Qed.
End resize.
