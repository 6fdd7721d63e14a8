(** The iterator of a HashIndex: a full pass yields the contents. *)
From Coq Require Import NArith Lia.
From stdpp Require Import numbers prelude list.
From Verif Require CapModel CapSpec CapFacts CapThms.
From Verif Require Import LruModel BucketModel BucketSpec BucketFacts BucketOps BucketOps2 BucketOps3
  MapSpec MapFacts BucketRun BucketRunFacts TableModel TableSpec TableFacts TableReloc TableHouse TableResize TableAccess
  TableOps IterSpec TableIter IndexModel.

Section iter.
Context {K V : Type} `{EqDecision K}.
Context (hash : K -> N).
Implicit Types (a c o : barray K V) (x : cell K V) (tb : table K V) (b : bucket K V).

(** The array the iterator is in, and that it points into it. *)
Record at_array tb (w : which) a (it : iter) : Prop := AtArray {
  ia_array : loc_array tb w = Some a;
  ia_index : (it_index it < alen a)%N;
  ia_ptr : forall x, cell_at a (it_index it) = Some x -> it_bucket it = true -> wf_ptr (bkt x) (it_ptr it) }.
(** What is still to come. *)
Definition coming tb (w : which) a (it : iter) : list (K * V) :=
  match cell_at a (it_index it) with
  | Some x => if it_bucket it then BucketSpec.after (live_at INDEX) (bkt x) (it_ptr it) else []
  | None => []
  end ++ high INDEX a (it_index it + 1) ++ match w with Old => oents INDEX (cur tb) | Cur => [] end.

Lemma loc_wf tb w a : wf_table hash INDEX tb -> loc_array tb w = Some a ->
  wf_array hash INDEX a /\ exists c, cur tb = Some c /\ wf_array hash INDEX c.
Proof.
  intros W L. destruct w; cbn [loc_array] in L.
  - destruct (wf_tab_cur _ _ _ _ W L) as (? & _). eauto.
  - destruct (cur tb) as [c|] eqn:C; [|pose proof (wf_tab_none _ _ _ W C); congruence].
    destruct (wf_tab_pair _ _ _ _ _ W C L) as (WP & _). split; [apply WP|]. exists c. split; [done|apply WP].
Qed.
Definition buckets_left tb (w : which) a (it : iter) : nat :=
  N.to_nat (alen a - it_index it) + match w with Old => olen (cur tb) | Cur => 0 end.

Lemma next_loop_spec tb n : wf_table hash INDEX tb -> forall w a it, at_array tb w a it -> buckets_left tb w a it <= n ->
  exists it' r, next_loop n tb w it = Some (it', r) /\
    match r with
    | None => coming tb w a it = []
    | Some e => exists w' a', it_array it' = Some w' /\ at_array tb w' a' it' /\ coming tb w a it = e :: coming tb w' a' it'
    end.
Proof.
  intros W. induction n as [|n IH]; intros w a it A Ln.
  { exfalso. pose proof (ia_index _ _ _ _ A). unfold buckets_left in Ln. lia. }
  destruct (loc_wf tb w a W (ia_array _ _ _ _ A)) as (Wa & c & C & Wc).
  cbn [next_loop]. rewrite (ia_array _ _ _ _ A), obind.
  destruct (lookup_lt_is_Some_2 (bks a) (N.to_nat (it_index it))) as [x X].
  { rewrite (wa_len _ _ _ Wa). pose proof (ia_index _ _ _ _ A). lia. }
  assert (X' : cell_at a (it_index it) = Some x) by exact X.
  pose proof (wc_core _ _ _ (wa_cells _ _ _ Wa _ _ X)) as Wx.
  assert (Rest : coming tb w a it = high INDEX a (it_index it + 1) ++ match w with Old => oents INDEX (cur tb) | Cur => [] end ->
    exists it' r, (if (it_index it + 1 =? alen a)%N then
        match cur tb, w with
        | None, _ | Some _, Cur => Some (Iter (Some w) 0 false null_ptr, None)
        | Some _, Old => next_loop n tb Cur (Iter (Some Cur) 0 true null_ptr)
        end
      else next_loop n tb w (Iter (Some w) (it_index it + 1) true null_ptr)) = Some (it', r) /\
    match r with
    | None => coming tb w a it = []
    | Some e => exists w' a', it_array it' = Some w' /\ at_array tb w' a' it' /\ coming tb w a it = e :: coming tb w' a' it'
    end).
  { intros ->. destruct (N.eqb_spec (it_index it + 1) (alen a)) as [El|El].
    - rewrite C, El, (high_len hash INDEX a Wa). cbn [app]. destruct w.
      + exists (Iter (Some Cur) 0 false null_ptr), None. done.
      + assert (Ac : at_array tb Cur c (Iter (Some Cur) 0 true null_ptr)).
        { split; [done|cbn [it_index]; exact (alen_pos c (wa_table _ _ _ Wc))|]. intros y _ _. apply wf_null. }
        destruct (IH Cur c _ Ac) as (it' & r & E & R).
        { unfold buckets_left in *. cbn [it_index]. rewrite C in Ln. cbn [olen] in Ln. pose proof (ia_index _ _ _ _ A). lia. }
        exists it', r. split; [done|].
        assert (Cm : coming tb Cur c (Iter (Some Cur) 0 true null_ptr) = oents INDEX (Some c)).
        { unfold coming. cbn [it_index it_bucket it_ptr oents].
          destruct (lookup_lt_is_Some_2 (bks c) 0) as [y Y].
          { rewrite (wa_len _ _ _ Wc). pose proof (alen_pos c (wa_table _ _ _ Wc)). lia. }
          assert (Y' : cell_at c 0 = Some y) by exact Y. rewrite Y', after_null, app_nil_r.
          rewrite <- (high_0 INDEX c). by rewrite (high_S INDEX c 0 y Y'). }
        by rewrite Cm in R.
    - pose proof (ia_index _ _ _ _ A) as Ia.
      assert (An : at_array tb w a (Iter (Some w) (it_index it + 1) true null_ptr)).
      { split; [apply A|cbn [it_index]; lia|]. intros y _ _. apply wf_null. }
      destruct (IH w a _ An) as (it' & r & E & R).
      { unfold buckets_left in *. cbn [it_index]. lia. }
      exists it', r. split; [done|].
      assert (Cm : coming tb w a (Iter (Some w) (it_index it + 1) true null_ptr) =
        high INDEX a (it_index it + 1) ++ match w with Old => oents INDEX (cur tb) | Cur => [] end).
      { unfold coming. cbn [it_index it_bucket it_ptr].
        destruct (lookup_lt_is_Some_2 (bks a) (N.to_nat (it_index it + 1))) as [y Y].
        { rewrite (wa_len _ _ _ Wa). lia. }
        assert (Y' : cell_at a (it_index it + 1) = Some y) by exact Y. rewrite Y', after_null.
        rewrite (high_S INDEX a _ y Y'). by rewrite <- app_assoc. }
      by rewrite Cm in R. }
  destruct (it_bucket it) eqn:B.
  - rewrite X', obind. pose proof (ia_ptr _ _ _ _ A x X' B) as Wp.
    pose proof (move_to_next_spec hash INDEX (bkt x) (it_ptr it) Wx Wp) as M.
    destruct (move_to_next INDEX (bkt x) (it_ptr it)) as [p' []].
    + destruct M as (en & Pt & E). rewrite (points_to_get _ _ _ _ Pt), !obind.
      eexists _, _. split; [done|]. exists w, a. split; [done|]. split.
      * split; cbn [it_index it_bucket it_ptr]; [apply A|apply A|]. intros y Y _. assert (y = x) as -> by congruence.
        exact (points_to_wf_ptr hash INDEX (bkt x) p' en Wx Pt).
      * unfold coming. cbn [it_index it_bucket it_ptr]. rewrite X', B, E. done.
    + destruct M as [E _]. rewrite obind. apply Rest. unfold coming. by rewrite X', B, E.
  - rewrite obind. apply Rest. unfold coming. by rewrite X', B.
Qed.
Lemma next_loop_olen tb w a : wf_table hash INDEX tb -> loc_array tb w = Some a -> forall it,
  buckets_left tb w a it <= S (olen (old tb) + olen (cur tb)).
Proof.
  intros W L it. unfold buckets_left. destruct w; cbn [loc_array] in L; rewrite L; cbn [olen]; lia.
Qed.
Lemma for_loop_spec tb n : wf_table hash INDEX tb -> forall w a it, it_array it = Some w -> at_array tb w a it ->
  length (coming tb w a it) < n -> for_loop n tb it = Some (coming tb w a it).
Proof.
  intros W. induction n as [|n IH]; intros w a it Ew A L; [lia|]. cbn [for_loop]. unfold next. rewrite Ew.
  destruct (next_loop_spec tb _ W w a it A (next_loop_olen tb w a W (ia_array _ _ _ _ A) it)) as (it' & r & E & R).
  rewrite E, obind. cbn [fst snd]. destruct r as [en|]; [|by rewrite R].
  destruct R as (w' & a' & Ew' & A' & Cm). rewrite Cm in L |- *. cbn [length] in L.
  rewrite (IH w' a' it' Ew' A') by lia. by rewrite obind.
Qed.
(** Calling [next] until it returns [None]. *)
Lemma nexts_spec tb : wf_table hash INDEX tb -> forall es w a it, it_array it = Some w -> at_array tb w a it -> coming tb w a it = es ->
  exists it' it'', nexts (length es) tb it = Some (it', map Some es) /\ next tb it' = Some (it'', None).
Proof.
  intros W. induction es as [|e es IH]; intros w a it Ew A Cm; cbn [length nexts].
  - unfold next. destruct (next_loop_spec tb _ W w a it A (next_loop_olen tb w a W (ia_array _ _ _ _ A) it)) as (it' & r & E & R).
    exists it, it'. split; [done|]. rewrite Ew, E. destruct r as [en|]; [|done].
    destruct R as (w' & a' & _ & _ & X). congruence.
  - unfold next at 1. rewrite Ew.
    destruct (next_loop_spec tb _ W w a it A (next_loop_olen tb w a W (ia_array _ _ _ _ A) it)) as (it1 & r & E & R).
    rewrite E, obind. cbn [fst snd]. destruct r as [en|]; [|congruence].
    destruct R as (w' & a' & Ew' & A' & X). rewrite Cm in X. injection X as -> X.
    destruct (IH w' a' it1 Ew' A' (eq_sym X)) as (it' & it'' & E1 & E2). rewrite E1, obind. cbn [fst snd map].
    exists it', it''. done.
Qed.
Lemma cells_len_spec (a : option (barray K V)) : (forall z, a = Some z -> wf_array hash INDEX z) ->
  cells_len a = length (oents INDEX a).
Proof.
  destruct a as [a|]; intros W; [|done]. cbn [cells_len oents]. specialize (W a eq_refl). unfold aents.
  pose proof (wf_cores hash INDEX a W) as C. induction (bks a) as [|x cs IH]; [done|]. cbn [map concat sum_list].
  rewrite app_length, <- IH by (intros y Hy; apply C; set_solver).
  by rewrite (wf_len hash INDEX (bkt x)) by (apply C; set_solver).
Qed.
(** The first call of [next]. *)
Lemma iter_start tb c : wf_table hash INDEX tb -> cur tb = Some c -> exists w a, at_array tb w a (Iter (Some w) 0 true null_ptr) /\
  coming tb w a (Iter (Some w) 0 true null_ptr) = tents INDEX tb /\
  next tb iter_new = next tb (Iter (Some w) 0 true null_ptr).
Proof.
  intros W C. set (w := match old tb with Some _ => Old | None => Cur end).
  assert (exists a, loc_array tb w = Some a /\ tents INDEX tb = aents INDEX a ++ match w with Old => oents INDEX (cur tb) | Cur => [] end) as (a & L & T).
  { unfold tents, w. rewrite C. destruct (old tb) as [o|] eqn:O; cbn [loc_array oents app].
    - by exists o.
    - exists c. by rewrite app_nil_r. }
  destruct (loc_wf tb w a W L) as (Wa & _). exists w, a. split; [|split].
  - split; [done|cbn [it_index]; exact (alen_pos a (wa_table _ _ _ Wa))|]. intros y _ _. apply wf_null.
  - unfold coming. cbn [it_index it_bucket it_ptr].
    destruct (lookup_lt_is_Some_2 (bks a) 0) as [y Y].
    { rewrite (wa_len _ _ _ Wa). pose proof (alen_pos a (wa_table _ _ _ Wa)). lia. }
    assert (Y' : cell_at a 0 = Some y) by exact Y. rewrite Y', after_null, T.
    rewrite <- (high_0 INDEX a), (high_S INDEX a 0 y Y'). by rewrite <- app_assoc.
  - unfold next. cbn [iter_new it_array it_index it_ptr]. by rewrite C.
Qed.
Lemma iter_all_spec tb : wf_table hash INDEX tb -> iter_all tb = Some (tents INDEX tb).
Proof.
  intros W. unfold iter_all.
  assert (Lo : forall z, old tb = Some z -> wf_array hash INDEX z).
  { intros z O. by destruct (loc_wf tb Old z W O). }
  assert (Lc : forall z, cur tb = Some z -> wf_array hash INDEX z).
  { intros z O. by destruct (loc_wf tb Cur z W O). }
  rewrite (cells_len_spec _ Lo), (cells_len_spec _ Lc). rewrite <- app_length. change (oents INDEX (old tb) ++ _) with (tents INDEX tb).
  destruct (cur tb) as [c|] eqn:C.
  2:{ cbn [for_loop]. unfold next. cbn [iter_new it_array]. rewrite C, obind. cbn [snd].
      unfold tents. by rewrite C, (wf_tab_none _ _ _ W C). }
  destruct (iter_start tb c W C) as (w & a & A0 & Cm & N).
  rewrite <- Cm at 2. rewrite <- (for_loop_spec tb (S (length (tents INDEX tb))) W w a (Iter (Some w) 0 true null_ptr) eq_refl A0) by (rewrite Cm; lia).
  cbn [for_loop]. by rewrite N.
Qed.
Lemma nexts_all tb : wf_table hash INDEX tb -> exists it it',
  nexts (length (tents INDEX tb)) tb iter_new = Some (it, map Some (tents INDEX tb)) /\ next tb it = Some (it', None).
Proof.
  intros W. destruct (cur tb) as [c|] eqn:C.
  2:{ unfold tents. rewrite C, (wf_tab_none _ _ _ W C). cbn [oents app length nexts map].
      exists iter_new, iter_new. split; [done|]. unfold next. cbn [iter_new it_array]. by rewrite C. }
  destruct (iter_start tb c W C) as (w & a & A0 & Cm & N).
  destruct (nexts_spec tb W (tents INDEX tb) w a (Iter (Some w) 0 true null_ptr) eq_refl A0 Cm) as (it & it' & E1 & E2).
  destruct (tents INDEX tb) as [|e es]; cbn [length nexts] in *.
  - exists iter_new, it'. injection E1 as <-. by rewrite N.
  - exists it, it'. by rewrite N.
Qed.
End iter.
