(** Iterations and whole operations that unwind. *)
From Coq Require Import NArith Lia.
From stdpp Require Import numbers prelude list.
From Verif Require CapModel CapSpec CapFacts CapThms.
From Verif Require Import LruModel BucketModel BucketSpec BucketFacts BucketOps BucketOps2 BucketOps3
  MapSpec MapFacts BucketRun BucketRunFacts TableModel TableSpec TableFacts TableReloc TableHouse TableResize TableAccess
  TableOps IterSpec TableIter MapModel MapRef MapFacts2 MapRunFacts TuModel TuFacts TuSpec.

Section tufacts2.
Context {K V : Type} `{EqDecision K}.
Context (hash : K -> N).
Context (Hh : forall k, (hash k < 2 ^ 64)%N).
Implicit Types (tb : table K V) (m : list (K * V)).

Lemma reader_loop_u_spec sg is : forall tb c n, wf_table hash MAP tb -> cur tb = Some c ->
  (forall i, i ∈ is -> (i < alen c)%N) ->
  exists tb' r, reader_loop_u MAP sg hash tb is n = Some (tb', r) /\ same hash MAP tb tb'.
Proof.
  induction is as [|i is IH]; intros tb c n W C L; cbn [reader_loop_u].
  { exists tb, (Some n). split; [done|by apply same_refl]. }
  destruct (prepare_u_spec hash Hh MAP sg tb c i n) as (tb1 & r & E & M); [done|done|done|apply L; set_solver|].
  rewrite E, obind. cbn [fst snd]. destruct r as [n'|]; [|eauto].
  destruct (prepare_spec hash Hh MAP sg tb c i W C) as (tb2 & E2 & S2 & _); [apply L; set_solver|].
  rewrite M in E2. injection E2 as <-.
  destruct (st_cur _ _ _ _ S2 c C) as (c1 & C1 & Z1 & _).
  destruct (IH tb1 c1 n' (sm_wf _ _ _ _ (st_same _ _ _ _ S2)) C1) as (tb3 & r & E3 & S3).
  { intros j Hj. unfold alen. rewrite Z1. apply L. set_solver. }
  rewrite E3. exists tb3, r. split; [done|]. eapply same_trans; [apply S2|done].
Qed.

Lemma writer_loop_u_spec {S} sg (f : S -> K * V -> verdict V S) n : forall i tb c s out h, wf_table hash MAP tb ->
  cur tb = Some c -> (i + N.of_nat n = alen c)%N -> pending hash MAP tb c i ->
  exists tb' vs rs s' kept cons fin, writer_loop_u MAP sg hash tb (TableModel.range i (i + N.of_nat n))
       (fun s b => mut_loop (Datatypes.S (blen b)) MAP f s b null_ptr []) s out h = Some (tb', s', out ++ cons, fin) /\
    low MAP c i ++ vs ++ rs ≡ₚ tents MAP tb /\ step hash MAP tb tb' (low MAP c i ++ kept ++ rs) [] /\
    match fin with
    | Through => rs = [] /\ visit_mut (of_verdict f) s vs = (s', kept, cons, true) /\ exists c', cur tb' = Some c'
    | Stopped => rs = [] /\ visit_mut (of_verdict f) s vs = (s', kept, cons, false)
    | Unwound => visit_mut (of_verdict f) s vs = (s', kept, cons, true)
    end.
Proof.
  assert (Ht : MAP <> INDEX) by done. set (t := MAP) in *.
  induction n as [|n IH]; intros i tb c s out h W C Hn Pd.
  - replace (TableModel.range i (i + N.of_nat 0)) with (@nil N).
    2:{ unfold TableModel.range. by replace (N.to_nat (i + N.of_nat 0 - i)) with 0 by lia. }
    exists tb, [], [], s, [], [], Through. rewrite !app_nil_r. split; [done|].
    assert (i = alen c) as -> by lia. destruct (wf_tab_cur _ _ _ _ W C) as (Wc & _).
    assert (P : low t c (alen c) ≡ₚ tents t tb).
    { rewrite (tents_low t tb c (alen c) C), (high_len hash t c Wc), (pending_end hash Hh t tb c W C Pd). by rewrite app_nil_r. }
    split; [done|]. split; [apply step_same; [done|by symmetry|by apply same_refl]|]. split; [done|]. split; [done|]. eauto.
  - rewrite range_cons. cbn [writer_loop_u].
    destruct (prepare_u_spec hash Hh t sg tb c i h) as (tb0 & r & E0 & M0); [done|done|done|lia|].
    rewrite E0, obind. cbn [fst snd]. destruct r as [h'|].
    2:{ exists tb0, [], (oents t (old tb) ++ high t c i), s, [], [], Unwound. rewrite !app_nil_r. split; [done|]. cbn [app].
        assert (P : low t c i ++ oents t (old tb) ++ high t c i ≡ₚ tents t tb) by (symmetry; by apply tents_low).
        split; [done|]. split; [|done]. apply step_same; [done|by symmetry|done]. }
    destruct (prepare_low hash Hh t sg tb c i W C) as (tb1 & c1 & x & E1 & S1 & C1 & Z1 & L1 & P1 & X & Ow); [lia|done|].
    rewrite M0 in E1. injection E1 as <-. rename tb0 into tb1. pose proof (sm_wf _ _ _ _ S1) as W1.
    destruct (owns_lock hash t tb1 _ _ W1 Ow) as [Lk Wb]. rewrite Lk, obind.
    destruct (mut_loop_spec hash t f (Datatypes.S (blen (bkt x))) Ht s (bkt x) null_ptr [] []) as (b' & s1 & kept & cons & go & E2 & V2 & Wb' & En).
    { done. } { apply wf_null. } { by rewrite after_null. } { rewrite after_null, (wf_len _ _ _ Wb). lia. }
    rewrite E2, obind. cbn [fst snd app]. rewrite after_null in V2. cbn [app] in En.
    destruct (owns_split hash t tb1 (Cur, i) (bkt x) W1 Ow) as (R & RS & TE & _ & Nk & PB).
    pose proof (visit_mut_keys _ _ _ _ _ _ _ V2) as Sub. rewrite <- En in Sub.
    destruct (PB b' Wb') as (tb2 & PBk).
    { intros e He. assert (e.1 ∈ (entries t (bkt x)).*1) as He'.
      { eapply elem_of_submseteq; [|by apply sublist_submseteq]. apply elem_of_list_fmap. eauto. }
      apply elem_of_list_fmap in He' as (e' & -> & He'). by apply (owns_lkey hash t tb1 (Cur, i) (bkt x)). }
    { eapply sublist_nodup; [exact Sub|]. assert (NoDup (tents t tb1).*1) as ND by apply W1.
      rewrite TE, fmap_app in ND. by apply NoDup_app in ND as (? & _). }
    rewrite (pb_set _ _ _ _ _ _ _ _ PBk), obind.
    pose proof (pb_other _ _ _ _ _ _ _ _ PBk c1 i x eq_refl C1 X) as C2.
    set (c2 := set_cell c1 i (Cell b' (dead x))) in *.
    assert (X2 : cell_at c2 i = Some (Cell b' (dead x))).
    { apply list_lookup_insert. by apply cell_at_lt in X. }
    assert (L2 : low t c2 i = low t c1 i).
    { unfold low, c2. rewrite set_cell_bks, take_insert by lia. done. }
    assert (O2 : old tb2 = old tb1) by (by apply (pb_old _ _ _ _ _ _ _ _ PBk)).
    assert (P2 : pending hash t tb2 c2 (i + 1)).
    { intros e. rewrite O2. apply P1. }
    assert (H2 : high t c2 (i + 1) = high t c1 (i + 1)).
    { unfold high, c2. rewrite set_cell_bks, drop_insert_gt by lia. done. }
    assert (St : step hash t tb tb2 (low t c i ++ kept ++ oents t (old tb1) ++ high t c1 (i + 1)) []).
    { eapply put_step; [done|exact S1|exact PBk|]. rewrite <- (pb_ents _ _ _ _ _ _ _ _ PBk).
      rewrite (tents_low t tb2 c2 i C2), L2, L1, O2, (high_S t c2 i _ X2), H2. cbn [bkt]. rewrite En.
      apply Permutation_app_head, perm3. }
    assert (T1 : tents t tb1 ≡ₚ low t c i ++ entries t (bkt x) ++ oents t (old tb1) ++ high t c1 (i + 1)).
    { rewrite (tents_low t tb1 c1 i C1), L1, (high_S t c1 i x X). apply Permutation_app_head, perm3. }
    destruct go.
    + destruct (IH (i + 1)%N tb2 c2 s1 (out ++ cons) h' (pb_wf _ _ _ _ _ _ _ _ PBk) C2)
        as (tb3 & vs & rs & s3 & kept3 & cons3 & fin & E3 & P3 & S3 & F3).
      { change (alen c2) with (alen c1). unfold alen. rewrite Z1. unfold alen in Hn. lia. } { done. }
      rewrite E3. exists tb3, (entries t (bkt x) ++ vs), rs, s3, (kept ++ kept3), (cons ++ cons3), fin.
      rewrite (low_S t c2 i _ X2), L2, L1 in P3, S3. cbn [bkt] in P3, S3. rewrite En in P3, S3.
      assert (Pv : vs ++ rs ≡ₚ oents t (old tb1) ++ high t c1 (i + 1)).
      { rewrite (tents_low t tb2 c2 i C2), L2, L1, O2, (high_S t c2 i _ X2), H2 in P3. cbn [bkt] in P3. rewrite En in P3.
        rewrite <- app_assoc in P3. apply Permutation_app_inv_l in P3. rewrite (perm3 kept (oents t (old tb1)) (high t c1 (i + 1))) in P3. by apply Permutation_app_inv_l in P3. }
      split; [by rewrite app_assoc|].
      split; [by rewrite <- (sm_ents _ _ _ _ S1), T1, <- Pv, !app_assoc|].
      split.
      { rewrite <- !app_assoc in *. change (@nil (K * V)) with (@nil (K * V) ++ []). by eapply step_trans. }
      rewrite visit_mut_app, V2. destruct fin.
      * destruct F3 as (-> & V3 & C3). by rewrite V3.
      * destruct F3 as (-> & V3). by rewrite V3.
      * by rewrite F3.
    + exists tb2, (entries t (bkt x) ++ oents t (old tb1) ++ high t c1 (i + 1)), [], s1,
        (kept ++ oents t (old tb1) ++ high t c1 (i + 1)), cons, Stopped. rewrite !app_nil_r.
      split; [done|]. split; [by rewrite <- (sm_ents _ _ _ _ S1), T1|]. split; [done|]. split; [done|].
      by rewrite visit_mut_app, V2.
Qed.

Definition verdict_of (p : K * V -> V * option bool) (s : unit) (e : K * V) : verdict V unit :=
  match (p e).2 with
  | Some keep => Verdict _ s (p e).1 keep true
  | None => Verdict _ s (p e).1 true false
  end.
Lemma stay_cons p e (vs : list (K * V)) : stay_of p (e :: vs) =
  match (p e).2 with Some true => (e.1, (p e).1) :: stay_of p vs | _ => stay_of p vs end.
Proof.
  unfold stay_of. destruct (p e).2 as [[]|] eqn:E;
    [rewrite filter_cons_True by (by rewrite E)|rewrite filter_cons_False by (by rewrite E)..]; done.
Qed.
Lemma gone_cons p e (vs : list (K * V)) : gone_of p (e :: vs) =
  match (p e).2 with Some false => (e.1, (p e).1) :: gone_of p vs | _ => gone_of p vs end.
Proof.
  unfold gone_of. destruct (p e).2 as [[]|] eqn:E;
    [rewrite filter_cons_False by (by rewrite E)|rewrite filter_cons_True by (by rewrite E)|rewrite filter_cons_False by (by rewrite E)]; done.
Qed.
Lemma visit_verdict p (l : list (K * V)) : forall s s' kept cons go, visit_mut (of_verdict (verdict_of p)) s l = (s', kept, cons, go) ->
  exists vs, (forall e, e ∈ vs -> (p e).2 <> None) /\ cons = gone_of p vs /\
    if go then l = vs /\ kept = stay_of p vs
    else exists e rs, (p e).2 = None /\ l = vs ++ e :: rs /\ kept = stay_of p vs ++ (e.1, (p e).1) :: rs.
Proof.
  induction l as [|e l IH]; intros s s' kept cons go; cbn [visit_mut].
  { intros [= <- <- <- <-]. exists []. split; [set_solver|]. done. }
  unfold of_verdict at 1, verdict_of. destruct (p e).2 as [b|] eqn:E; cbn [v_state v_value v_keep v_go].
  - destruct (visit_mut _ s l) as [[[s2 k2] c2] g2] eqn:E2.
    intros Q. destruct (IH _ _ _ _ _ E2) as (vs & N & -> & R).
    exists (e :: vs). split.
    { intros e' [->|He]%elem_of_cons; [by rewrite E|auto]. }
    rewrite stay_cons, gone_cons, E.
    destruct b; injection Q as <- <- <- <-; (split; [done|]); destruct g2.
    + destruct R as (-> & ->). done.
    + destruct R as (e' & rs & N' & -> & ->). exists e', rs. done.
    + destruct R as (-> & ->). done.
    + destruct R as (e' & rs & N' & -> & ->). exists e', rs. done.
  - intros [= <- <- <- <-]. exists []. split; [set_solver|]. split; [done|]. exists e, l. done.
Qed.

Lemma retain_u_spec sg tb m rel p n : holds hash MAP tb m rel ->
  exists tb' unwound m' drops, retain_u sg hash tb p n = Some (tb', unwound) /\
    retained p m m' (if unwound : bool then None else Some OUnit) drops /\
    holds hash MAP tb' m' (rel ++ drops).
Proof.
  intros H. pose proof (hd_wf _ _ _ _ _ H) as W. pose proof (hd_ents _ _ _ _ _ H) as P. assert (Ht : MAP <> INDEX) by done.
  unfold retain_u. destruct (cur tb) as [c|] eqn:C.
  2:{ rewrite (wf_none_tents hash MAP tb W C) in P. apply Permutation_nil in P as ->.
      exists tb, false, [], []. split; [done|]. rewrite app_nil_r. split; [|done].
      exists []. split; [set_solver|]. split; [done|]. by left. }
  destruct (writer_loop_u_spec sg (verdict_of p) (N.to_nat (alen c)) 0 tb c tt [] n W C)
    as (tb1 & ws & rs & [] & kept & cons & fin & E & Pw & St & F); [lia|apply pending_0|].
  replace (0 + N.of_nat (N.to_nat (alen c)))%N with (alen c) in E by lia.
  unfold verdict_of in E. rewrite E, obind. cbn [fst snd app]. rewrite low_0 in Pw, St. cbn [app] in Pw, St.
  rewrite P in Pw. pose proof (sp_wf _ _ _ _ _ _ St) as W1.
  destruct fin.
  - destruct F as (-> & Vm & c1 & C1). rewrite app_nil_r in Pw, St.
    destruct (visit_verdict p ws _ _ _ _ _ Vm) as (vs & N & -> & -> & ->).
    assert (exists tb2, match gone_of p vs with [] => Some tb1 | _ => try_shrink MAP tb1 0 end = Some tb2 /\ same hash MAP tb1 tb2) as (tb2 & E2 & S2).
    { destruct (gone_of p vs); [exists tb1; split; [done|by apply same_refl]|].
      destruct (try_shrink_spec hash Hh MAP tb1 c1 0 W1 C1) as (tb2 & E2 & S2 & _); [|eauto].
      apply alen_pos. by apply (wf_tab_cur hash MAP tb1 c1 W1 C1). }
    rewrite E2, obind. eexists _, false, _, _. split; [done|]. split.
    { exists vs. split; [exact N|]. split; [reflexivity|]. left. split; [done|]. split; [by symmetry|reflexivity]. }
    eapply (holds_step hash MAP tb); [exact H| |reflexivity]. apply release_step.
    change (@nil (K * V)) with (@nil (K * V) ++ []). eapply step_trans; [exact St|].
    apply step_same; [done|apply St|done].
  - destruct F as (-> & Vm). rewrite app_nil_r in Pw, St.
    destruct (visit_verdict p ws _ _ _ _ _ Vm) as (vs & N & -> & e & rs & Ne & -> & ->).
    eexists _, true, _, _. split; [done|]. split.
    { exists vs. split; [exact N|]. split; [reflexivity|]. right. left. exists e, rs. split; [done|]. split; [done|].
      split; [by symmetry|reflexivity]. }
    eapply (holds_step hash MAP tb); [exact H|apply release_step; exact St|reflexivity].
  - destruct (visit_verdict p ws _ _ _ _ _ F) as (vs & N & -> & -> & ->).
    eexists _, true, _, _. split; [done|]. split.
    { exists vs. split; [exact N|]. split; [reflexivity|]. right. right. exists rs. split; [done|].
      split; [by symmetry|reflexivity]. }
    eapply (holds_step hash MAP tb); [exact H|apply release_step; exact St|reflexivity].
Qed.
End tufacts2.
