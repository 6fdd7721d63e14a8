(** Histories of operations that may unwind. *)
From Coq Require Import NArith Lia.
From stdpp Require Import numbers prelude list.
From Verif Require CapModel CapSpec CapFacts CapThms.
From Verif Require Import LruModel BucketModel BucketSpec BucketFacts BucketOps BucketOps2 BucketOps3
  MapSpec MapFacts BucketRun BucketRunFacts TableModel TableSpec TableFacts TableReloc TableHouse TableResize TableAccess
  TableOps IterSpec TableIter MapModel MapRef MapFacts2 MapRunFacts TuModel TuFacts TuSpec TuFacts2.

Section tuthms.
Context {K V : Type} `{EqDecision K}.
Context (hash : K -> N).
Context (Hh : forall k, (hash k < 2 ^ 64)%N).
Implicit Types (tb : table K V) (m : list (K * V)).

Lemma access_u_spec sg tb (o : mop K V) n : wf_table hash MAP tb ->
  exists tb' r, access_u sg hash tb o n = Some (tb', r) /\ (r = None -> same hash MAP tb tb').
Proof.
  intros W.
  assert (A1 : forall k, exists tb' r, (tb0 ← create tb; c0 ← cur tb0;
      prepare_u MAP sg hash tb0 (CapModel.bucket_index (sz c0) (hash k)) n) = Some (tb', r) /\ (r = None -> same hash MAP tb tb')).
  { intros k. destruct (create_spec hash MAP tb W) as (tb0 & c0 & E0 & S0 & C0 & _). rewrite E0, obind, C0, obind.
    destruct (wf_tab_cur _ _ _ _ (sm_wf _ _ _ _ S0) C0) as (Wc & _).
    destruct (prepare_u_spec hash Hh MAP sg tb0 c0 (CapModel.bucket_index (sz c0) (hash k)) n) as (tb1 & r & E & M);
      [done|apply S0|done|by apply (index_lt hash Hh MAP)|].
    exists tb1, r. split; [done|]. intros ->. by eapply same_trans. }
  assert (A2 : forall k, exists tb' r, match cur tb with None => Some (tb, Some n)
      | Some c => prepare_u MAP sg hash tb (CapModel.bucket_index (sz c) (hash k)) n end = Some (tb', r) /\
      (r = None -> same hash MAP tb tb')).
  { intros k. destruct (cur tb) as [c|] eqn:C; [|by exists tb, (Some n)].
    destruct (wf_tab_cur _ _ _ _ W C) as (Wc & _).
    destruct (prepare_u_spec hash Hh MAP sg tb c (CapModel.bucket_index (sz c) (hash k)) n) as (tb1 & r & E & M);
      [done|done|done|by apply (index_lt hash Hh MAP)|].
    exists tb1, r. split; [done|]. by intros ->. }
  assert (A3 : exists tb' r, incremental_rehash_u MAP sg hash tb n = Some (tb', r) /\ (r = None -> same hash MAP tb tb')).
  { destruct (incremental_rehash_u_spec hash Hh MAP sg tb n) as (tb1 & r & E & M); [done|done|].
    exists tb1, r. split; [done|]. by intros ->. }
  assert (A4 : exists tb' r, Some (tb, Some n) = Some (tb', r) /\ (r = None -> same hash MAP tb tb')) by (by exists tb, (Some n)).
  destruct o; cbn [access_u]; try done.
  destruct (cur tb) as [c|] eqn:C; [|done].
  destruct (reader_loop_u_spec hash Hh sg (TableModel.range 0 (alen c)) tb c n W C) as (tb1 & r & E & S1).
  { intros i Hi%elem_of_range. lia. }
  exists tb1, r. done.
Qed.

Lemma usual_step sg tb m rel (o : mop K V) : holds hash MAP tb m rel ->
  exists tb' out m' drops, completed (mstep sg hash tb o) = Some (tb', out) /\ usual m o m' out drops /\
    holds hash MAP tb' m' (rel ++ drops).
Proof.
  intros H. destruct (mstep_spec hash Hh sg tb m rel o H) as (tb' & w & E & Oe & H').
  unfold completed. rewrite E, obind. cbn [fst snd]. eexists _, _, _, _. split; [done|]. split; [|exact H'].
  by exists w.
Qed.
Lemma nothing_step tb tb' m rel : holds hash MAP tb m rel -> same hash MAP tb tb' ->
  exists tb2 out m' drops, Some (tb', @None (mout K V)) = Some (tb2, out) /\ nothing m m' out drops /\
    holds hash MAP tb2 m' (rel ++ drops).
Proof.
  intros H S. eexists _, _, _, _. split; [done|]. split; [done|]. rewrite app_nil_r. by apply (holds_same hash MAP tb).
Qed.
Lemma hash_step sg tb m rel (o : mop K V) n : holds hash MAP tb m rel ->
  exists tb' out m' drops, (r ← access_u sg hash tb o n;
    match r.2 with None => Some (r.1, None) | Some _ => completed (mstep sg hash tb o) end) = Some (tb', out) /\
    (usual m o m' out drops \/ nothing m m' out drops) /\ holds hash MAP tb' m' (rel ++ drops).
Proof.
  intros H. destruct (access_u_spec sg tb o n (hd_wf _ _ _ _ _ H)) as (tb1 & r & E & S). rewrite E, obind. cbn [fst snd].
  destruct r as [n'|].
  - destruct (usual_step sg tb m rel o H) as (tb' & out & m' & d & E1 & U & H'). rewrite E1. eauto 10.
  - destruct (nothing_step tb tb1 m rel H (S eq_refl)) as (tb' & out & m' & d & E1 & U & H'). rewrite E1. eauto 10.
Qed.
Lemma retain_step sg tb m rel p n : holds hash MAP tb m rel ->
  exists tb' out m' drops, (r ← retain_u sg hash tb p n; Some (r.1, if r.2 : bool then None else Some (@OUnit K V))) = Some (tb', out) /\
    retained p m m' out drops /\ holds hash MAP tb' m' (rel ++ drops).
Proof.
  intros H. destruct (retain_u_spec hash Hh sg tb m rel p n H) as (tb' & w & m' & d & E & R & H').
  rewrite E, obind. cbn [fst snd]. eauto 10.
Qed.

Lemma ustep_spec sg tb m rel (u : uop K V) : holds hash MAP tb m rel ->
  exists tb' out m' drops, ustep sg hash tb u = Some (tb', out) /\ ref_step m u m' out drops /\
    holds hash MAP tb' m' (rel ++ drops).
Proof.
  intros H. pose proof (hd_wf _ _ _ _ _ H) as W. pose proof (hd_ents _ _ _ _ _ H) as P.
  assert (Ht : MAP <> INDEX) by done.
  destruct u as [o|n o|o|k f|k c|k f|n p]; cbn [ustep].
  - by apply usual_step.
  - destruct o; cbn [ref_step]; first [by apply retain_step | by apply hash_step].
  - assert (A1 : forall k, exists tb' out m' drops, (r ← writer MAP sg hash tb (hash k); Some (r.1, @None (mout K V))) = Some (tb', out) /\
      nothing m m' out drops /\ holds hash MAP tb' m' (rel ++ drops)).
    { intros k. destruct (writer_spec hash Hh MAP sg tb k W) as (tb1 & l & b & E & S & _). rewrite E, obind. cbn [fst snd].
      by apply (nothing_step tb tb1 m rel). }
    assert (A2 : forall k, exists tb' out m' drops, (r ← optional_writer MAP sg hash tb (hash k); Some (r.1, @None (mout K V))) = Some (tb', out) /\
      nothing m m' out drops /\ holds hash MAP tb' m' (rel ++ drops)).
    { intros k. destruct (optional_writer_spec hash Hh MAP sg tb k W) as (tb1 & l & E & S & _). rewrite E, obind. cbn [fst snd].
      by apply (nothing_step tb tb1 m rel). }
    destruct o; cbn [ref_step key_of]; first [apply A1 | apply A2 | by apply usual_step].
  - destruct (update_sync_spec hash Hh MAP sg tb k f m Ht W P) as (tb' & E & S). rewrite E, obind. cbn [fst snd ref_step].
    eexists _, _, _, _. split; [reflexivity|]. split.
    2:{ eapply (holds_step0 hash MAP tb); [exact H|exact S]. }
    split; [done|]. destruct (assoc k m) as [v|]; [|done]. split; [done|]. by destruct (f k v).2.
  - destruct (update_sync_spec hash Hh MAP sg tb k (fun _ v => ((c v).1, (c v).2)) m Ht W P) as (tb' & E & S).
    rewrite E, obind. cbn [fst snd ref_step]. cbn [fst snd] in S.
    assert (G : (match assoc k m with Some v => (c v).2 <> None | None => True end) ->
      exists tb' out m' drops, completed (mstep sg hash tb (MRemoveIf k (fun v => ((c v).1, match (c v).2 with Some x => x | None => false end)))) = Some (tb', out) /\
      (drops = [] /\ match assoc k m with
        | Some v => match (c v).2 with
          | Some true => m' = del k m /\ out = Some (OEntry (Some (k, (c v).1)))
          | Some false => m' = put k (c v).1 m /\ out = Some (OEntry None)
          | None => m' = put k (c v).1 m /\ out = None end
        | None => m' = m /\ out = Some (OEntry None) end) /\ holds hash MAP tb' m' (rel ++ drops)).
    { intros Nn. destruct (usual_step sg tb m rel (MRemoveIf k (fun v => ((c v).1, match (c v).2 with Some x => x | None => false end))) H)
        as (tb2 & out & m' & d & E2 & (w & -> & Ow & -> & ->) & H2).
      rewrite E2. eexists _, _, _, _. split; [reflexivity|]. split; [|exact H2]. clear -Ow Nn.
      cbn [rstep fst snd] in *. destruct (assoc k m) as [v|].
      - destruct (c v).2 as [[]|]; cbn [r_out r_map r_drops] in *; [| |done]; (split; [done|]); (split; [done|]);
          destruct w; cbn in Ow; congruence.
      - cbn [r_out r_map r_drops] in *. split; [done|]. split; [done|]. destruct w; cbn in Ow; congruence. }
    destruct (assoc k m) as [v|]; [|by apply G].
    destruct (c v).2 as [x|] eqn:Ec; [by apply G|].
    eexists _, _, _, _. split; [reflexivity|]. split; [done|]. eapply (holds_step0 hash MAP tb); [exact H|exact S].
  - destruct (entry_sync_spec hash Hh sg tb k (option_map f) m W P) as (tb' & E & S). rewrite E, obind. cbn [fst snd ref_step].
    eexists _, _, _, _. split; [reflexivity|]. split; [split; [done|]; split; [done|]; reflexivity|].
    eapply (holds_step0 hash MAP tb); [exact H|]. destruct (assoc k m); exact S.
  - by apply retain_step.
Qed.

Lemma urun_spec sg (us : list (uop K V)) : forall tb m rel, holds hash MAP tb m rel ->
  exists tb' outs m' drops, urun sg hash tb us = Some (tb', outs) /\ ref_run m us outs m' drops /\
    holds hash MAP tb' m' (rel ++ drops).
Proof.
  induction us as [|u us IH]; intros tb m rel H; cbn [urun].
  - exists tb, [], m, []. split; [done|]. rewrite app_nil_r. split; [constructor|done].
  - destruct (ustep_spec sg tb m rel u H) as (tb1 & out & m1 & d1 & E & R & H1). rewrite E, obind. cbn [fst snd].
    destruct (IH tb1 m1 _ H1) as (tb2 & outs & m2 & d2 & E2 & R2 & H2). rewrite E2, obind. cbn [fst snd].
    eexists _, _, m2, (d1 ++ d2). split; [done|]. split; [by econstructor|]. by rewrite app_assoc.
Qed.

Lemma lC59_unwind sg cap (us : list (uop K V)) :
  exists tb outs m drops, run_u sg hash cap us = Some (tb, outs) /\ ref_run [] us outs m drops /\
    NoDup m.*1 /\ behaves_as sg hash tb m /\ exists es, drop_table MAP tb = Some es /\ es ≡ₚ drops ++ m.
Proof.
  unfold run_u. destruct (new_map_spec (V:=V) hash cap) as (tb0 & E & H & _). rewrite E, obind.
  destruct (urun_spec sg us tb0 [] [] H) as (tb & outs & m & d & E2 & R & H2). cbn [app] in H2.
  exists tb, outs, m, d. split; [done|]. split; [done|].
  split; [by apply (wf_nodup hash MAP tb); [apply H2|apply H2]|]. split.
  - intros os. destruct (mrun_spec hash Hh sg os tb m d H2) as (tb' & outs' & E3 & O3 & _). eauto.
  - by apply (drop_table_spec hash Hh).
Qed.
End tuthms.
