(** One step, and a history, of HashMap operations against the reference. *)
From Coq Require Import NArith Lia.
From stdpp Require Import numbers prelude list.
From Verif Require CapModel CapSpec CapFacts CapThms.
From Verif Require Import LruModel BucketModel BucketSpec BucketFacts BucketOps BucketOps2 BucketOps3
  MapSpec MapFacts BucketRun BucketRunFacts TableModel TableSpec TableFacts TableReloc TableHouse TableResize TableAccess
  TableOps IterSpec TableIter MapModel MapRef MapFacts2.

Section ref.
Context {K V : Type} `{EqDecision K}.
Implicit Types (m : list (K * V)).
Lemma out_refl (a : mout K V) : out_eq a a.
Proof. destruct a; unfold out_eq; reflexivity. Qed.
Lemma out_trans (a b d : mout K V) : out_eq a b -> out_eq b d -> out_eq a d.
Proof. destruct a, b, d; cbn; try congruence. by intros -> ->. Qed.
Lemma visit_collect (vs : list (K * V)) : forall s, visit (fun s e => (s ++ [e], true)) s vs = (s ++ vs, true).
Proof.
  induction vs as [|e vs IH]; intros s; cbn [visit fst snd]; [by rewrite app_nil_r|]. by rewrite IH, <- app_assoc.
Qed.
Lemma visit_retain (p : K * V -> V * bool) (vs : list (K * V)) :
  visit_mut (fun (s : unit) e => (s, (p e).1, (p e).2, true)) tt vs =
  (tt, map (fun e => (e.1, (p e).1)) (filter (fun e => (p e).2 = true) vs),
       map (fun e => (e.1, (p e).1)) (filter (fun e => (p e).2 = false) vs), true).
Proof.
  induction vs as [|e vs IH]; [done|]. cbn [visit_mut]. rewrite IH.
  destruct (p e).2 eqn:E.
  - rewrite filter_cons_True, filter_cons_False by (rewrite E; done). done.
  - rewrite filter_cons_False, filter_cons_True by (rewrite E; done). done.
Qed.
Lemma filter_all (q : K * V -> bool) (vs : list (K * V)) : (forall e, q e = false) ->
  filter (fun e => q e = true) vs = [] /\ filter (fun e => q e = false) vs = vs.
Proof.
  intros Q. induction vs as [|e vs [IH1 IH2]]; [done|].
  rewrite filter_cons_False, filter_cons_True by (rewrite Q; done). by rewrite IH1, IH2.
Qed.
Lemma filter_sub (q : K * V -> Prop) `{forall e, Decision (q e)} m : filter q m `sublist_of` m.
Proof.
  induction m as [|e m IH]; [done|]. destruct (decide (q e)).
  - rewrite filter_cons_True by done. by constructor.
  - rewrite filter_cons_False by done. by constructor.
Qed.
(** Every reference step keeps keys unique. *)
Lemma rstep_nodup m (o : mop K V) : NoDup m.*1 -> NoDup (r_map (rstep m o)).*1.
Proof.
  intros ND. assert (P : forall k v, NoDup (put k v m).*1) by (intros; by apply put_NoDup).
  assert (D : forall k, NoDup (del k m).*1) by (intros; by apply del_NoDup).
  destruct o as [k v|k v|k f|k c|k f|k| | | |p| |n|i]; cbn [rstep r_map]; auto.
  - destruct (assoc k m); cbn [r_map r_out r_drops]; auto using out_refl.
  - destruct (assoc k m); cbn [r_map r_out r_drops]; auto using out_refl.
  - destruct (assoc k m); cbn [r_map r_out r_drops]; auto using out_refl. destruct (c v).2; cbn [r_map r_out r_drops]; auto using out_refl.
  - destruct (assoc k m); destruct (f _); auto.
  - assert (E : forall l : list (K * V), (map (fun e => (e.1, (p e).1)) l).*1 = l.*1).
    { induction l as [|e l IH]; [done|]. cbn. by f_equal. }
    rewrite E. eapply sublist_nodup; [|exact ND]. apply fmap_sublist. apply filter_sub.
  - constructor.
Qed.
(** The reference does not depend on the order of its list. *)
Lemma rstep_perm m m' (o : mop K V) : NoDup m.*1 -> m ≡ₚ m' ->
  r_map (rstep m o) ≡ₚ r_map (rstep m' o) /\ out_eq (r_out (rstep m o)) (r_out (rstep m' o)) /\
  r_drops (rstep m o) ≡ₚ r_drops (rstep m' o).
Proof.
  intros ND P. assert (A : forall k, assoc k m = assoc k m') by (intros; by apply assoc_perm).
  assert (Pp : forall k v, put k v m ≡ₚ put k v m') by (intros; by apply put_perm).
  destruct o as [k v|k v|k f|k c|k f|k| | | |p| |n|i]; cbn [rstep]; rewrite <- ?A.
  - destruct (assoc k m); cbn [r_map r_out r_drops]; auto using out_refl.
  - cbn [r_map r_out r_drops]; auto using out_refl.
  - destruct (assoc k m); cbn [r_map r_out r_drops]; auto using out_refl.
  - destruct (assoc k m); cbn [r_map r_out r_drops]; auto using out_refl. destruct (c v).2; cbn [r_map r_out r_drops]; auto using out_refl, del_perm.
  - cbn [r_map r_out r_drops out_eq]. split; auto. destruct (assoc k m), (f _); auto using del_perm.
  - cbn [r_map r_out r_drops]; auto using out_refl.
  - cbn [r_map r_out r_drops out_eq]. rewrite P. auto.
  - cbn [r_map r_out r_drops out_eq]. split; [done|]. split; [|done]. destruct m as [|e m].
    + apply Permutation_nil in P as ->. done.
    + destruct m'; [by apply Permutation_nil_r in P|done].
  - cbn [r_map r_out r_drops]; auto using out_refl.
  - cbn [r_map r_out r_drops out_eq]. rewrite P. auto.
  - cbn [r_map r_out r_drops]; auto using out_refl.
  - cbn [r_map r_out r_drops]; auto using out_refl.
  - cbn [r_map r_out r_drops]; auto using out_refl.
Qed.
Lemma rrun_perm (os : list (mop K V)) : forall m m', NoDup m.*1 -> m ≡ₚ m' ->
  (rrun m os).1.1 ≡ₚ (rrun m' os).1.1 /\ Forall2 out_eq (rrun m os).1.2 (rrun m' os).1.2 /\
  (rrun m os).2 ≡ₚ (rrun m' os).2.
Proof.
  induction os as [|o os IH]; intros m m' ND P; cbn [rrun fst snd].
  - split; [done|]. split; [constructor|done].
  - destruct (rstep_perm m m' o ND P) as (P1 & P2 & P3).
    destruct (IH _ _ (rstep_nodup m o ND) P1) as (Q1 & Q2 & Q3).
    split; [done|]. split; [by constructor|]. by rewrite P3, Q3.
Qed.
Lemma rrun_app (os os' : list (mop K V)) : forall m,
  rrun m (os ++ os') = ((rrun (rrun m os).1.1 os').1.1, (rrun m os).1.2 ++ (rrun (rrun m os).1.1 os').1.2,
                        (rrun m os).2 ++ (rrun (rrun m os).1.1 os').2).
Proof.
  induction os as [|o os IH]; intros m; cbn [app rrun fst snd].
  - by destruct (rrun m os') as [[? ?] ?].
  - rewrite IH. cbn [fst snd]. by rewrite app_assoc.
Qed.
Lemma rrun_nodup (os : list (mop K V)) : forall m, NoDup m.*1 -> NoDup (rrun m os).1.1.*1.
Proof. induction os as [|o os IH]; intros m ND; cbn [rrun fst snd]; [done|]. apply IH. by apply rstep_nodup. Qed.
End ref.

Section maprun.
Context {K V : Type} `{EqDecision K}.
Context (hash : K -> N).
Context (Hh : forall k, (hash k < 2 ^ 64)%N).
Implicit Types (tb : table K V) (m : list (K * V)).

Lemma mstep_spec sg tb m rel (o : mop K V) : holds hash MAP tb m rel ->
  exists tb' out, mstep sg hash tb o = Some (tb', out) /\ out_eq out (r_out (rstep m o)) /\
    holds hash MAP tb' (r_map (rstep m o)) (rel ++ r_drops (rstep m o)).
Proof.
  intros H. pose proof (hd_wf _ _ _ _ _ H) as W. pose proof (hd_ents _ _ _ _ _ H) as P.
  assert (Ht : MAP <> INDEX) by done.
  assert (ND : NoDup m.*1) by (by apply (wf_nodup hash MAP tb)).
  destruct o as [k v|k v|k f|k c|k f|k| | | |p| |n|i]; cbn [mstep rstep].
  - destruct (insert_sync_spec hash Hh MAP sg tb k v m Ht W P) as (tb' & E & S). rewrite E, obind. cbn [fst snd].
    eexists _, _. split; [done|]. destruct (assoc k m); (split; [done|]); by apply (holds_step0 hash MAP tb tb' m rel).
  - destruct (upsert_sync_spec hash Hh MAP sg tb k v m Ht W P) as (tb' & E & S). rewrite E, obind. cbn [fst snd].
    eexists _, _. split; [done|]. split; [done|]. by apply (holds_step0 hash MAP tb tb' m rel).
  - destruct (update_sync_spec hash Hh MAP sg tb k f m Ht W P) as (tb' & E & S). rewrite E, obind. cbn [fst snd].
    eexists _, _. split; [done|]. destruct (assoc k m); (split; [done|]); by apply (holds_step0 hash MAP tb tb' m rel).
  - destruct (remove_if_sync_spec hash Hh MAP sg tb k c m Ht W P) as (tb' & E & S). rewrite E, obind. cbn [fst snd].
    eexists _, _. split; [done|]. destruct (assoc k m) as [v|]; [destruct (c v).2|];
      (split; [done|]); by apply (holds_step0 hash MAP tb tb' m rel).
  - destruct (entry_sync_spec hash Hh sg tb k f m W P) as (tb' & E & S). rewrite E, obind. cbn [fst snd].
    eexists _, _. split; [done|]. split; [done|]. by apply (holds_step0 hash MAP tb tb' m rel).
  - destruct (read_spec hash Hh MAP sg tb k m Ht W P) as (tb' & r & E & S & A & Ke). rewrite E, obind. cbn [fst snd].
    eexists _, _. split; [done|]. split; [|by apply (holds_step0 hash MAP tb tb' m rel)].
    cbn. rewrite <- A. destruct r as [[k' v']|]; [|done]. cbn. specialize (Ke _ eq_refl). cbn in Ke. by rewrite Ke.
  - destruct (len_spec hash Hh MAP sg tb m Ht W P) as (tb' & E & S). rewrite E, obind. cbn [fst snd].
    eexists _, _. split; [done|]. split; [done|]. by apply (holds_step0 hash MAP tb tb' m rel).
  - destruct (is_empty_spec hash Hh MAP sg tb m Ht W P) as (tb' & E & S). rewrite E, obind. cbn [fst snd].
    eexists _, _. split; [done|]. split; [|by apply (holds_step0 hash MAP tb tb' m rel)].
    cbn. destruct m; [by rewrite bool_decide_true|by rewrite bool_decide_false].
  - destruct (iter_sync_spec hash Hh MAP sg tb (fun s e => (s ++ [e], true)) [] W) as (tb' & vs & E & Pv & S).
    rewrite E, obind. cbn [fst snd]. rewrite visit_collect. cbn [fst snd app].
    eexists _, _. split; [done|]. split; [cbn; by rewrite Pv|]. cbn. rewrite app_nil_r. by apply (holds_same hash MAP tb tb').
  - destruct (retain_sync_spec hash Hh MAP sg tb (fun (s : unit) e => (s, (p e).1, (p e).2)) tt Ht W)
      as (tb' & vs & s' & kept & cons & E & Pv & Vm & S).
    rewrite E, obind. cbn [fst snd]. rewrite visit_retain in Vm. injection Vm as <- <- <-.
    eexists _, _. split; [done|]. split; [done|]. cbn [r_map r_drops].
    rewrite P in Pv. eapply holds_perm; [eapply (holds_step hash MAP tb tb' m rel); [done|exact S|reflexivity]|..].
    + by rewrite Pv.
    + by rewrite Pv.
  - unfold clear_sync.
    destruct (retain_sync_spec hash Hh MAP sg tb (fun (_ : unit) e => (tt, e.2, false)) tt Ht W)
      as (tb' & vs & s' & kept & cons & E & Pv & Vm & S).
    rewrite E, obind. cbn [fst snd].
    assert (Vm' : visit_mut (fun (s : unit) (e : K * V) => (tt, e.2, false, true)) tt vs = (tt, [], vs, true)).
    { clear. induction vs as [|[k v] vs IH]; [done|]. cbn [visit_mut]. rewrite IH. done. }
    rewrite Vm' in Vm. injection Vm as <- <- <-. rewrite obind.
    eexists _, _. split; [done|]. split; [done|]. cbn [r_map r_drops].
    rewrite P in Pv. by eapply (holds_step hash MAP tb tb' m rel).
  - destruct (reserve_spec hash Hh MAP tb n m rel Ht H) as (tb' & r & E & S). rewrite E, obind. cbn [fst snd].
    eexists _, _. split; [done|]. split; [done|]. cbn. by rewrite app_nil_r.
  - destruct (unreserve_spec hash Hh MAP tb i m rel Ht H) as (tb' & E & S). rewrite E, obind. cbn [fst snd].
    eexists _, _. split; [done|]. split; [done|]. cbn. by rewrite app_nil_r.
Qed.

Lemma mrun_spec sg (os : list (mop K V)) : forall tb m rel, holds hash MAP tb m rel ->
  exists tb' outs, mrun sg hash tb os = Some (tb', outs) /\ Forall2 out_eq outs (rrun m os).1.2 /\
    holds hash MAP tb' (rrun m os).1.1 (rel ++ (rrun m os).2).
Proof.
  induction os as [|o os IH]; intros tb m rel H; cbn [mrun rrun fst snd].
  - exists tb, []. split; [done|]. split; [constructor|]. by rewrite app_nil_r.
  - destruct (mstep_spec sg tb m rel o H) as (tb1 & out & E & Oe & H1). rewrite E, obind. cbn [fst snd].
    destruct (IH tb1 _ _ H1) as (tb2 & outs & E2 & O2 & H2). rewrite E2, obind. cbn [fst snd].
    exists tb2, (out :: outs). split; [done|]. split; [by constructor|]. by rewrite app_assoc.
Qed.
Lemma run_map_spec sg cap (os : list (mop K V)) :
  exists tb outs, run_map sg hash cap os = Some (tb, outs) /\ Forall2 out_eq outs (rrun [] os).1.2 /\
    holds hash MAP tb (rrun [] os).1.1 (rrun [] os).2.
Proof.
  unfold run_map. destruct (new_map_spec (V:=V) hash cap) as (tb0 & E & H & _). rewrite E, obind.
  destruct (mrun_spec sg os tb0 [] [] H) as (tb & outs & E2 & O2 & H2). eauto.
Qed.
End maprun.
