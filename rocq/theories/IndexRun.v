(** One step, and a history, of HashIndex operations against the reference. *)
From Coq Require Import NArith Lia.
From stdpp Require Import numbers prelude list.
From Verif Require CapModel CapSpec CapFacts CapThms.
From Verif Require Import LruModel BucketModel BucketSpec BucketFacts BucketOps BucketOps2 BucketOps3
  MapSpec MapFacts BucketRun BucketRunFacts TableModel TableSpec TableFacts TableReloc TableHouse TableResize TableAccess
  TableOps IterSpec TableIter MapRunFacts IndexModel IndexRef IndexFacts IndexFacts2 IndexIter.

Section ref.
Context {K V : Type} `{EqDecision K}.
Implicit Types (m : list (K * V)).
Lemma jout_refl (a : iout K V) : jout_eq a a.
Proof. destruct a; unfold jout_eq; reflexivity. Qed.
Lemma act_on_nodup m k a : NoDup m.*1 -> NoDup (act_on m k a).*1.
Proof. destruct a; cbn [act_on]; auto using put_NoDup, del_NoDup. Qed.
Lemma act_on_perm m m' k a : NoDup m.*1 -> m ≡ₚ m' -> act_on m k a ≡ₚ act_on m' k a.
Proof. destruct a; cbn [act_on]; auto using put_perm, del_perm. Qed.
Lemma jstep_nodup m (o : iop K V) : NoDup m.*1 -> NoDup (jstep m o).1.*1.
Proof.
  intros ND. destruct o as [k v|k f|k f|k c|k| | | | |p| |n|i]; cbn [jstep fst]; auto using act_on_nodup.
  - destruct (assoc k m); cbn [fst]; auto using put_NoDup.
  - destruct (assoc k m); auto using act_on_nodup.
  - destruct (assoc k m); [|done]. destruct (c v); cbn [fst]; auto using del_NoDup.
  - eapply sublist_nodup; [|exact ND]. apply fmap_sublist. apply filter_sub.
  - constructor.
Qed.
Lemma jstep_perm m m' (o : iop K V) : NoDup m.*1 -> m ≡ₚ m' ->
  (jstep m o).1 ≡ₚ (jstep m' o).1 /\ jout_eq (jstep m o).2 (jstep m' o).2.
Proof.
  intros ND P. assert (A : forall k, assoc k m = assoc k m') by (intros; by apply assoc_perm).
  destruct o as [k v|k f|k f|k c|k| | | | |p| |n|i]; cbn [jstep]; rewrite <- ?A.
  - destruct (assoc k m); cbn [fst snd]; auto using jout_refl, put_perm.
  - cbn [fst snd]. split; [by apply act_on_perm|done].
  - cbn [fst snd]. split; [|done]. destruct (assoc k m); [by apply act_on_perm|done].
  - destruct (assoc k m); [destruct (c v)|]; cbn [fst snd]; auto using jout_refl, del_perm.
  - done.
  - cbn [fst snd jout_eq]. by rewrite P.
  - cbn [fst snd jout_eq]. split; [done|]. destruct m as [|e m].
    + apply Permutation_nil in P as ->. done.
    + destruct m'; [by apply Permutation_nil_r in P|done].
  - done.
  - done.
  - cbn [fst snd jout_eq]. by rewrite P.
  - done.
  - done.
  - done.
Qed.
Lemma jrun_nodup (os : list (iop K V)) : forall m, NoDup m.*1 -> NoDup (jrun m os).1.*1.
Proof. induction os as [|o os IH]; intros m ND; cbn [jrun fst snd]; [done|]. apply IH. by apply jstep_nodup. Qed.
Lemma jrun_perm (os : list (iop K V)) : forall m m', NoDup m.*1 -> m ≡ₚ m' ->
  (jrun m os).1 ≡ₚ (jrun m' os).1 /\ Forall2 jout_eq (jrun m os).2 (jrun m' os).2.
Proof.
  induction os as [|o os IH]; intros m m' ND P; cbn [jrun fst snd].
  - split; [done|constructor].
  - destruct (jstep_perm m m' o ND P) as (P1 & P2).
    destruct (IH _ _ (jstep_nodup m o ND) P1) as (Q1 & Q2). split; [done|by constructor].
Qed.
Lemma jrun_app (os os' : list (iop K V)) : forall m,
  jrun m (os ++ os') = ((jrun (jrun m os).1 os').1, (jrun m os).2 ++ (jrun (jrun m os).1 os').2).
Proof.
  induction os as [|o os IH]; intros m; cbn [app jrun fst snd].
  - by destruct (jrun m os').
  - by rewrite IH.
Qed.
Lemma jout_trans (a b d : iout K V) : jout_eq a b -> jout_eq b d -> jout_eq a d.
Proof. destruct a, b, d; cbn; try congruence. by intros -> ->. Qed.
(** What is given and returned does not depend on the order of listings. *)
Lemma jgiven_ext (o : iop K V) a b : jout_eq a b -> jgiven o a = jgiven o b /\ jreturned o a = jreturned o b.
Proof. destruct a, b; cbn [jout_eq]; intros E; try discriminate E; try (by injection E as ->); destruct o; done. Qed.
Definition jnew m (o : iop K V) : list (K * V) :=
  match o with
  | IInsert k v => match assoc k m with None => [(k, v)] | Some _ => [] end
  | IEntry k f => match f (assoc k m) with Store v => [(k, v)] | _ => [] end
  | IGet k f => match assoc k m with Some v => match f v with Store v => [(k, v)] | _ => [] end | None => [] end
  | _ => []
  end.
Lemma jnew_spec m (o : iop K V) : jgiven o (jstep m o).2 = jnew m o ++ jreturned o (jstep m o).2.
Proof.
  destruct o as [k v|k f|k f|k c|k| | | | |p| |n|i]; cbn [jstep jnew]; try done.
  - by destruct (assoc k m).
  - cbn [snd jgiven jreturned]. by rewrite app_nil_r.
  - cbn [snd jgiven jreturned]. rewrite app_nil_r. by destruct (assoc k m).
Qed.
Lemma visit_marks (p : K * V -> bool) (vs : list (K * V)) :
  visit_mut (marks (fun (s : unit) x => (s, p x))) tt vs =
  (tt, filter (fun e => p e = true) vs, filter (fun e => p e = false) vs, true).
Proof.
  induction vs as [|[k v] vs IH]; [done|]. cbn [visit_mut marks fst snd]. 
  change (visit_mut _ tt vs) with (visit_mut (marks (fun (s : unit) x => (s, p x))) tt vs). rewrite IH.
  destruct (p (k, v)) eqn:E.
  - rewrite filter_cons_True, filter_cons_False by (rewrite E; done). done.
  - rewrite filter_cons_False, filter_cons_True by (rewrite E; done). done.
Qed.
Lemma visit_marks_none (vs : list (K * V)) :
  visit_mut (marks (fun (_ : unit) (_ : K * V) => (tt, false))) tt vs = (tt, [], vs, true).
Proof.
  induction vs as [|[k v] vs IH]; [done|]. cbn [visit_mut marks fst snd].
  change (visit_mut _ tt vs) with (visit_mut (marks (fun (_ : unit) (_ : K * V) => (tt, false))) tt vs). by rewrite IH.
Qed.
End ref.

Section indexrun.
Context {K V : Type} `{EqDecision K}.
Context (hash : K -> N).
Context (Hh : forall k, (hash k < 2 ^ 64)%N).
Implicit Types (tb : table K V) (m : list (K * V)).

Lemma icore_spec e tb m (o : iop K V) : wf_table hash INDEX tb -> tents INDEX tb ≡ₚ m ->
  exists tb' out, icore e hash tb o = Some (tb', out) /\ jout_eq out (jstep m o).2 /\
    ist hash tb tb' (jstep m o).1 (jnew m o).
Proof.
  intros W P.
  assert (ND : NoDup m.*1) by (by apply (wf_nodup hash INDEX tb)).
  destruct o as [k v|k f|k f|k c|k| | | | |p| |n|i]; cbn [icore jstep jnew].
  - destruct (insert_sync_ispec hash Hh e tb k v m W P) as (tb' & E & S). rewrite E, obind. cbn [fst snd].
    eexists _, _. split; [done|]. by destruct (assoc k m).
  - destruct (entry_sync_ispec hash Hh e tb k f m W P) as (tb' & E & S). rewrite E, obind. cbn [fst snd].
    eexists _, _. split; [done|]. done.
  - destruct (get_sync_ispec hash Hh e tb k f m W P) as (tb' & E & S). rewrite E, obind. cbn [fst snd].
    eexists _, _. split; [done|]. done.
  - destruct (remove_if_sync_ispec hash Hh e tb k c m W P) as (tb' & E & S). rewrite E, obind. cbn [fst snd].
    eexists _, _. split; [done|]. destruct (assoc k m) as [v|]; [by destruct (c v)|done].
  - destruct (peek_ispec hash Hh e tb k m W P) as (tb' & r & E & S & ->). rewrite E, obind. cbn [fst snd].
    eexists _, _. split; [done|]. done.
  - destruct (len_same hash Hh INDEX (same_gen e) tb m W P) as (tb' & E & S). rewrite E, obind. cbn [fst snd].
    eexists _, _. split; [done|]. split; [done|]. by apply ist_same.
  - destruct (is_empty_same hash Hh INDEX (same_gen e) tb m W P) as (tb' & E & S). rewrite E, obind. cbn [fst snd].
    eexists _, _. split; [done|]. split; [|by apply ist_same].
    cbn. destruct m; [by rewrite bool_decide_true|by rewrite bool_decide_false].
  - unfold IndexModel.iter_sync. destruct (reclaim_spec hash Hh e tb W) as (tb0 & E0 & S0). rewrite E0, obind.
    destruct (iter_sync_spec hash Hh INDEX (same_gen e) tb0 (fun s e => (s ++ [e], true)) [] (sm_wf _ _ _ _ S0)) as (tb' & vs & E & Pv & S).
    rewrite E, obind. cbn [fst snd]. rewrite visit_collect. cbn [fst snd app].
    eexists _, _. split; [done|]. split; [cbn; by rewrite Pv, (sm_ents _ _ _ _ S0)|].
    eapply ist_after; [|exact S]. by apply ist_same.
  - rewrite (iter_all_spec hash tb W), obind. eexists _, _. split; [done|]. split; [done|].
    apply ist_same; [done|]. by apply same_refl.
  - destruct (retain_sync_ispec hash Hh e tb (fun (s : unit) x => (s, p x)) tt W)
      as (tb' & vs & s' & kept & cons & E & Pv & Vm & S).
    rewrite E, obind. cbn [fst snd]. rewrite visit_marks in Vm. injection Vm as <- <- <-.
    eexists _, _. split; [done|]. split; [done|]. rewrite P in Pv.
    eapply ist_perm; [exact S|]. by rewrite Pv.
  - unfold clear_sync. destruct (retain_sync_ispec hash Hh e tb (fun (_ : unit) _ => (tt, false)) tt W)
      as (tb' & vs & s' & kept & cons & E & Pv & Vm & S).
    rewrite E, obind. cbn [fst snd]. rewrite visit_marks_none in Vm. injection Vm as <- <- <-. rewrite obind.
    eexists _, _. split; [done|]. split; [done|]. done.
  - destruct (reserve_ispec hash Hh tb n m W P) as (tb' & r & E & S). rewrite E, obind. cbn [fst snd].
    eexists _, _. split; [done|]. done.
  - destruct (unreserve_ispec hash Hh tb i m W P) as (tb' & E & S). rewrite E, obind. cbn [fst snd].
    eexists _, _. split; [done|]. done.
Qed.
Lemma istep_spec e tb m (o : iop K V) : wf_table hash INDEX tb -> tents INDEX tb ≡ₚ m ->
  exists tb' out, istep e hash tb o = Some (tb', out) /\ jout_eq out (jstep m o).2 /\
    ist hash tb tb' (jstep m o).1 (jnew m o).
Proof.
  intros W P. destruct (icore_spec e tb m o W P) as (tb1 & out & E & O & S). unfold istep. rewrite E, obind. cbn [fst snd].
  destruct (settle_spec hash Hh e tb1 (is_wf _ _ _ _ _ S)) as (tb2 & E2 & S2). rewrite E2, obind.
  exists tb2, out. split; [done|]. split; [done|]. by eapply ist_after.
Qed.
(** What a history gives to and gets from the index. *)
Lemma irun_spec (os : list (env * iop K V)) : forall tb m, wf_table hash INDEX tb -> tents INDEX tb ≡ₚ m ->
  exists tb' outs, irun hash tb os = Some (tb', outs) /\ Forall2 jout_eq outs (jrun m os.*2).2 /\
    wf_table hash INDEX tb' /\ tents INDEX tb' ≡ₚ (jrun m os.*2).1 /\
    concat (zip_with jgiven os.*2 outs) ++ released tb ++ tstored tb ≡ₚ
    concat (zip_with jreturned os.*2 outs) ++ released tb' ++ tstored tb'.
Proof.
  induction os as [|[e o] os IH]; intros tb m W P; cbn [irun fst snd fmap list_fmap jrun].
  - exists tb, []. done.
  - destruct (istep_spec e tb m o W P) as (tb1 & out & E & Oe & S). rewrite E, obind. cbn [fst snd].
    destruct (IH tb1 _ (is_wf _ _ _ _ _ S) (is_ents _ _ _ _ _ S)) as (tb2 & outs & E2 & O2 & W2 & P2 & A2).
    rewrite E2, obind. cbn [fst snd]. exists tb2, (out :: outs). split; [done|]. split; [by constructor|].
    split; [done|]. split; [done|]. change (list_fmap _ _ snd os) with (os.*2). cbn [zip_with concat].
    destruct (jgiven_ext o _ _ Oe) as [-> ->]. rewrite jnew_spec.
    pose proof (is_acct _ _ _ _ _ S) as A1. rewrite <- !app_assoc, <- A2.
    rewrite A1. solve_Permutation.
Qed.
Lemma run_index_spec cap (os : list (env * iop K V)) :
  exists tb outs, run_index hash cap os = Some (tb, outs) /\ Forall2 jout_eq outs (jrun [] os.*2).2 /\
    wf_table hash INDEX tb /\ tents INDEX tb ≡ₚ jfinal os /\
    concat (zip_with jgiven os.*2 outs) ≡ₚ concat (zip_with jreturned os.*2 outs) ++ released tb ++ tstored tb.
Proof.
  unfold run_index. destruct (new_index_spec (V:=V) hash cap) as (tb0 & E & W & T & R & St). rewrite E, obind.
  destruct (irun_spec os tb0 [] W) as (tb & outs & E2 & O2 & W2 & P2 & A2); [by rewrite T|].
  rewrite R, St, !app_nil_r in A2. exists tb, outs. done.
Qed.
End indexrun.
