(** Removed entries of a HashIndex that are never dropped: the proof behind the refutation C53. *)
From Coq Require Import NArith.
From stdpp Require Import prelude list numbers.
From Verif Require CapModel.
From Verif Require Import BucketModel BucketSpec BucketFacts BucketOps MapSpec TableModel TableSpec TableFacts IndexModel IndexRef IndexRun.
Local Open Scope N_scope.

(** Nothing is protected: every epoch has passed and every retired array may be dropped. *)
Definition free : env := Env (fun _ => false) 1 true (Some 0%nat).
(** All keys are in the first bucket. *)
Definition one (_ : N) : N := 0.
Definition fill : list (env * iop N N) := map (fun k => (free, IInsert (N.of_nat k) 0)) (seq 0 32).
Definition cycle : list (env * iop N N) := [(free, IInsert 100 0); (free, IRemoveIf 100 (fun _ => true))].
Fixpoint cycles (n : nat) : list (env * iop N N) := match n with O => [] | S m => cycle ++ cycles m end.

(** The first bucket after [fill]: its main block is full and nothing in it is removed. *)
Definition m0 : block N N := Block u32_max 0 (replicate 32 0) (map (fun k => Some (N.of_nat k, 0)) (seq 0 32)).
Definition sz0 : CapModel.arr := Eval vm_compute in
  match new_barray (K:=N) (V:=N) 128 with Some a => sz a | None => CapModel.Build_arr 0 0 0 end.
Definition tab (n : nat) (ls : list (block N N)) : table N N :=
  Table (Some (BArray sz0 (Cell (Bucket n m0 ls (replicate 32 (0, 0)%nat)) false :: replicate 3 (Cell new_bucket false)) 0)) None
        (CapModel.Build_minst 128 [] false) (2 ^ 62) [] [].

Lemma fill_run : option_map fst (run_index one 128 fill) = Some (tab 32 []).
Proof. vm_compute. reflexivity. Qed.
Definition m32 : list (N * N) := map (fun k => (N.of_nat k, 0)) (rev (seq 0 32)).
Definition m33 : list (N * N) := Eval vm_compute in (jstep m32 (IInsert 100 0)).1.
Lemma m32_ins : (jstep m32 (IInsert 100 0)).1 = m33.
Proof. vm_compute. reflexivity. Qed.
Lemma m33_rem : (jstep m33 (IRemoveIf 100 (fun _ => true))).1 = m32.
Proof. vm_compute. reflexivity. Qed.
Lemma fill_final : jfinal fill = m32.
Proof. vm_compute. reflexivity. Qed.

(** The first bucket holds everything, so the number of entries is its length. *)
Lemma tab_len n ls m : wf_table one INDEX (tab n ls) -> tents INDEX (tab n ls) ≡ₚ m -> n = length m.
Proof.
  intros W P. apply Permutation_length in P. rewrite <- P. pose proof (wt_arrays _ _ _ W) as Wa. cbn in Wa.
  destruct Wa as (Wa & _). pose proof (wa_cells _ _ _ Wa 0%nat _ eq_refl) as Wc. pose proof (wf_len _ _ _ (wc_core _ _ _ Wc)) as L.
  cbn [blen bkt] in L. unfold tents, oents, aents. cbn [old cur tab bks]. cbn [app map replicate concat bkt].
  change (entries INDEX (@new_bucket N N)) with (@nil (N * N)). rewrite !app_nil_r. exact L.
Qed.

Lemma no_main : search_block INDEX m0 100 0 = Some None.
Proof. vm_compute. reflexivity. Qed.
Lemma search_links_link {K V} `{EqDecision K} t ls (k : K) h : forall j (e : K * V) p,
  search_links t j ls k h = Some (Some (e, p)) -> exists j' i, p = EPtr (Some j') (Some i).
Proof.
  induction ls as [|l ls IH]; intros j e p; cbn [search_links]; [done|].
  destruct (search_block t l k h) as [[[e' i]|]|] eqn:E; cbn [mbind option_bind]; [|by apply IH|done].
  intros [= <- <-]. by eexists _, _.
Qed.
Lemma ptr_link n ls p : get_entry_ptr INDEX (Bucket n m0 ls (replicate 32 (0, 0)%nat)) 100 0 = Some p ->
  is_valid p = true -> exists j i, p = EPtr (Some j) (Some i).
Proof.
  unfold get_entry_ptr, search. cbn [blen main links]. destruct (n =? 0)%nat; [by intros [= <-]|].
  rewrite no_main, obind. destruct (search_links _ _ _ _ _) as [[[e q]|]|] eqn:E; cbn [mbind option_bind]; [|by intros [= <-]|done].
  intros [= <-] _. by eapply search_links_link.
Qed.

Lemma writer_tab n ls : n = 32%nat \/ n = 33%nat -> writer INDEX (fun _ => false) one (tab n ls) 0 = Some (tab n ls, (Cur, 0)).
Proof. intros [-> | ->]; vm_compute; reflexivity. Qed.
Lemma optional_tab n ls : optional_writer INDEX (fun _ => false) one (tab n ls) 0 = Some (tab n ls, Some (Cur, 0)).
Proof. vm_compute. reflexivity. Qed.
Lemma lock_tab n ls : lock (tab n ls) (Cur, 0) = Some (Bucket n m0 ls (replicate 32 (0, 0)%nat)).
Proof. reflexivity. Qed.
Lemma set_tab n ls n' ls' : set_loc (tab n ls) (Cur, 0) (Bucket n' m0 ls' (replicate 32 (0, 0)%nat)) = Some (tab n' ls').
Proof. reflexivity. Qed.
Lemma release_tab n ls : release (tab n ls) [] = tab n ls.
Proof. reflexivity. Qed.
Lemma reclaim_tab n ls : reclaim_memory free (tab n ls) = Some (tab n ls).
Proof. reflexivity. Qed.
Lemma settle_tab n ls : settle free (tab n ls) = Some (tab n ls).
Proof. reflexivity. Qed.

Lemma clear_tab n ls : let b := Bucket n m0 ls (replicate 32 (0, 0)%nat) in insert_clear INDEX (fun _ => false) b = Some (b, []).
Proof. reflexivity. Qed.
Lemma core_tab n ls h e : let b := Bucket n m0 ls (replicate 32 (0, 0)%nat) in insert_core b h e = insert_overflow b h e.
Proof. reflexivity. Qed.

Lemma ins_tab n ls tb' out : n = 32%nat \/ n = 33%nat -> istep free one (tab n ls) (IInsert 100 0) = Some (tb', out) ->
  exists n' ls', tb' = tab n' ls'.
Proof.
  intros Hn. unfold istep, icore, insert_sync, TableModel.insert_sync. rewrite reclaim_tab, obind.
  change (one 100) with 0. change (same_gen free) with (fun _ : N => false). rewrite writer_tab, obind by done. cbn [fst snd]. rewrite lock_tab, obind.
  destruct (get_entry_ptr _ _ _ _) as [p|]; [|done]. rewrite obind. destruct (is_valid p).
  - rewrite !obind. cbn [fst snd]. rewrite settle_tab, obind. intros [= <- _]. by eexists _, _.
  - unfold insert. rewrite clear_tab, obind. cbn [fst snd]. rewrite core_tab.
    unfold insert_overflow. cbn [links main blen lru].
    destruct (insert_links _ _ _ _) as [[ls' [[j i]|]]|]; [| |done]; rewrite !obind; cbn [fst snd];
      rewrite set_tab, obind, release_tab; cbn [fst snd mbind option_bind]; rewrite settle_tab; cbn [mbind option_bind];
      intros [= <- _]; by eexists _, _.
Qed.
Lemma rem_tab n ls tb' out : n = 32%nat \/ n = 33%nat -> istep free one (tab n ls) (IRemoveIf 100 (fun _ => true)) = Some (tb', out) ->
  exists n' ls', tb' = tab n' ls'.
Proof.
  intros Hn. unfold istep, icore, remove_if_sync. rewrite reclaim_tab, obind.
  change (one 100) with 0. change (same_gen free) with (fun _ : N => false). rewrite optional_tab, obind. cbn [fst snd]. rewrite lock_tab, obind.
  destruct (get_entry_ptr _ _ _ _) as [p|] eqn:E; [|done]. rewrite obind. destruct (is_valid p) eqn:Ev.
  - destruct (ptr_link _ _ _ E Ev) as (j & i & ->). destruct (get _ _) as [x|]; [|done]. rewrite obind.
    unfold locked_mark_removed. rewrite lock_tab, obind. unfold mark_removed. cbn [blen index ptr_block link_ptr links].
    destruct Hn as [-> | ->]; cbn [dec_len]; rewrite !obind; destruct (ls !! j) as [l|]; [|done| |done];
      rewrite obind; destruct (hcell l !! i); [|done| |done]; rewrite obind; cbn [set_ptr_block link_ptr main links lru blen].
    all: rewrite obind, set_tab, obind; cbn [Nat.eqb blen]; rewrite ?obind; cbn [fst snd]; rewrite ?obind; cbn [fst snd]; rewrite settle_tab, obind; intros [= <- _]; by eexists _, _.
  - rewrite !obind. cbn [fst snd]. rewrite settle_tab, obind. intros [= <- _]. by eexists _, _.
Qed.

Lemma one_64 : forall k, one k < 2 ^ 64.
Proof. intros k. vm_compute. reflexivity. Qed.
Lemma tab_step n ls m o tb' out : wf_table one INDEX (tab n ls) -> tents INDEX (tab n ls) ≡ₚ m ->
  istep free one (tab n ls) o = Some (tb', out) -> (exists n' ls', tb' = tab n' ls') ->
  exists ls', tb' = tab (length (jstep m o).1) ls' /\ wf_table one INDEX tb' /\ tents INDEX tb' ≡ₚ (jstep m o).1 /\
    length (tstored tb') = (length (jnew m o) + length (tstored (tab n ls)))%nat.
Proof.
  intros W P E (n' & ls' & Et). destruct (istep_spec one one_64 free _ m o W P) as (tb2 & out2 & E2 & _ & S).
  rewrite E in E2. injection E2 as <- <-. destruct S as [W' P' A]. subst tb'. exists ls'.
  rewrite <- (tab_len _ _ _ W' P'). split; [done|]. split; [done|]. split; [done|].
  apply Permutation_length in A. rewrite !app_length in A. cbn [released tab length] in A. exact A.
Qed.
Lemma cycles_run n : forall ls, wf_table one INDEX (tab 32 ls) -> tents INDEX (tab 32 ls) ≡ₚ m32 ->
  exists ls' outs, irun one (tab 32 ls) (cycles n) = Some (tab 32 ls', outs) /\
    length (tstored (tab 32 ls')) = (n + length (tstored (tab 32 ls)))%nat.
Proof.
  induction n as [|n IH]; intros ls W P; cbn [cycles cycle app irun fst snd]; [by eexists _, _|].
  destruct (istep_spec one one_64 free _ m32 (IInsert 100 0) W P) as (tb1 & o1 & E1 & _ & _).
  destruct (tab_step _ _ _ _ _ _ W P E1 (ins_tab _ _ _ _ (or_introl eq_refl) E1)) as (ls1 & -> & W1 & P1 & L1).
  rewrite m32_ins in W1, P1, L1, E1. rewrite E1, obind. cbn [fst snd].
  destruct (istep_spec one one_64 free _ m33 (IRemoveIf 100 (fun _ => true)) W1 P1) as (tb2 & o2 & E2 & _ & _).
  destruct (tab_step _ _ _ _ _ _ W1 P1 E2 (rem_tab _ _ _ _ (or_intror eq_refl) E2)) as (ls2 & -> & W2 & P2 & L2).
  rewrite m33_rem in W2, P2, L2, E2. rewrite E2, obind. cbn [fst snd].
  destruct (IH ls2 W2 P2) as (ls' & outs & E & L). change (length m32) with 32%nat. rewrite E, obind. cbn [fst snd].
  eexists _, _. split; [reflexivity|]. rewrite L. change (length m32) with 32%nat in L2. rewrite L2, L1.
  change (length (jnew m32 _)) with 1%nat. change (length (jnew m33 _)) with 0%nat. lia.
Qed.
Lemma irun_app (hash : N -> N) (os os' : list (env * iop N N)) : forall tb,
  irun hash tb (os ++ os') = (r ← irun hash tb os; q ← irun hash r.1 os'; Some (q.1, r.2 ++ q.2)).
Proof.
  induction os as [|o os IH]; intros tb; cbn [app irun].
  - rewrite obind. cbn [fst snd]. destruct (irun hash tb os') as [[? ?]|]; done.
  - destruct (istep _ _ _ _) as [[tb1 out]|]; [|done]. rewrite !obind. cbn [fst snd]. rewrite IH.
    destruct (irun hash tb1 os) as [[tb2 outs]|]; [|done]. rewrite !obind. cbn [fst snd].
    destruct (irun hash tb2 os') as [[tb3 outs']|]; [|done]. rewrite !obind. done.
Qed.
Lemma cycles_final n : (jrun m32 (cycles n).*2).1 = m32.
Proof.
  induction n as [|n IH]; [done|]. cbn [cycles cycle app fmap list_fmap fst snd jrun].
  rewrite m32_ins, m33_rem. exact IH.
Qed.
Lemma cycles_small n : forall i, (length (jrun m32 (take i (cycles n)).*2).1 <= 33)%nat.
Proof.
  induction n as [|n IH]; intros i; [destruct i; cbn; lia|].
  destruct i as [|[|i]]; cbn [cycles cycle app take fmap list_fmap fst snd jrun].
  - cbn; lia.
  - rewrite m32_ins. vm_compute. lia.
  - rewrite m32_ins, m33_rem. apply IH.
Qed.
Lemma fill_small i : (i <= 32)%nat -> (length (jfinal (take i fill)) <= 33)%nat.
Proof.
  intros Hi. assert (F : forallb (fun i => length (jfinal (take i fill)) <=? 33)%nat (seq 0 33) = true) by (vm_compute; reflexivity).
  rewrite forallb_forall in F. apply Nat.leb_le, F, in_seq. lia.
Qed.
Lemma fill_len : length fill = 32%nat.
Proof. reflexivity. Qed.

Lemma free_unguarded : unguarded free.
Proof. by split. Qed.
Lemma cycles_free n : Forall (fun o => unguarded o.1) (cycles n).
Proof.
  induction n as [|n IH]; [constructor|]. cbn [cycles cycle app]. constructor; [apply free_unguarded|].
  constructor; [apply free_unguarded|]. exact IH.
Qed.
Lemma some_fst {A B} (a b : A) (c : B) : option_map fst (Some (a, c)) = Some b -> a = b.
Proof. by intros [= ->]. Qed.
Lemma final_app (os os' : list (env * iop N N)) : jfinal (os ++ os') = (jrun (jfinal os) os'.*2).1.
Proof. unfold jfinal. by rewrite fmap_app, jrun_app. Qed.
Lemma tab_stored : length (tstored (tab 32 [])) = 32%nat.
Proof. vm_compute. reflexivity. Qed.
Lemma m32_len : length m32 = 32%nat.
Proof. vm_compute. reflexivity. Qed.
Lemma run_app hash cap (os os' : list (env * iop N N)) tb outs tb' outs' : run_index hash cap os = Some (tb, outs) ->
  irun hash tb os' = Some (tb', outs') -> run_index hash cap (os ++ os') = Some (tb', outs ++ outs').
Proof.
  unfold run_index. destruct (new_index cap) as [tb0|]; [|done]. rewrite !obind. intros E E'.
  by rewrite irun_app, E, obind; cbn [fst snd]; rewrite E', obind.
Qed.
Lemma leak n : exists (os : list (env * iop N N)) tb outs,
  Forall (fun o => unguarded o.1) os /\ (forall i, (length (jfinal (take i os)) <= 33)%nat) /\
  run_index one 128 os = Some (tb, outs) /\ capacity tb = 128 /\ released tb = [] /\
  length (tstored tb) = (n + length (jfinal os))%nat.
Proof.
  destruct (run_index_spec one one_64 128 fill) as (tb0 & outs0 & E0 & _ & W0 & P0 & _).
  pose proof fill_run as F. rewrite E0 in F. apply some_fst in F. subst tb0. rewrite fill_final in P0.
  destruct (cycles_run n [] W0 P0) as (ls & outs & E & L).
  exists (fill ++ cycles n), (tab 32 ls), (outs0 ++ outs). split; [|split; [|split; [|split; [|split]]]].
  - apply Forall_app. split; [apply Forall_map, list.Forall_forall; intros; apply free_unguarded|].
    apply cycles_free.
  - intros i. destruct (decide (i <= 32)%nat) as [Hi|Hi].
    + rewrite take_app_le by (rewrite fill_len; lia). by apply fill_small.
    + rewrite take_app_ge by (rewrite fill_len; lia). rewrite fill_len. rewrite final_app, fill_final. apply cycles_small.
  - exact (run_app _ _ _ _ _ _ _ _ E0 E).
  - reflexivity.
  - reflexivity.
  - rewrite L. rewrite final_app, fill_final, cycles_final, tab_stored, m32_len. reflexivity.
Qed.
