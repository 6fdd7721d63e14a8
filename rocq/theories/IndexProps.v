(** HashIndex, one thread at a time: C08, C10, C11, C20, C33, C34, C35, C40, C52, C53. *)
From Coq Require Import NArith.
From stdpp Require Import prelude list numbers.
From Verif Require Import BucketModel BucketSpec MapSpec IterSpec TableModel TableSpec IndexModel IndexRef IndexThms IndexLeak
  BucketRun ReserveSpec IndexTidy.
Local Open Scope N_scope.

(** For the examples: a history that makes the table grow, replaces and removes entries with different
    epochs and stops in the middle of a relocation ([shape] shows the capacity, the slots in use of the
    two arrays, the retired arrays and the entries dropped so far). *)
Definition spread (k : N) : N := (k * 11400714819323198485) mod 2 ^ 64.
Definition oe : env := Env (fun _ => false) 1 false None.
Definition adds (n : nat) : list (env * iop N N) := map (fun k => (oe, IInsert (N.of_nat k) (N.of_nat k + 1000))) (seq 0 n).
Definition xops : list (env * iop N N) :=
  adds 60 ++ [(oe, IEntry 3 (fun _ => Store 7)); (Env (fun _ => true) 2 false None, IGet 4 (fun v => Store (v + 4)));
    (oe, IRemoveIf 5 (fun _ => true)); (oe, IRemoveIf 6 (fun _ => false)); (oe, IEntry 8 (fun _ => Remove)); (oe, IEntry 200 (fun _ => Store 1));
    (oe, IInsert 9 0); (oe, IReserve 4000); (Env (fun _ => false) 3 true (Some 0%nat), IPeek 10)].
Definition slots (a : option (barray N N)) : option nat := option_map (fun a => length (concat (map (fun x => stored (bkt x)) (bks a)))) a.
Definition shape (cap : N) (os : list (env * iop N N)) : option (N * option nat * option nat * nat * nat) :=
  option_map (fun r => (capacity r.1, slots (cur r.1), slots (old r.1), length (garbage r.1), length (released r.1)))
             (run_index spread cap os).
Definition shape_of (cap : N) (os : list (env * iop N N)) : option (N * option nat * option nat * nat * nat) :=
  option_map (fun r => (capacity r.1, slots (cur r.1), slots (old r.1), length (garbage r.1), length (released r.1)))
             (run_index one cap os).
Example spread_64 : forall k, spread k < 2 ^ 64.
Proof. intros. by apply N.mod_lt. Qed.

(** ** C52 *)
Theorem C52_hashindex_is_a_finite_map {K V : Type} `{EqDecision K} : forall (hash : K -> N), (forall k, hash k < 2 ^ 64) ->
  forall cap (os : list (env * iop K V)), exists tb outs,
  run_index hash cap os = Some (tb, outs) /\ Forall2 jout_eq outs (jrun [] os.*2).2.
Proof. exact lC52_hashindex_is_a_finite_map. Qed.
Example C52_example : shape 2048 xops = Some (8192, Some 29%nat, Some 34%nat, 0%nat, 0%nat) /\
  shape 512 xops = Some (8192, Some 59%nat, None, 0%nat, 4%nat) /\
  option_map (fun r => drop 60 r.2) (run_index spread 2048 xops) =
    Some [JValue (Some 1003); JValue (Some 1004); JBool true; JBool false; JValue (Some 1008); JValue None;
          JEntry (Some (9, 0)); JUnit; JEntry (Some (10, 1010))] /\
  option_map (fun r => drop 60 r.2) (run_index (fun _ => 5) 0 xops) =
    option_map (fun r => drop 60 r.2) (run_index spread 2048 xops).
Proof. vm_compute. split; [reflexivity|]. split; [reflexivity|]. split; reflexivity. Qed.
Print Assumptions C52_hashindex_is_a_finite_map.

(** ** C08 *)
Theorem C08_index_rejected_insert {K V : Type} `{EqDecision K} : forall (hash : K -> N), (forall k, hash k < 2 ^ 64) ->
  forall cap (os : list (env * iop K V)) e e' k v v0,
  iafter hash cap os (e, IPeek k) = Some (JEntry (Some (k, v0))) ->
  iafter hash cap os (e', IInsert k v) = Some (JEntry (Some (k, v))) /\
  forall os' o, jsame_result (iafter hash cap (os ++ [(e', IInsert k v)] ++ os') o) (iafter hash cap (os ++ os') o).
Proof. exact lC08_index_rejected_insert. Qed.
Example C08_index_rejected_example : iafter spread 2048 xops (oe, IPeek 3) = Some (JEntry (Some (3, 7))) /\
  iafter spread 2048 xops (oe, IInsert 3 8) = Some (JEntry (Some (3, 8))).
Proof. vm_compute. repeat split; reflexivity. Qed.
Print Assumptions C08_index_rejected_insert.
Theorem C08_index_accepted_insert {K V : Type} `{EqDecision K} : forall (hash : K -> N), (forall k, hash k < 2 ^ 64) ->
  forall cap (os : list (env * iop K V)) e e' k v,
  iafter hash cap os (e, IPeek k) = Some (JEntry None) ->
  iafter hash cap os (e', IInsert k v) = Some (JEntry None) /\
  iafter hash cap (os ++ [(e', IInsert k v)]) (e, IPeek k) = Some (JEntry (Some (k, v))) /\
  forall k', k' <> k -> iafter hash cap (os ++ [(e', IInsert k v)]) (e, IPeek k') = iafter hash cap os (e, IPeek k').
Proof. exact lC08_index_accepted_insert. Qed.
Example C08_index_accepted_example : iafter spread 2048 xops (oe, IPeek 5) = Some (JEntry None) /\
  iafter spread 2048 (xops ++ [(oe, IInsert 5 6)]) (oe, IPeek 5) = Some (JEntry (Some (5, 6))).
Proof. vm_compute. repeat split; reflexivity. Qed.
Print Assumptions C08_index_accepted_insert.

(** ** C10 *)
Theorem C10_index_len_exact {K V : Type} `{EqDecision K} : forall (hash : K -> N), (forall k, hash k < 2 ^ 64) ->
  forall cap (os : list (env * iop K V)) e, exists ks, NoDup ks /\
  (forall k, k ∈ ks <-> exists v, iafter hash cap os (e, IPeek k) = Some (JEntry (Some (k, v)))) /\
  iafter hash cap os (e, ILen) = Some (JCount (N.min (N.of_nat (length ks)) (2 ^ 64 - 1))) /\
  iafter hash cap os (e, IIsEmpty) = Some (JBool (bool_decide (ks = []))).
Proof. exact lC10_index_len_exact. Qed.
Example C10_index_example : iafter spread 2048 xops (oe, ILen) = Some (JCount 59) /\
  iafter spread 2048 (xops ++ [(oe, IClear)]) (oe, ILen) = Some (JCount 0) /\
  iafter spread 2048 (xops ++ [(oe, IClear)]) (oe, IIsEmpty) = Some (JBool true).
Proof. vm_compute. repeat split; reflexivity. Qed.
Print Assumptions C10_index_len_exact.

(** ** C11 *)
Theorem C11_index_iter {K V : Type} `{EqDecision K} : forall (hash : K -> N), (forall k, hash k < 2 ^ 64) ->
  forall cap (os : list (env * iop K V)) e, exists tb outs, run_index hash cap os = Some (tb, outs) /\
  forall S (f : S -> K * V -> S * bool) s, exists tb' vs,
    IndexModel.iter_sync e hash tb f s = Some (tb', (visit f s vs).1, (visit f s vs).2) /\
    NoDup vs.*1 /\
    (forall k v, (k, v) ∈ vs <-> iafter hash cap os (e, IPeek k) = Some (JEntry (Some (k, v)))) /\
    ibehaves_as hash tb' vs.
Proof. exact lC11_index_iter. Qed.
Example C11_index_iter_example :
  (tb ← run_index spread 2048 xops;
   r ← IndexModel.iter_sync oe spread tb.1 (fun s e => (s ++ [e.1], length s <? 39)%nat) []; Some (length r.1.2, r.2)) = Some (40%nat, false).
Proof. vm_compute. repeat split; reflexivity. Qed.
Print Assumptions C11_index_iter.
Theorem C11_index_retain {K V : Type} `{EqDecision K} : forall (hash : K -> N), (forall k, hash k < 2 ^ 64) ->
  forall cap (os : list (env * iop K V)) e, exists tb outs, run_index hash cap os = Some (tb, outs) /\
  forall S (f : S -> K * V -> S * bool) s, exists tb' vs s' kept removed,
    IndexModel.retain_sync e hash tb f s = Some (tb', s') /\
    NoDup vs.*1 /\
    (forall k v, (k, v) ∈ vs <-> iafter hash cap os (e, IPeek k) = Some (JEntry (Some (k, v)))) /\
    visit_mut (fun s x => ((f s x).1, x.2, (f s x).2, true)) s vs = (s', kept, removed, true) /\
    ibehaves_as hash tb' kept.
Proof. exact lC11_index_retain. Qed.
Example C11_index_retain_example :
  (tb ← run_index spread 2048 xops;
   r ← IndexModel.retain_sync oe spread tb.1 (fun s e => (s + 1, e.1 <? 4)) 0;
   n ← len INDEX (same_gen oe) spread r.1; Some (r.2, n.2)) = Some (59, 4).
Proof. vm_compute. repeat split; reflexivity. Qed.
Print Assumptions C11_index_retain.

(** ** C20 *)
Theorem C20_iter_exactly_once {K V : Type} `{EqDecision K} : forall (hash : K -> N), (forall k, hash k < 2 ^ 64) ->
  forall cap (os : list (env * iop K V)) e, exists tb outs vs it it',
  run_index hash cap os = Some (tb, outs) /\
  nexts (length vs) tb iter_new = Some (it, map Some vs) /\ next tb it = Some (it', None) /\
  NoDup vs.*1 /\
  (forall k v, (k, v) ∈ vs <-> iafter hash cap os (e, IPeek k) = Some (JEntry (Some (k, v)))).
Proof. exact lC20_iter_exactly_once. Qed.
Example C20_iter_example :
  (tb ← run_index spread 2048 xops; q ← nexts 60 tb.1 iter_new; Some (length (filter (fun x => x <> None) q.2), list.last q.2)) =
  Some (59%nat, Some None).
Proof. vm_compute. repeat split; reflexivity. Qed.
Print Assumptions C20_iter_exactly_once.
(** The second half of C20 is false: after the end the iterator starts again at the second bucket of the
    array. *)
Definition parity (k : N) : N := (k mod 2) * 2 ^ 63.
Theorem C20_fused_refuted : exists (hash : N -> N) cap (os : list (env * iop N N)) tb outs n it rs e,
  (forall k, hash k < 2 ^ 64) /\
  run_index hash cap os = Some (tb, outs) /\ nexts n tb iter_new = Some (it, rs) /\
  exists i, rs !! i = Some None /\ rs !! S i = Some (Some e).
Proof.
  exists parity, 0, [(oe, IInsert 1 10)]. do 2 eexists. exists 3%nat. do 3 eexists.
  split; [|split; [vm_compute; reflexivity|split; [vm_compute; reflexivity|]]].
  - intros k. unfold parity. pose proof (N.mod_lt k 2 ltac:(done)). change (2 ^ 64) with (2 * 2 ^ 63).
    apply N.mul_lt_mono_pos_r; [done|done].
  - exists 1%nat. split; reflexivity.
Qed.
Print Assumptions C20_fused_refuted.

(** ** C33 *)
Theorem C33_index_released_once {K V : Type} `{EqDecision K} : forall (hash : K -> N), (forall k, hash k < 2 ^ 64) ->
  forall cap (os : list (env * iop K V)),
  exists tb outs es, run_index hash cap os = Some (tb, outs) /\ drop_table INDEX tb = Some es /\
    concat (zip_with jgiven os.*2 outs) ≡ₚ concat (zip_with jreturned os.*2 outs) ++ es.
Proof. exact lC33_index_released_once. Qed.
Example C33_index_example :
  (tb ← run_index spread 2048 xops; es ← drop_table INDEX tb.1;
   Some (length (concat (zip_with jgiven xops.*2 tb.2)), length (concat (zip_with jreturned xops.*2 tb.2)), length es)) =
  Some (64, 1, 63)%nat.
Proof. vm_compute. repeat split; reflexivity. Qed.
Print Assumptions C33_index_released_once.
Theorem C33_index_not_released_early {K V : Type} `{EqDecision K} : forall (hash : K -> N), (forall k, hash k < 2 ^ 64) ->
  forall cap (os : list (env * iop K V)),
  exists tb outs vs, run_index hash cap os = Some (tb, outs) /\ NoDup vs.*1 /\
    (forall e k v, iafter hash cap os (e, IPeek k) = Some (JEntry (Some (k, v))) <-> (k, v) ∈ vs) /\
    concat (zip_with jreturned os.*2 outs) ++ released tb ++ vs ⊆+ concat (zip_with jgiven os.*2 outs).
Proof. exact lC33_index_not_released_early. Qed.
Example C33_index_early_example :
  (tb ← run_index spread 512 xops; Some (released tb.1)) = Some [(5, 1005); (4, 1004); (3, 1003); (8, 1008)].
Proof. vm_compute. repeat split; reflexivity. Qed.
Print Assumptions C33_index_not_released_early.

(** ** C34 *)
Theorem C34_index_clone {K V : Type} `{EqDecision K} : forall (hash : K -> N), (forall k, hash k < 2 ^ 64) ->
  forall cap (os : list (env * iop K V)) e, exists tb outs c, run_index hash cap os = Some (tb, outs) /\
  IndexModel.clone e hash tb = Some c /\ ibehaves_as hash tb (jfinal os) /\ ibehaves_as hash c (jfinal os).
Proof. exact lC34_index_clone. Qed.
Example C34_index_clone_example :
  (tb ← run_index spread 2048 xops; r ← IndexModel.clone oe spread tb.1; n ← len INDEX (same_gen oe) spread r;
   q ← peek oe spread r 3; Some (n.2, q.2)) =
  Some (59, Some (3, 7)).
Proof. vm_compute. repeat split; reflexivity. Qed.
Print Assumptions C34_index_clone.
Theorem C34_index_eq {K V : Type} `{EqDecision K} : forall `{EqDecision V} (hash1 hash2 : K -> N),
  (forall k, hash1 k < 2 ^ 64) -> (forall k, hash2 k < 2 ^ 64) ->
  forall e cap1 cap2 (os1 os2 : list (env * iop K V)), exists tb1 outs1 tb2 outs2 tb1' tb2' r,
  run_index hash1 cap1 os1 = Some (tb1, outs1) /\ run_index hash2 cap2 os2 = Some (tb2, outs2) /\
  IndexModel.eq_sync e hash1 hash2 tb1 tb2 = Some (tb1', tb2', r) /\
  (r = true <-> forall k, iafter hash1 cap1 os1 (e, IPeek k) = iafter hash2 cap2 os2 (e, IPeek k)) /\
  ibehaves_as hash1 tb1' (jfinal os1) /\ ibehaves_as hash2 tb2' (jfinal os2).
Proof. exact (@lC34_index_eq K V _). Qed.
Example C34_index_eq_example :
  (tb ← run_index spread 2048 xops; tb2 ← run_index (fun _ => 5) 0 xops;
   r ← IndexModel.eq_sync oe spread (fun _ => 5) tb.1 tb2.1; Some r.2) = Some true /\
  (tb ← run_index spread 2048 xops; tb2 ← run_index (fun _ => 5) 0 (xops ++ [(oe, IInsert 8 1)]);
   r ← IndexModel.eq_sync oe spread (fun _ => 5) tb.1 tb2.1; Some r.2) = Some false.
Proof. vm_compute. repeat split; reflexivity. Qed.
Print Assumptions C34_index_eq.

(** ** C35 *)
Theorem C35_index_from_iter {K V : Type} `{EqDecision K} : forall (hash : K -> N), (forall k, hash k < 2 ^ 64) ->
  forall e hint (l : list (K * V)) m, NoDup m.*1 -> (forall k, assoc k m = assoc k l) (* the first value *) ->
  exists tb rej es, IndexModel.from_iter e hash hint l = Some (tb, rej) /\ ibehaves_as hash tb m /\
    drop_table INDEX tb = Some es /\ rej ++ es ≡ₚ l.
Proof. exact lC35_index_from_iter. Qed.
Example C35_index_from_iter_example :
  (tb ← IndexModel.from_iter oe spread (0, Some 500) [(1, 10); (2, 20); (1, 11)]; r ← irun spread tb.1 [(oe, IPeek 1); (oe, ILen)];
   Some (tb.2, r.2)) = Some ([(1, 11)], [JEntry (Some (1, 10)); JCount 2]) /\
  NoDup ([(1, 10); (2, 20)] : list (N * N)).*1 /\
  forall k : N, assoc k [(1, 10); (2, 20)] = assoc k ([(1, 10); (2, 20); (1, 11)] : list (N * N)).
Proof.
  split; [vm_compute; auto|]. split; [cbn; by repeat constructor; set_solver|].
  intros k. cbn. by repeat case_decide.
Qed.
Print Assumptions C35_index_from_iter.
Theorem C35_index_serde_round_trip {K V : Type} `{EqDecision K} : forall (hash1 hash2 : K -> N),
  (forall k, hash1 k < 2 ^ 64) -> (forall k, hash2 k < 2 ^ 64) ->
  forall e cap hint (os : list (env * iop K V)), exists tb outs tb' vs tb2 rej,
  run_index hash1 cap os = Some (tb, outs) /\
  IndexModel.serialize e hash1 tb = Some (tb', (N.min (N.of_nat (length vs)) (2 ^ 64 - 1), vs)) /\
  IndexModel.deserialize e hash2 hint vs = Some (tb2, rej) /\
  ibehaves_as hash1 tb' (jfinal os) /\ ibehaves_as hash2 tb2 (jfinal os).
Proof. exact lC35_index_serde_round_trip. Qed.
Example C35_index_serde_example :
  (tb ← run_index spread 2048 xops; z ← IndexModel.serialize oe spread tb.1; d ← IndexModel.deserialize oe spread None z.2.2;
   r ← irun spread d.1 [(oe, IPeek 3); (oe, ILen)]; Some (z.2.1, r.2)) = Some (59, [JEntry (Some (3, 7)); JCount 59]).
Proof. vm_compute. repeat split; reflexivity. Qed.
Print Assumptions C35_index_serde_round_trip.

(** ** C40 *)
Theorem C40_index_other_keys {K V : Type} `{EqDecision K} : forall (hash : K -> N), (forall k, hash k < 2 ^ 64) ->
  forall cap os (o : env * iop K V) e k k', ikey_of o.2 = Some k -> k' <> k ->
  iafter hash cap (os ++ [o]) (e, IPeek k') = iafter hash cap os (e, IPeek k').
Proof. exact lC40_index_other_keys. Qed.
Example C40_index_example : ikey_of (IRemoveIf 7 (fun _ : N => true)) = Some 7 /\
  iafter (fun _ => 5) 0 (xops ++ [(oe, IRemoveIf 7 (fun _ => true))]) (oe, IPeek 9) = Some (JEntry (Some (9, 1009))).
Proof. vm_compute. repeat split; reflexivity. Qed.
Print Assumptions C40_index_other_keys.

(** ** C53 *)
(** With no reader anywhere and never more than 33 entries in an index of capacity 128, the removed entries
    in its buckets become any number and none is ever dropped. *)
Theorem C53_removed_entries_pile_up_refuted : forall n, exists (os : list (env * iop N N)) tb outs,
  Forall (fun o => unguarded o.1) os /\ (forall i, (length (jfinal (take i os)) <= 33)%nat) /\
  run_index one 128 os = Some (tb, outs) /\ capacity tb = 128 /\ released tb = [] /\
  length (tstored tb) = (n + length (jfinal os))%nat.
Proof. exact leak. Qed.
Example C53_example : shape_of 128 (fill ++ cycles 20) = Some (128, Some 52%nat, None, 0%nat, 0%nat) /\
  length (jfinal (fill ++ cycles 20)) = 32%nat.
Proof. vm_compute. split; reflexivity. Qed.
Print Assumptions C53_removed_entries_pile_up_refuted.
(** As long as a bucket never holds more than 31 entries, and no reader is in the way, removed entries
    take no more than the 32 slots of the bucket itself. *)
Theorem C53_small_bucket_partial {K V : Type} `{EqDecision K} : forall (hash : K -> N) (os : list (bop K V)) b,
  (forall i, (length (fafter [] (take i os)) <= 31)%nat) -> bafter INDEX hash (fun _ => false) new_bucket os = Some b ->
  (length (stored b) <= 32)%nat /\ entries INDEX b ≡ₚ fafter [] os.
Proof. exact tidy. Qed.
(** 31 entries, and one of them removed and inserted again 21 times. *)
Definition churn : list (bop N N) :=
  map (fun n => BPut (N.of_nat n) 0 0) (seq 0 31) ++ concat (replicate 21 [BDel 7 0; BPut 7 1 0]).
Example C53_small_bucket_example : (forall i, (length (fafter [] (take i churn)) <= 31)%nat) /\
  option_map (fun b => length (stored b)) (bafter INDEX one (fun _ => false) new_bucket churn) = Some 32%nat.
Proof.
  split; [|vm_compute; reflexivity]. intros i. destruct (decide (i < 73)%nat) as [Hi|Hi].
  - assert (forallb (fun i => length (fafter [] (take i churn)) <=? 31)%nat (seq 0 73) = true) as F by (vm_compute; reflexivity).
    rewrite forallb_forall in F. apply Nat.leb_le, F, in_seq. lia.
  - rewrite take_ge by (change (length churn) with 73%nat; lia). vm_compute. lia.
Qed.
Print Assumptions C53_small_bucket_partial.
