(** HashMap and HashSet, one thread: C07, C08, C10, C11, C33, C34, C35, C40. *)
From Coq Require Import NArith.
From stdpp Require Import prelude list numbers.
From Verif Require Import BucketModel BucketSpec MapSpec IterSpec TableModel MapModel MapRef MapThms.
Local Open Scope N_scope.

(** For the examples: a history that makes the table grow, reserves capacity and stops in the middle
    of a relocation ([partial] shows the two arrays and how many entries each holds). *)
Definition spread (k : N) : N := (k * 11400714819323198485) mod 2 ^ 64.
Definition adds (n : nat) : list (mop N N) := map (fun k => MInsert (N.of_nat k) (N.of_nat k + 1000)) (seq 0 n).
Definition oc : N -> bool := fun _ => false.
Definition ops : list (mop N N) :=
  adds 150 ++ [MUpsert 3 7; MUpdate 4 (fun k v => (v, v + k)); MRemoveIf 5 (fun v => (v, true)); MRemoveIf 6 (fun v => (v, false));
    MEntry 8 (fun _ => None); MEntry 200 (fun _ => Some 1); MInsert 9 0; MReserve 4000; MRead 10].
Definition partial (cap : N) (os : list (mop N N)) : option (N * nat * nat * option nat) :=
  option_map (fun r => (capacity r.1, length (concat (map (fun x => stored (bkt x)) (match cur r.1 with Some c => bks c | None => [] end))),
    length r.2, option_map (fun o => length (concat (map (fun x => stored (bkt x)) (bks o)))) (old r.1))) (run_map oc spread cap os).
Example spread_64 : forall k, spread k < 2 ^ 64.
Proof. intros. by apply N.mod_lt. Qed.

(** ** C07 *)
Theorem C07_hashmap_is_a_finite_map {K V : Type} `{EqDecision K} : forall (hash : K -> N), (forall k, hash k < 2 ^ 64) ->
  forall sg cap (os : list (mop K V)), exists tb outs,
  run_map sg hash cap os = Some (tb, outs) /\ Forall2 out_eq outs (rrun [] os).1.2.
Proof. exact lC07_hashmap_is_a_finite_map. Qed.
Example C07_example : partial 2048 ops = Some (8192, 75%nat, 159%nat, Some 74%nat) /\
  option_map (fun r => drop 150 r.2) (run_map oc spread 2048 ops) =
    Some [OValue (Some 1003); OValue (Some 1008); OEntry (Some (5, 1005)); OEntry None; OValue (Some 1008); OValue None;
          OEntry (Some (9, 0)); OUnit; OEntry (Some (10, 1010))] /\
  option_map (fun r => drop 150 r.2) (run_map oc (fun _ => 5) 0 ops) =
    option_map (fun r => drop 150 r.2) (run_map oc spread 2048 ops).
Proof. vm_compute. split; [reflexivity|]. split; reflexivity. Qed.
Print Assumptions C07_hashmap_is_a_finite_map.

(** ** C08 *)
Theorem C08_rejected_insert {K V : Type} `{EqDecision K} : forall (hash : K -> N), (forall k, hash k < 2 ^ 64) ->
  forall sg cap (os : list (mop K V)) k v v0,
  after sg hash cap os (MRead k) = Some (OEntry (Some (k, v0))) ->
  after sg hash cap os (MInsert k v) = Some (OEntry (Some (k, v))) /\
  forall os' o, same_result (after sg hash cap (os ++ [MInsert k v] ++ os') o) (after sg hash cap (os ++ os') o).
Proof. exact lC08_rejected_insert. Qed.
Example C08_rejected_example : after oc spread 2048 ops (MRead 3) = Some (OEntry (Some (3, 7))) /\
  after oc spread 2048 ops (MInsert 3 8) = Some (OEntry (Some (3, 8))).
Proof. vm_compute. repeat split; reflexivity. Qed.
Print Assumptions C08_rejected_insert.
Theorem C08_accepted_insert {K V : Type} `{EqDecision K} : forall (hash : K -> N), (forall k, hash k < 2 ^ 64) ->
  forall sg cap (os : list (mop K V)) k v,
  after sg hash cap os (MRead k) = Some (OEntry None) ->
  after sg hash cap os (MInsert k v) = Some (OEntry None) /\
  after sg hash cap (os ++ [MInsert k v]) (MRead k) = Some (OEntry (Some (k, v))) /\
  forall k', k' <> k -> after sg hash cap (os ++ [MInsert k v]) (MRead k') = after sg hash cap os (MRead k').
Proof. exact lC08_accepted_insert. Qed.
Example C08_accepted_example : after oc spread 2048 ops (MRead 5) = Some (OEntry None) /\
  after oc spread 2048 (ops ++ [MInsert 5 6]) (MRead 5) = Some (OEntry (Some (5, 6))).
Proof. vm_compute. repeat split; reflexivity. Qed.
Print Assumptions C08_accepted_insert.

(** ** C10 *)
Theorem C10_len_exact {K V : Type} `{EqDecision K} : forall (hash : K -> N), (forall k, hash k < 2 ^ 64) ->
  forall sg cap (os : list (mop K V)), exists ks, NoDup ks /\
  (forall k, k ∈ ks <-> exists v, after sg hash cap os (MRead k) = Some (OEntry (Some (k, v)))) /\
  after sg hash cap os MLen = Some (OCount (N.min (N.of_nat (length ks)) (2 ^ 64 - 1))) /\
  after sg hash cap os MIsEmpty = Some (OBool (bool_decide (ks = []))).
Proof. exact lC10_len_exact. Qed.
Example C10_example : after oc spread 2048 ops MLen = Some (OCount 149) /\
  after oc spread 2048 (ops ++ [MClear]) MLen = Some (OCount 0) /\
  after oc spread 2048 (ops ++ [MClear]) MIsEmpty = Some (OBool true).
Proof. vm_compute. repeat split; reflexivity. Qed.
Print Assumptions C10_len_exact.

(** ** C11 *)
Theorem C11_iter {K V : Type} `{EqDecision K} : forall (hash : K -> N), (forall k, hash k < 2 ^ 64) ->
  forall sg cap (os : list (mop K V)), exists tb outs, run_map sg hash cap os = Some (tb, outs) /\
  forall S (f : S -> K * V -> S * bool) s, exists tb' vs,
    iter_sync MAP sg hash tb f s = Some (tb', (visit f s vs).1, (visit f s vs).2) /\
    NoDup vs.*1 /\
    (forall k v, (k, v) ∈ vs <-> after sg hash cap os (MRead k) = Some (OEntry (Some (k, v)))) /\
    behaves_as sg hash tb' vs.
Proof. exact lC11_iter. Qed.
Example C11_iter_example :
  (tb ← run_map oc spread 2048 ops;
   r ← iter_sync MAP oc spread tb.1 (fun s e => (s ++ [e.1], length s <? 99)%nat) []; Some (length r.1.2, r.2)) = Some (100%nat, false).
Proof. vm_compute. repeat split; reflexivity. Qed.
Print Assumptions C11_iter.
Theorem C11_iter_mut {K V : Type} `{EqDecision K} : forall (hash : K -> N), (forall k, hash k < 2 ^ 64) ->
  forall sg cap (os : list (mop K V)), exists tb outs, run_map sg hash cap os = Some (tb, outs) /\
  forall S (f : S -> K * V -> verdict V S) s, exists tb' vs s' kept consumed go,
    iter_mut_sync MAP sg hash tb f s = Some (tb', s', consumed, go) /\
    NoDup vs.*1 /\
    (forall k v, (k, v) ∈ vs <-> after sg hash cap os (MRead k) = Some (OEntry (Some (k, v)))) /\
    visit_mut (fun s e => (v_state (f s e), v_value (f s e), v_keep (f s e), v_go (f s e))) s vs = (s', kept, consumed, go) /\
    behaves_as sg hash tb' kept.
Proof. exact lC11_iter_mut. Qed.
Example C11_iter_mut_example :
  (tb ← run_map oc spread 2048 ops;
   r ← iter_mut_sync MAP oc spread tb.1 (fun s e => Verdict _ (s + 1) (e.2 + 1) (negb (e.1 =? 7)) (negb (e.1 =? 7))) 0;
   n ← len MAP oc spread r.1.1.1; Some (r.1.2, r.2, n.2)) = Some ([(7, 1008)], false, 148).
Proof. vm_compute. repeat split; reflexivity. Qed.
Print Assumptions C11_iter_mut.
Theorem C11_retain {K V : Type} `{EqDecision K} : forall (hash : K -> N), (forall k, hash k < 2 ^ 64) ->
  forall sg cap (os : list (mop K V)), exists tb outs, run_map sg hash cap os = Some (tb, outs) /\
  forall S (f : S -> K * V -> S * V * bool) s, exists tb' vs s' kept dropped,
    retain_sync MAP sg hash tb f s = Some (tb', s') /\
    NoDup vs.*1 /\
    (forall k v, (k, v) ∈ vs <-> after sg hash cap os (MRead k) = Some (OEntry (Some (k, v)))) /\
    visit_mut (fun s e => (f s e, true)) s vs = (s', kept, dropped, true) /\
    behaves_as sg hash tb' kept /\
    released tb' = released tb ++ dropped.
Proof. exact lC11_retain. Qed.
Example C11_retain_example :
  (tb ← run_map oc spread 2048 ops;
   r ← retain_sync MAP oc spread tb.1 (fun s e => (s + 1, e.2, e.1 <? 4)) 0;
   n ← len MAP oc spread r.1; Some (r.2, n.2)) = Some (149, 4).
Proof. vm_compute. repeat split; reflexivity. Qed.
Print Assumptions C11_retain.

(** ** C33 *)
Theorem C33_map_released_once {K V : Type} `{EqDecision K} : forall (hash : K -> N), (forall k, hash k < 2 ^ 64) ->
  forall sg cap (os : list (mop K V)), Forall in_place os ->
  exists tb outs es, run_map sg hash cap os = Some (tb, outs) /\ drop_table MAP tb = Some es /\
    concat (zip_with given os outs) ≡ₚ concat (zip_with returned os outs) ++ es.
Proof. exact lC33_map_released_once. Qed.
Example C33_example : Forall in_place ops /\
  (tb ← run_map oc spread 2048 ops; es ← drop_table MAP tb.1;
   Some (length (concat (zip_with given ops tb.2)), length (concat (zip_with returned ops tb.2)), length es)) =
  Some (153, 4, 149)%nat.
Proof.
  split; [|vm_compute; auto]. unfold ops. apply Forall_app. split; [|repeat constructor].
  apply List.Forall_forall. intros o H. apply in_map_iff in H as (k & <- & _). exact I.
Qed.
Print Assumptions C33_map_released_once.
Theorem C33_collect_released_once {K V : Type} `{EqDecision K} : forall (hash : K -> N), (forall k, hash k < 2 ^ 64) ->
  forall sg hint (l : list (K * V)), exists tb es, from_iter sg hash hint l = Some tb /\
  drop_table MAP tb = Some es /\ es ≡ₚ l.
Proof. exact lC35_collect_drops_once. Qed.
Example C33_collect_example :
  (tb ← from_iter oc spread (0, None) [(1, 10); (2, 20); (1, 11)]; drop_table MAP tb) = Some [(1, 10); (2, 20); (1, 11)].
Proof. vm_compute. repeat split; reflexivity. Qed.
Print Assumptions C33_collect_released_once.

(** ** C34 *)
Theorem C34_clone {K V : Type} `{EqDecision K} : forall (hash : K -> N), (forall k, hash k < 2 ^ 64) ->
  forall sg cap (os : list (mop K V)), exists tb outs tb' c, run_map sg hash cap os = Some (tb, outs) /\
  clone sg hash tb = Some (tb', c) /\ behaves_as sg hash tb' (final os) /\ behaves_as sg hash c (final os).
Proof. exact lC34_clone. Qed.
Example C34_clone_example :
  (tb ← run_map oc spread 2048 ops; r ← clone oc spread tb.1; n ← len MAP oc spread r.2; q ← read MAP oc spread r.2 3; Some (n.2, q.2)) =
  Some (149, Some (3, 7)).
Proof. vm_compute. repeat split; reflexivity. Qed.
Print Assumptions C34_clone.
Theorem C34_eq {K V : Type} `{EqDecision K} : forall `{EqDecision V} (hash1 hash2 : K -> N),
  (forall k, hash1 k < 2 ^ 64) -> (forall k, hash2 k < 2 ^ 64) ->
  forall sg cap1 cap2 (os1 os2 : list (mop K V)), exists tb1 outs1 tb2 outs2 tb1' tb2' r,
  run_map sg hash1 cap1 os1 = Some (tb1, outs1) /\ run_map sg hash2 cap2 os2 = Some (tb2, outs2) /\
  eq_sync sg hash1 hash2 tb1 tb2 = Some (tb1', tb2', r) /\
  (r = true <-> forall k, after sg hash1 cap1 os1 (MRead k) = after sg hash2 cap2 os2 (MRead k)) /\
  behaves_as sg hash1 tb1' (final os1) /\ behaves_as sg hash2 tb2' (final os2).
Proof. exact (@lC34_eq K V _). Qed.
Example C34_eq_example :
  (tb ← run_map oc spread 2048 ops; tb2 ← run_map oc (fun _ => 5) 0 ops; r ← eq_sync oc spread (fun _ => 5) tb.1 tb2.1; Some r.2) = Some true /\
  (tb ← run_map oc spread 2048 ops; tb2 ← run_map oc (fun _ => 5) 0 (ops ++ [MInsert 8 1]);
   r ← eq_sync oc spread (fun _ => 5) tb.1 tb2.1; Some r.2) = Some false.
Proof. vm_compute. repeat split; reflexivity. Qed.
Print Assumptions C34_eq.

(** ** C35 *)
Theorem C35_from_iter {K V : Type} `{EqDecision K} : forall (hash : K -> N), (forall k, hash k < 2 ^ 64) ->
  forall sg hint (l : list (K * V)) m, NoDup m.*1 -> (forall k, assoc k m = assoc k (rev l)) (* the last value *) ->
  exists tb, from_iter sg hash hint l = Some tb /\ behaves_as sg hash tb m.
Proof. exact lC35_from_iter. Qed.
Example C35_from_iter_example :
  (tb ← from_iter oc spread (0, Some 500) [(1, 10); (2, 20); (1, 11)]; r ← mrun oc spread tb [MRead 1; MLen]; Some r.2) =
  Some [OEntry (Some (1, 11)); OCount 2] /\
  NoDup ([(1, 11); (2, 20)] : list (N * N)).*1 /\
  forall k : N, assoc k [(1, 11); (2, 20)] = assoc k (rev [(1, 10); (2, 20); (1, 11)] : list (N * N)).
Proof.
  split; [vm_compute; auto|]. split; [cbn; by repeat constructor; set_solver|].
  intros k. cbn. by repeat case_decide.
Qed.
Print Assumptions C35_from_iter.
Theorem C35_set_from_iter {K V : Type} `{EqDecision K} : forall (hash : K -> N), (forall k, hash k < 2 ^ 64) ->
  forall sg hint (l : list (K * V)) m, NoDup m.*1 -> (forall k, assoc k m = assoc k l) (* the first value *) ->
  exists tb, set_from_iter sg hash hint l = Some tb /\ behaves_as sg hash tb m.
Proof. exact lC35_set_from_iter. Qed.
Example C35_set_from_iter_example :
  (tb ← set_from_iter oc spread (0, Some 500) [(1, 10); (2, 20); (1, 11)]; r ← mrun oc spread tb [MRead 1; MLen]; Some r.2) =
  Some [OEntry (Some (1, 10)); OCount 2].
Proof. vm_compute. repeat split; reflexivity. Qed.
Print Assumptions C35_set_from_iter.
Theorem C35_serde_round_trip {K V : Type} `{EqDecision K} : forall (hash1 hash2 : K -> N),
  (forall k, hash1 k < 2 ^ 64) -> (forall k, hash2 k < 2 ^ 64) ->
  forall sg cap hint (os : list (mop K V)), exists tb outs tb' vs tb2,
  run_map sg hash1 cap os = Some (tb, outs) /\
  serialize sg hash1 tb = Some (tb', (N.min (N.of_nat (length vs)) (2 ^ 64 - 1), vs)) /\
  deserialize sg hash2 hint vs = Some tb2 /\
  behaves_as sg hash1 tb' (final os) /\ behaves_as sg hash2 tb2 (final os).
Proof. exact lC35_serde_round_trip. Qed.
Example C35_serde_example :
  (tb ← run_map oc spread 2048 ops; z ← serialize oc spread tb.1; d ← deserialize oc spread None z.2.2;
   r ← mrun oc spread d [MRead 3; MLen]; Some (z.2.1, r.2)) = Some (149, [OEntry (Some (3, 7)); OCount 149]).
Proof. vm_compute. repeat split; reflexivity. Qed.
Print Assumptions C35_serde_round_trip.

(** ** C40 *)
Theorem C40_other_keys {K V : Type} `{EqDecision K} : forall (hash : K -> N), (forall k, hash k < 2 ^ 64) ->
  forall sg cap os (o : mop K V) k k', key_of o = Some k -> k' <> k ->
  after sg hash cap (os ++ [o]) (MRead k') = after sg hash cap os (MRead k').
Proof. exact lC40_other_keys. Qed.
Example C40_example : key_of (MRemoveIf 7 (fun v : N => (v, true))) = Some 7 /\
  after oc (fun _ => 5) 0 (ops ++ [MRemoveIf 7 (fun v => (v, true))]) (MRead 9) = Some (OEntry (Some (9, 1009))).
Proof. vm_compute. repeat split; reflexivity. Qed.
Print Assumptions C40_other_keys.
