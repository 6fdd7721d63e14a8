(** HashCache, one thread: C21, C22, C33, C34, C36, C48. *)
From Coq Require Import NArith.
From stdpp Require Import prelude list numbers.
From Verif Require Import BucketModel BucketSpec MapSpec IterSpec TableModel MapModel CacheModel CacheSpec CacheThms CacheSerde.
Local Open Scope N_scope.

(** For the examples. *)
Definition oc : N -> bool := fun _ => false.
Definition fill (a n : nat) : list (cop N N) := map (fun k => CPut (N.of_nat k) (N.of_nat k + 1000)) (seq a n).
Definition spread (k : N) : N := (k * 11400714819323198485) mod 2 ^ 64.
(** Keys below 100 share a bucket, the other ones too. *)
Definition halves (k : N) : N := if k <? 100 then (2 * k) mod 2 ^ 64 else (2 ^ 63 + 2 * k) mod 2 ^ 64.
(** One key for each of 128 buckets. *)
Definition steps (k : N) : N := (k * 2 ^ 57) mod 2 ^ 64.
Example spread_64 : forall k, spread k < 2 ^ 64.
Proof. intros. by apply N.mod_lt. Qed.
Example halves_64 : forall k, halves k < 2 ^ 64.
Proof. intros. unfold halves. destruct (k <? 100); by apply N.mod_lt. Qed.
Example steps_64 : forall k, steps k < 2 ^ 64.
Proof. intros. by apply N.mod_lt. Qed.
Definition mixed : list (cop N N) :=
  fill 0 32 ++ [CGet 0 Some; CGet 3 (fun v => Some (v + 1)); CEntry 1 (fun _ => Some 7); CPut 40 40; CGet 2 (fun _ => None);
    CPut 41 41; CPut 42 42; CRemoveIf 5 (fun v => (v, true)); CEntry 50 (fun _ => Some 50); CPut 51 51;
    CRetain (fun e => (e.2, negb (e.1 =? 7))); CPut 52 52; CPut 53 53; CLen; CCapacity; CRead 3].

(** ** C21: a cache of fixed capacity is an exact LRU cache per bucket. *)
Theorem C21_cache_is_lru {K V : Type} `{EqDecision K} : forall (hash : K -> N), (forall k, hash k < 2 ^ 64) ->
  forall sg mn mx (os : list (cop K V)), 0 < mn -> mx <= mn ->
  exists tb outs, run_cache sg hash mn mx os = Some (tb, outs) /\
    Forall2 agree outs (lru_run hash (cap_after sg hash mn mx (@nil (cop K V))) [] os).
Proof. exact lC21_cache_is_lru. Qed.
(** A full bucket evicts 1, whose value was replaced without using it, then 4, since 3 was used. *)
Example C21_example : 0 < 64 /\ 10 <= 64 /\ cap_after oc halves 64 10 (@nil (cop N N)) = 64 /\
  option_map (fun r => drop 32 r.2) (run_cache oc halves 64 10 mixed) =
    Some [COFound (Some 1000) None; COFound (Some 1003) None; COFound (Some 1001) None; COPut (inl (Some (1, 7)));
      COFound (Some 1002) None; COPut (inl None); COPut (inl (Some (4, 1004))); COEntry (Some (5, 1005)); COFound None None;
      COPut (inl (Some (6, 1006))); COUnit; COPut (inl None); COPut (inl (Some (8, 1008))); COCount 32; COCount 64;
      COEntry (Some (3, 1004))].
Proof. split; [done|]. split; [done|]. split; vm_compute; reflexivity. Qed.
Print Assumptions C21_cache_is_lru.

(** ** C22 *)
Theorem C22_cache_history {K V : Type} `{EqDecision K} : forall (hash : K -> N), (forall k, hash k < 2 ^ 64) ->
  forall sg mn mx (os : list (cop K V)), exists tb outs, run_cache sg hash mn mx os = Some (tb, outs) /\ conforms [] os outs.
Proof. exact lC22_cache_history. Qed.
(** The cache grows from 64 to 512 slots and evicts once. *)
Example C22_history_example :
  option_map (fun r => (capacity r.1, match old r.1 with None => true | _ => false end, drop 300 r.2)) (run_cache oc spread 0 512 (fill 0 300 ++ [CLen])) =
    Some (512, true, [COCount 299]).
Proof. vm_compute. reflexivity. Qed.
Print Assumptions C22_cache_history.

Theorem C22_put_absent {K V : Type} `{EqDecision K} : forall (hash : K -> N), (forall k, hash k < 2 ^ 64) ->
  forall sg mn mx (os : list (cop K V)) k v, look sg hash mn mx os k = None ->
  exists ev, cafter sg hash mn mx os (CPut k v) = Some (COPut (inl ev)) /\
    look sg hash mn mx (os ++ [CPut k v]) k = Some v /\
    match ev with
    | None => forall k', k' <> k -> look sg hash mn mx (os ++ [CPut k v]) k' = look sg hash mn mx os k'
    | Some (k1, v1) => k1 <> k /\ look sg hash mn mx os k1 = Some v1 /\
        look sg hash mn mx (os ++ [CPut k v]) k1 = None /\
        (forall k', k' <> k -> k' <> k1 -> look sg hash mn mx (os ++ [CPut k v]) k' = look sg hash mn mx os k') /\
        crowded sg hash mn mx os (hash k) k1
    end.
Proof. exact lC22_put_absent. Qed.
Example C22_put_absent_example : look oc halves 0 128 (fill 0 32) 40 = None /\
  cafter oc halves 0 128 (fill 0 32) (CPut 40 5) = Some (COPut (inl (Some (0, 1000)))) /\
  cafter oc halves 0 128 (fill 0 31) (CPut 40 5) = Some (COPut (inl None)).
Proof. vm_compute. repeat split; reflexivity. Qed.
Print Assumptions C22_put_absent.
Theorem C22_put_present {K V : Type} `{EqDecision K} : forall (hash : K -> N), (forall k, hash k < 2 ^ 64) ->
  forall sg mn mx (os : list (cop K V)) k v, look sg hash mn mx os k <> None ->
  cafter sg hash mn mx os (CPut k v) = Some (COPut (inr (k, v))) /\
  forall k', look sg hash mn mx (os ++ [CPut k v]) k' = look sg hash mn mx os k'.
Proof. exact lC22_put_present. Qed.
Example C22_put_present_example : look oc halves 0 128 (fill 0 32) 3 <> None /\
  cafter oc halves 0 128 (fill 0 32) (CPut 3 5) = Some (COPut (inr (3, 5))).
Proof. split; [by vm_compute|]. vm_compute. reflexivity. Qed.
Print Assumptions C22_put_present.

(** ** C33 *)
Theorem C33_cache_released_once {K V : Type} `{EqDecision K} : forall (hash : K -> N), (forall k, hash k < 2 ^ 64) ->
  forall sg mn mx (os : list (cop K V)), Forall cin_place os ->
  exists tb outs es, run_cache sg hash mn mx os = Some (tb, outs) /\ drop_table CACHE tb = Some es /\
    concat (zip_with cgiven os outs) ≡ₚ concat (zip_with creturned os outs) ++ es.
Proof. exact lC33_cache_released_once. Qed.
Example C33_cache_example : Forall cin_place mixed /\
  option_map (fun r => (length (concat (zip_with cgiven mixed r.2)), length (concat (zip_with creturned mixed r.2)),
    option_map length (drop_table CACHE r.1))) (run_cache oc halves 0 64 mixed) = Some (42%nat, 9%nat, Some 33%nat).
Proof. split; [|vm_compute; reflexivity]. unfold mixed. apply Forall_app. split; [by vm_compute; repeat constructor|]. repeat constructor. Qed.
Print Assumptions C33_cache_released_once.
Theorem C33_cache_collect_released_once {K V : Type} `{EqDecision K} : forall (hash : K -> N), (forall k, hash k < 2 ^ 64) ->
  forall sg hint (l : list (K * V)), exists tb es, cache_from_iter sg hash hint l = Some tb /\
  drop_table CACHE tb = Some es /\ es ≡ₚ l.
Proof. exact lC33_cache_collect. Qed.
Example C33_cache_collect_example :
  option_map (fun tb => (length (released tb), option_map length (drop_table CACHE tb)))
    (cache_from_iter oc halves (50, None) (map (fun k => (N.of_nat (k mod 40), N.of_nat k)) (seq 0 50))) = Some (18%nat, Some 50%nat).
Proof. vm_compute. reflexivity. Qed.
Print Assumptions C33_cache_collect_released_once.

(** ** C34 *)
Theorem C34_cache_eq {K V : Type} `{EqDecision K} : forall `{EqDecision V} (hash1 hash2 : K -> N),
  (forall k, hash1 k < 2 ^ 64) -> (forall k, hash2 k < 2 ^ 64) ->
  forall sg mn1 mx1 mn2 mx2 (os1 os2 : list (cop K V)), exists tb1 outs1 tb2 outs2 tb1' tb2' r,
  run_cache sg hash1 mn1 mx1 os1 = Some (tb1, outs1) /\ run_cache sg hash2 mn2 mx2 os2 = Some (tb2, outs2) /\
  ceq_sync sg hash1 hash2 tb1 tb2 = Some (tb1', tb2', r) /\
  (r = true <-> forall k, look sg hash1 mn1 mx1 os1 k = look sg hash2 mn2 mx2 os2 k).
Proof. exact (@lC34_cache_eq K V _). Qed.
Definition ceq_on (h1 h2 : N -> N) mx1 mx2 (os1 os2 : list (cop N N)) : option bool :=
  r ← run_cache oc h1 0 mx1 os1; q ← run_cache oc h2 0 mx2 os2; e ← ceq_sync oc h1 h2 r.1 q.1; Some e.2.
Example C34_cache_example : ceq_on spread spread 512 1024 (fill 0 40) (rev (fill 0 40)) = Some true /\
  ceq_on spread halves 512 64 (fill 0 40) (rev (fill 0 40)) = Some false.
Proof. vm_compute. repeat split; reflexivity. Qed.
Print Assumptions C34_cache_eq.

(** ** C36: the announced length is the capacity limit, and entries are lost in a round trip. *)
Theorem C36_announced_length_refuted : exists (hash : N -> N) (mn mx : N) (os : list (cop N N)) n vs,
  (forall k, hash k < 2 ^ 64) /\ emitted oc hash mn mx os = Some (n, vs) /\ n = 512 /\ length vs = 3%nat.
Proof.
  exists spread, 0, 512, (fill 0 3). eexists _, _. split; [apply spread_64|].
  split; [vm_compute; reflexivity|]. split; reflexivity.
Qed.
Print Assumptions C36_announced_length_refuted.
Theorem C36_round_trip_refuted : exists (hash : N -> N) (mn mx : N) (os : list (cop N N)) k v,
  (forall k, hash k < 2 ^ 64) /\ look oc hash mn mx os k = Some v /\ look_copy oc hash mn mx os k = Some None.
Proof. exists steps, 4096, 4096, (fill 0 40), 0, 1000. split; [apply steps_64|]. split; vm_compute; reflexivity. Qed.
Print Assumptions C36_round_trip_refuted.

(** What holds: every entry of the cache is emitted, once; a round trip invents nothing, and loses nothing if
    there are at most 32 entries.  Missing: the announced length, and round trips of more entries. *)
Theorem C36_round_trip_partial {K V : Type} `{EqDecision K} : forall (hash : K -> N), (forall k, hash k < 2 ^ 64) ->
  forall sg mn mx (os : list (cop K V)), exists n vs, emitted sg hash mn mx os = Some (n, vs) /\
  NoDup vs.*1 /\ (forall k v, (k, v) ∈ vs <-> look sg hash mn mx os k = Some v) /\
  forall k, exists r, look_copy sg hash mn mx os k = Some r /\ (r = None \/ r = look sg hash mn mx os k) /\
    ((length vs <= 32)%nat -> r = look sg hash mn mx os k).
Proof. exact lC36_round_trip. Qed.
Example C36_round_trip_example : option_map (fun s => length s.2) (emitted oc steps 4096 4096 (fill 0 32)) = Some 32%nat /\
  look oc steps 4096 4096 (fill 0 32) 31 = Some 1031 /\ look_copy oc steps 4096 4096 (fill 0 32) 31 = Some (Some 1031).
Proof. vm_compute. repeat split; reflexivity. Qed.
Print Assumptions C36_round_trip_partial.

(** ** C48: the order of use does not survive a resize. *)
Theorem C48_recency_after_resize_refuted : exists (hash : N -> N) (mn mx : N) (os : list (cop N N)) k v x y,
  (forall k, hash k < 2 ^ 64) /\ older_exists oc hash mn mx os k v x y.
Proof.
  exists halves, 0, 128, (fill 0 31 ++ fill 100 31 ++ [CRead 100; CPut 40 0; CRead 0; CRead 100; CRead 0; CPut 41 0]), 42, 0, (41, 0), (2, 1002).
  split; [apply halves_64|]. eexists _, [], _. split; [vm_compute; reflexivity|]. split; [vm_compute; reflexivity|].
  split; [|split; vm_compute; reflexivity]. apply (bool_decide_unpack _). vm_compute. exact I.
Qed.
Print Assumptions C48_recency_after_resize_refuted.
