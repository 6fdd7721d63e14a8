(** Property theorems: one bucket (C09). *)
From stdpp Require Import prelude list.
From Coq Require Import NArith.
From Verif Require Import BucketModel BucketRun BucketRunFacts.

(** ** C09: for every kind of container, every hash function (all keys may collide fully, in the
    low 8 bits, or not at all), every epoch assignment and every history of lookups, insertions,
    replacements, removals and slot reservations, of any length, on one bucket: no out-of-bounds or
    uninitialised slot is ever touched, and every lookup, removal and length query answers exactly
    as the finite map does. *)
Theorem C09_bucket_is_a_map {K V : Type} `{EqDecision K} (t : kind) (hash : K -> N)
    (same_gen : N -> bool) (os : list (bop K V)) :
  brun t hash same_gen new_bucket os = Some (frun [] os).
Proof. exact (lC09_bucket_is_a_map hash t same_gen os). Qed.
Print Assumptions C09_bucket_is_a_map.

(** 45 colliding keys (so that the bucket overflows into two extra blocks), removals from all over
    the bucket, re-insertions into the freed slots. *)
Example C09_bucket_is_a_map_case :
  let puts := map (fun n => BPut n (n * 7) 0%N) (seq 0 45) in
  let dels := map (fun n => BDel n 0%N) [3; 40; 31; 32; 44; 7] in
  let gets := map BGet [3; 4; 40; 41; 99; 44; 43] in
  let os := puts ++ [BLen] ++ dels ++ [BLen] ++ gets ++ [BPut 40 1 0%N; BPut 200 2 0%N; BGet 40; BGet 200; BLen] in
  brun (K:=nat) (V:=nat) MAP (fun _ => 5%N) (fun _ => true) new_bucket os = Some (frun [] os) /\
  skipn 45 (frun [] os) =
    [ONum 45; OVal (Some 21); OVal (Some 280); OVal (Some 217); OVal (Some 224); OVal (Some 308); OVal (Some 49);
     ONum 39; OVal None; OVal (Some 28); OVal None; OVal (Some 287); OVal None; OVal None; OVal (Some 301);
     OVal None; OVal None; OVal (Some 1); OVal (Some 2); ONum 41].
Proof. split; vm_compute; reflexivity. Qed.
