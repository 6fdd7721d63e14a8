(** HashMap operations in which user code panics: C59 and C60. *)
From Coq Require Import NArith.
From stdpp Require Import prelude list numbers.
From Verif Require Import BucketModel BucketSpec TableModel MapSpec MapModel MapRef TuModel TuSpec TuThms TlModel TlThms.
Local Open Scope N_scope.

(** For the examples: 63 entries; the last insertion made the table grow and nothing has been moved yet. *)
Definition spread (k : N) : N := (k * 11400714819323198485) mod 2 ^ 64.
Definition oc : N -> bool := fun _ => false.
Definition adds (n : nat) : list (uop N N) := map (fun k => UDone (MInsert (N.of_nat k) (N.of_nat k + 1000))) (seq 0 n).
Definition size (a : option (barray N N)) : option nat :=
  option_map (fun a => length (concat (map (fun x => stored (bkt x)) (bks a)))) a.

(** ** C59 *)
Theorem C59_panicking_user_code {K V : Type} `{EqDecision K} : forall (hash : K -> N), (forall k, hash k < 2 ^ 64) ->
  forall sg cap (us : list (uop K V)), exists tb outs m drops,
  run_u sg hash cap us = Some (tb, outs) /\ ref_run [] us outs m drops /\
  NoDup m.*1 /\ behaves_as sg hash tb m /\ exists es, drop_table MAP tb = Some es /\ es ≡ₚ drops ++ m.
Proof. exact lC59_unwind. Qed.
(** A lookup unwinds after 5 entries have been moved, an insertion after 2 more, [retain] after another
    20, then [retain] on the entry 7 with 5 entries removed, and a closure on the entry 8 unwind. *)
Definition troubled : list (uop N N) :=
  [UHash 5 (MRead 3); UHash 2 (MInsert 100 1); UHash 20 (MRetain (fun e => (e.2, false)));
   URetain 100 (fun e => (e.2 + 1, if e.1 =? 7 then None else Some (e.1 <? 40))); UEntry 8 (fun v => v * 10)].
Example C59_example : (forall k, spread k < 2 ^ 64) /\
  map (fun n => r ← run_u oc spread 0 (adds 63 ++ take n troubled); Some (size (cur r.1), size (old r.1), drop 63 r.2)) [0; 1; 2; 3; 4; 5]%nat =
  [Some (Some 0, Some 63, []); Some (Some 5, Some 58, [None]); Some (Some 7, Some 56, [None; None]);
   Some (Some 27, Some 36, [None; None; None]); Some (Some 58, None, [None; None; None; None]);
   Some (Some 58, None, [None; None; None; None; None])]%nat /\
  (r ← run_u oc spread 0 (adds 63 ++ troubled ++ map UDone [MRead 7; MRead 8; MRead 9; MRead 100; MLen]); Some (drop 68 r.2)) =
  Some [Some (OEntry (Some (7, 1008))); Some (OEntry (Some (8, 10080))); Some (OEntry (Some (9, 1009))); Some (OEntry None); Some (OCount 58)].
Proof. split; [intros; by apply N.mod_lt|]. vm_compute. split; reflexivity. Qed.
Print Assumptions C59_panicking_user_code.

(** ** C60 *)
(** One thread has loaded the bucket array and is about to lock a bucket.  Another one inserts an entry,
    which makes the table grow, and then looks up a key; [Hash] unwinds.  [k] is there all the time, yet
    the first thread does not find it. *)
Theorem C60_lookup_beside_a_panic_refuted : exists (hash : N -> N) sg cap (us us' : list (uop N N)) k v,
  (forall x, hash x < 2 ^ 64) /\
  (forall j, (j <= length us')%nat -> late sg hash cap us (take j us') k (fun tb _ => q ← mstep sg hash tb (MRead k); Some q.2) = Some (OEntry (Some (k, v)))) /\
  late sg hash cap us us' k (fun tb l => late_read hash tb l k) = Some None.
Proof. exact lC60_lookup. Qed.
Print Assumptions C60_lookup_beside_a_panic_refuted.
(** Likewise an insertion of [k] succeeds, and from then on the map holds two entries with that key. *)
Theorem C60_insert_beside_a_panic_refuted : exists (hash : N -> N) sg cap (us us' : list (uop N N)) k v es,
  (forall x, hash x < 2 ^ 64) /\
  late sg hash cap us us' k (fun tb _ => q ← mstep sg hash tb (MRead k); Some q.2) = Some (OEntry (Some (k, v))) /\
  late sg hash cap us us' k (fun tb l => r ← late_insert sg hash tb l k (v + 1); q ← mstep sg hash r.1 MScan; Some (r.2, q.2)) =
    Some (None, OEntries es) /\ (k, v) ∈ es /\ (k, v + 1) ∈ es.
Proof. exact lC60_insert. Qed.
Print Assumptions C60_insert_beside_a_panic_refuted.
(** Without the panic the first thread finds the entry, or starts over because the bucket has been killed. *)
Example C60_without_panic :
  late oc spread 0 (adds 62) [UDone (MInsert 62 0)] 4 (fun tb l => late_read spread tb l 4) = Some (Some (4, 1004)) /\
  late oc spread 2048 (adds 100) [UDone (MReserve 4000); UDone (MRead 4)] 4 (fun tb l => Some (lock tb l)) = Some None.
Proof. vm_compute. split; reflexivity. Qed.
