(** A lookup and an insertion beside a panic. *)
From Coq Require Import NArith Lia.
From stdpp Require Import prelude list numbers.
From Verif Require Import BucketModel TableModel MapModel TuModel TlModel.
Local Open Scope N_scope.

Definition tl_spread (k : N) : N := (k * 11400714819323198485) mod 2 ^ 64.
Definition tl_adds : list (uop N N) := map (fun k => UDone (MInsert (N.of_nat k) (N.of_nat k + 1000))) (seq 0 62).
Definition tl_mid : list (uop N N) := [UDone (MInsert 62 0); UHash 5 (MRead 3)].
Lemma tl_spread_64 x : tl_spread x < 2 ^ 64.
Proof. by apply N.mod_lt. Qed.

Lemma lC60_lookup : exists (hash : N -> N) sg cap (us us' : list (uop N N)) k v,
  (forall x, hash x < 2 ^ 64) /\
  (forall j, (j <= length us')%nat -> late sg hash cap us (take j us') k (fun tb _ => q ← mstep sg hash tb (MRead k); Some q.2) = Some (OEntry (Some (k, v)))) /\
  late sg hash cap us us' k (fun tb l => late_read hash tb l k) = Some None.
Proof.
  exists tl_spread, (fun _ => false), 0, tl_adds, tl_mid, 4, 1004. split; [exact tl_spread_64|]. split.
  - intros j Hj. destruct j as [|[|[|j]]]; [vm_compute; reflexivity..|cbn in Hj; lia].
  - vm_compute. reflexivity.
Qed.
Definition tl_dup : option (list (N * N)) :=
  late (fun _ => false) tl_spread 0 tl_adds tl_mid 4 (fun tb l =>
    r ← late_insert (fun _ => false) tl_spread tb l 4 1005; q ← mstep (fun _ => false) tl_spread r.1 MScan;
    match q.2 with OEntries es => Some es | _ => None end).
Lemma lC60_insert : exists (hash : N -> N) sg cap (us us' : list (uop N N)) k v es,
  (forall x, hash x < 2 ^ 64) /\
  late sg hash cap us us' k (fun tb _ => q ← mstep sg hash tb (MRead k); Some q.2) = Some (OEntry (Some (k, v))) /\
  late sg hash cap us us' k (fun tb l => r ← late_insert sg hash tb l k (v + 1); q ← mstep sg hash r.1 MScan; Some (r.2, q.2)) =
    Some (None, OEntries es) /\ (k, v) ∈ es /\ (k, v + 1) ∈ es.
Proof.
  exists tl_spread, (fun _ => false), 0, tl_adds, tl_mid, 4, 1004, (match tl_dup with Some es => es | None => [] end).
  split; [exact tl_spread_64|]. split; [vm_compute; reflexivity|]. split; [vm_compute; reflexivity|].
  split; eapply (bool_decide_unpack _); vm_compute; exact I.
Qed.
