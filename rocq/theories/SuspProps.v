(** * C61: suspended operations and bucket arrays that are reclaimed *)

Require Import List Arith.
Import ListNotations.
Require Import Verif.SuspModel Verif.SuspSpec Verif.SuspThms.

(** The property, [forall bidx n l, indexes bidx -> harmless bidx n l], does not hold. *)

(** An asynchronous iteration under shared locks (iter_async) that waits for a bucket holds no guard.
    If the array is replaced meanwhile and reclaimed, its next step but one reads the length of the
    reclaimed array. *)
Theorem C61_iteration_refuted : indexes bx /\ exists l s,
  run bx (init 3) (l ++ [AFree 0] ++ st 0 2) = Some s /\ err s = Some (EUaf 0 0) /\
  exists s1, run bx (init 3) l = Some s1 /\ kd (tks s1 0) = ScanR /\ at_ (tks s1 0) = PLk true 0 /\
             gd (tks s1 0) = None.
Proof. exact (conj bx_ok lC61_scan). Qed.
Print Assumptions C61_iteration_refuted.

(** With nothing but operations on keys: the one that leaves the rehashing after having waited reads
    the length of the current array, which is reclaimed. *)
Theorem C61_keyed_refuted : indexes bx /\ exists l s,
  (forall t k, In (AStart t k) l -> exists h, k = Key h) /\
  run bx (init 2) l = Some s /\ err s = Some (EUaf 0 1).
Proof. exact (conj bx_ok lC61_key). Qed.
Print Assumptions C61_keyed_refuted.

(** An iteration under exclusive locks accesses a bucket beyond the end of an array that was allocated
    at the address of a longer one. *)
Theorem C61_reused_address_refuted : indexes bx /\ exists l s t a i,
  run bx (init 5) l = Some s /\ err s = Some (EOob t a i) /\ kd (tks s t) = ScanW /\ ln (arrs s a) <= i.
Proof. exact (conj bx_ok lC61_aba). Qed.
Print Assumptions C61_reused_address_refuted.

(** As long as no array is reclaimed while a task is exposed to it, nothing of the kind happens:
    whatever the number of tasks, their interleaving, the futures that are dropped while they wait, the
    resizes, the arrays that are reclaimed and the addresses that are used again.  What is missing is the
    premise [careful], which the code does not establish. *)
Theorem C61_async_access_partial : forall bidx n l,
  indexes bidx -> careful bidx n l -> harmless bidx n l.
Proof. exact lC61_careful. Qed.
Print Assumptions C61_async_access_partial.

Example C61_example : indexes bx /\ careful bx 3 ok_run /\
  exists s, run bx (init 3) ok_run = Some s /\ fr (arrs s 0) = true /\ at_ (tks s 0) = PDone /\ rf (tks s 0) = 1 /\
            ix (tks s 0) = 2.
Proof. exact (conj bx_ok lC61_ex). Qed.
