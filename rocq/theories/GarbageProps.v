(** Theorems about the memory of the bucket arrays of a HashIndex. *)
From Coq Require Import NArith.
From stdpp Require Import prelude list numbers.
From Verif Require Import GarbageModel GarbageSpec GarbageWit.

(** ** C19 *)
(** A thread holds a guard and a reference obtained under it, the array has been freed, and the next
    access of the thread is to the array. *)
Theorem C19_array_freed_refuted : exists n acts st t a,
  run (init n) acts = Some st /\ dangling st t a /\ about_to_read st t a.
Proof. exists 3, (schedule (reused ++ [Rest 1])). destruct reused_freed as (st & H). exists st, 2, 0. exact H. Qed.
Print Assumptions C19_array_freed_refuted.

(** The same when no memory is ever used again for another array. *)
Theorem C19_array_freed_fresh_refuted : exists n acts st t a,
  fresh_only acts [] /\ run (init n) acts = Some st /\ dangling st t a /\ about_to_read st t a.
Proof.
  exists 3, (schedule (requeued ++ [Rest 1])). destruct requeued_freed as (st & R & D & A & _).
  exists st, 2, 0. exact (conj requeued_fresh (conj R (conj D A))).
Qed.
Print Assumptions C19_array_freed_fresh_refuted.
