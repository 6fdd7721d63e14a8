(** * Specification of suspended operations

    Which runs are harmless. *)

Require Import List Arith Bool.
Import ListNotations.
Require Import Verif.SuspModel.

(** A run from an empty container with [n] tasks ends without an access to reclaimed memory, without
    an access to a bucket outside its array, and without unwrapping a lock that was not obtained. *)
Definition harmless (bidx : nat -> nat -> nat) (n : nat) (l : list action) : Prop :=
  forall s, run bidx (init n) l = Some s -> err s = None.

(** Task [k] relies on array [x] although nothing protects it: it is between the end of its share of
    the rehashing and the moment at which it checks its reference, or it is an iteration under shared
    locks that is waiting for a bucket or that has just given up on one. *)
Definition exposed (k : task) (x : nat) : bool :=
  match at_ k with
  | PEnd2 _ => (x =? rf k) || (x =? old k)
  | PUnl2 | PIdx | PChk _ => x =? rf k
  | PLk true _ | PDd true _ _ | PBrk =>
      match kd k with ScanR => x =? rf k | _ => false end
  | _ => false
  end.

(** No array is reclaimed while a task is exposed to it. *)
Definition careful (bidx : nat -> nat -> nat) (n : nat) (l : list action) : Prop :=
  forall l1 x l2 s, l = l1 ++ AFree x :: l2 -> run bidx (init n) l1 = Some s ->
  forall t, t < n -> exposed (tks s t) x = false.

(** A hash selects a bucket of the array (C02). *)
Definition indexes (bidx : nat -> nat -> nat) : Prop :=
  forall h n, 0 < n -> bidx h n < n.
