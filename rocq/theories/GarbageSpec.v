(** What must not happen to the memory of a HashIndex. *)
From Coq Require Import NArith.
From stdpp Require Import prelude list numbers.
From Verif Require Import GarbageModel.

(** A guard exists under which a reference to the array was obtained, and the memory of the array has
    been freed. *)
Definition dangling (st : state) (t : nat) (a : addr) : Prop :=
  exists th x, threads st !! t = Some th /\ pinned th = true /\ a ∈ refs th /\ heap st !! a = Some x /\ live x = false.
(** The next access of the thread is to that array. *)
Definition about_to_read (st : state) (t : nat) (a : addr) : Prop :=
  exists th rest, threads st !! t = Some th /\ (code th = ILinked a :: rest \/ code th = ISearch a :: rest).
(** No memory is used twice. *)
Fixpoint fresh_only (l : list action) (used : list addr) : Prop :=
  match l with
  | [] => True
  | AStart _ (OInsert n _) :: l' | AStart _ (OGrow n _) :: l' => n ∉ used /\ fresh_only l' (n :: used)
  | _ :: l' => fresh_only l' used
  end.
