(** Entries of a HashIndex that nobody removes. *)
From Coq Require Import NArith.
From stdpp Require Import prelude list numbers.
From Verif Require Import PeekModel PeekSpec.

Section spec.
Context {K V : Type}.
(** Some thread is in the course of removing the entry: it has yet to set its bit in the bitmap of removed
    entries. *)
Definition removing (st : state K V) (x : obj K V) : Prop :=
  exists t th w h n m, threads st !! t = Some th /\ work th = Write w /\ x.1 ∈ mine w /\ (h, WRem n m) ∈ todo w.
End spec.
