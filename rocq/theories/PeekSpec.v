(** What the users of lock-free reads rely on. *)
From Coq Require Import NArith.
From stdpp Require Import prelude list numbers.
From Verif Require Import PeekModel.

Section spec.
Context {K V : Type} `{EqDecision K} (hash : K -> N).

(** The entry is in a slot of the table that is occupied and not removed. *)
Definition stored (st : state K V) (x : obj K V) : Prop :=
  exists a i n j ar b nd, (cur st = Some a \/ old_of st = Some a) /\ mem st !! a = Some ar /\ bks ar !! i = Some b /\
  nodes b !! n = Some nd /\ N.testbit (occ nd) (N.of_nat j) = true /\ N.testbit (rem nd) (N.of_nat j) = false /\
  data nd !! j = Some (Some x).
(** Some thread is in the course of inserting or removing it. *)
Definition busy (st : state K V) (x : obj K V) : Prop :=
  exists t th w, threads st !! t = Some th /\ work th = Write w /\ x.1 ∈ mine w.
Definition settled (st : state K V) (x : obj K V) : Prop := stored st x /\ ~ busy st x.

(** At all instants, or at some instant, of a part of a history. *)
Definition during (st : state K V) (l : list (action K V)) (P : state K V -> Prop) : Prop :=
  forall p q s, l = p ++ q -> run hash st p = Some s -> P s.
Definition at_some (st : state K V) (l : list (action K V)) (P : state K V -> Prop) : Prop :=
  exists p q s, l = p ++ q /\ run hash st p = Some s /\ P s.

(** The thread has just called [peek], or has the answer. *)
Definition called (st : state K V) (t : nat) (k : K) : Prop :=
  exists th, threads st !! t = Some th /\ work th = Peek k PCur.
Definition answered (st : state K V) (t : nat) (k : K) (r : option (obj K V)) : Prop :=
  exists th, threads st !! t = Some th /\ work th = Peek k (PDone r).
(** The thread has a guard. *)
Definition guarded (t : nat) (st : state K V) : Prop :=
  exists th, threads st !! t = Some th /\ pinned th = true.
(** The slot of the memory contains the entry, as written by its insertion. *)
Definition contains (st : state K V) (a i n j : nat) (x : obj K V) : Prop :=
  exists ar b nd, mem st !! a = Some ar /\ bks ar !! i = Some b /\ nodes b !! n = Some nd /\ data nd !! j = Some (Some x).
End spec.
