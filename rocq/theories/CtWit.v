(** Executions used in the examples of CtProps.v. *)
From Coq Require Import NArith.
From stdpp Require Import prelude list numbers.
From Verif Require Import CtModel CtSpec.
Local Open Scope N_scope.

(** A hash of which the upper six bits matter. *)
Definition hx (k : N) : N := (k * 2 ^ 58) mod 2 ^ 64.
Definition go (t n : nat) : list (nat * choice N N) := repeat (t, CGo) n.
Definition call (t : nat) (c : call N N) : list (nat * choice N N) := [(t, CCall c)].
Definition after (l : list (nat * choice N N)) (f : state N N -> Prop) : Prop :=
  match run hx l (start 2) with Some s => f s | None => False end.

(** Thread 0 creates the table of two buckets and inserts two entries; thread 1 replaces it by a table of eight. *)
Definition ex_grown : list (nat * choice N N) :=
  call 0 (KOp (OInsert 5 50)) ++ [(0%nat, CCap 64)] ++ go 0 5 ++ call 0 (KOp (OInsert 40 41)) ++ go 0 6
  ++ call 1 KResize ++ go 1 5 ++ [(1%nat, CCap 256)] ++ go 1 2.
(** Thread 0 reads, and has claimed the old buckets. *)
Definition ex_claimed := ex_grown ++ call 0 (KOp (ORead 5)) ++ go 0 4.
(** ... has moved the entries of old bucket 0, after holding all its targets. *)
Definition ex_locked := ex_claimed ++ go 0 6.
Definition ex_moved := ex_claimed ++ go 0 7.
(** ... has processed both. *)
Definition ex_processed := ex_claimed ++ go 0 27.
(** The only entry is removed, and thread 1, dropping the table, has locked all its buckets. *)
Definition ex_dropping :=
  call 0 (KOp (OInsert 5 50)) ++ [(0%nat, CCap 64)] ++ go 0 5 ++ call 0 (KOp (ORemove 5 (fun _ => true))) ++ go 0 6
  ++ call 1 KResize ++ go 1 5 ++ [(1%nat, CDropTable)] ++ go 1 3.
(** Thread 0 iterates, and has visited bucket 0 of two when thread 1 replaces the table and moves all entries. *)
Definition ex_filled : list (nat * choice N N) :=
  call 0 (KOp (OInsert 5 50)) ++ [(0%nat, CCap 64)] ++ go 0 5 ++ call 0 (KOp (OInsert 40 41)) ++ go 0 6.
Definition ex_scan : list (nat * choice N N) :=
  go 0 5 ++ call 1 KResize ++ go 1 5 ++ [(1%nat, CCap 256)] ++ go 1 2 ++ call 1 (KOp (OUpsert 40 42)) ++ go 1 37 ++ go 0 20.
(** Thread 0 is inside bucket 0 of the old table and will move it; thread 1 waits for the bucket. *)
Definition ex_wait := ex_grown ++ call 0 (KOp (ORead 5)) ++ go 0 4 ++ call 1 (KOp (ORead 5)) ++ go 1 4 ++ go 0 1.
