(** Schedules for the examples: operations are run to their end or for a number of steps. *)
From Coq Require Import NArith.
From stdpp Require Import prelude list numbers.
From Verif Require Import GarbageModel GarbageSpec.

Fixpoint finish (fuel : nat) (t : nat) (st : state) (n : nat) : option nat :=
  match fuel with
  | O => None
  | S f =>
    th ← threads st !! t;
    match code th with [] => Some n | _ => s ← step st (AStep t true); finish f t s (S n) end
  end.
Inductive part := Do (t : nat) (o : op) | Begin (t : nat) (o : op) (n : nat) | More (t n : nat) | Rest (t : nat) | Ep.
Fixpoint plan (st : state) (l : list part) : option (list action) :=
  match l with
  | [] => Some []
  | c :: l' =>
    acts ← match c with
           | Do t o => s ← step st (AStart t o); n ← finish 100 t s 0; Some (AStart t o :: replicate n (AStep t true))
           | Begin t o n => Some (AStart t o :: replicate n (AStep t true))
           | More t n => Some (replicate n (AStep t true))
           | Rest t => n ← finish 100 t st 0; Some (replicate n (AStep t true))
           | Ep => Some [AEpoch]
           end;
    s ← run st acts; q ← plan s l'; Some (acts ++ q)
  end.
Definition schedule (l : list part) : list action := match plan (init 3) l with Some a => a | None => [] end.

(** Thread 0 creates a table and drops it; four epochs later thread 1 has found it in the garbage chain,
    expired, and is about to detach the chain.  Thread 0 frees it and creates a new table in the same
    place, thread 2 gets a reference to it, and thread 0 drops it. *)
Definition reused : list part :=
  [Do 0 (OInsert 0 2); Do 0 ORemove; Ep; Ep; Ep; Ep; Do 1 OGuard; Begin 1 OPeek 5;
   Do 0 (OInsert 0 2); Do 2 OGuard; Begin 2 OPeek 2; Do 0 ORemove].
(** A dropped table is detached from the chain by a thread that takes it for an unfinished old array, and
    is put in front again. *)
Definition requeued : list part :=
  [Do 0 (OInsert 0 2); Do 0 ORemove; Ep; Ep; Ep; Do 0 (OInsert 1 2); Do 2 OGuard; Begin 2 OPeek 7; Do 0 (OGrow 2 4);
   Do 0 OGuard; Begin 0 OPeek 19; Ep; Do 1 OGuard; Begin 1 OPeek 5; Rest 0; More 2 16].
Lemma reused_freed : exists st, run (init 3) (schedule (reused ++ [Rest 1])) = Some st /\ dangling st 2 0 /\ about_to_read st 2 0.
Proof.
  eexists. split; [vm_compute; reflexivity|]. split.
  - eexists _, _. split; [reflexivity|]. split; [reflexivity|]. split; [left|]. split; reflexivity.
  - eexists _, _. split; [reflexivity|]. left. reflexivity.
Qed.
Lemma requeued_freed : exists st, run (init 3) (schedule (requeued ++ [Rest 1])) = Some st /\ dangling st 2 0 /\ about_to_read st 2 0 /\ dangling st 2 1.
Proof.
  eexists. split; [vm_compute; reflexivity|]. split; [|split].
  - eexists _, _. split; [reflexivity|]. split; [reflexivity|]. split; [left|]. split; reflexivity.
  - eexists _, _. split; [reflexivity|]. right. reflexivity.
  - eexists _, _. split; [reflexivity|]. split; [reflexivity|]. split; [right; left|]. split; reflexivity.
Qed.
Lemma requeued_fresh : fresh_only (schedule (requeued ++ [Rest 1])) [].
Proof. vm_compute. repeat split; intros H; repeat (apply elem_of_cons in H as [H|H]; [discriminate H|]); by apply elem_of_nil in H. Qed.
