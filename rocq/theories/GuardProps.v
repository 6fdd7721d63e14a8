(** C38: exit guards. *)
From stdpp Require Import prelude list.
From Verif Require Import GuardModel GuardSpec GuardThms.

(** However the statements of a scope use guards, wherever a panic happens and whichever callbacks panic
    themselves: nothing undefined happens; the callback of a guard that was not forgotten runs exactly
    once, with the value the guard last held, unless the process is aborted first because a callback
    panics during unwinding; the callback of a forgotten guard never runs and its captured value is
    released exactly once. *)
Theorem C38_runs_once {T : Type} : forall bad crash (p : list (stmt T)) n m log o,
  scope bad crash p = Some (n, m, (log, o)) ->
  o <> UB /\ m = length (initial (take n p)) /\
  forall i, i < m -> exists v, latest i (take n p) = Some v /\
    (forgotten i (take n p) -> about i log = [Freed i v]) /\
    (~ forgotten i (take n p) -> about i log = [Ran i v] \/ (o = Aborted /\ about i log = [])).
Proof. exact lC38_runs_once. Qed.
Example C38_runs_once_ex :
  scope (fun _ => false) (Some 5) [SNew 1; SNew 2; SMut 0 S; SForget 1; SNew 7; SOther; SMut 2 S]
  = Some (5, 3, ([Freed 1 2; Ran 2 7; Ran 0 2], Unwound)) /\
  scope (fun i => i =? 1) None [SNew 1; SNew 2; SMut 0 S] = Some (3, 2, ([Ran 1 2; Ran 0 2], Unwound)).
Proof. by vm_compute. Qed.
Print Assumptions C38_runs_once.

(** If no callback panics, every guard's callback runs exactly once unless forgotten. *)
Theorem C38_quiet {T : Type} : forall crash (p : list (stmt T)) n m log o,
  scope (fun _ => false) crash p = Some (n, m, (log, o)) ->
  o = (if decide (crash = Some n) then Unwound else Normal) /\
  forall i, i < m -> exists v, latest i (take n p) = Some v /\
    (forgotten i (take n p) -> about i log = [Freed i v]) /\
    (~ forgotten i (take n p) -> about i log = [Ran i v]).
Proof. exact lC38_quiet. Qed.
Example C38_quiet_ex :
  scope (fun _ => false) None [SNew 1; SNew 2; SDrop 0; SMut 1 S; SNew 4; SForget 2]
  = Some (6, 3, ([Ran 0 1; Freed 2 4; Ran 1 3], Normal)).
Proof. by vm_compute. Qed.
Print Assumptions C38_quiet.
