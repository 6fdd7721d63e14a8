(** Exit guards: src/exit_guard.rs (all of it), in a scope that is left normally or by a panic.

    A guard owns the pair of captured value and closure in a [ManuallyDrop] (L9): [Full] while it is
    there, [Empty] after it was taken out or dropped; taking it out twice is undefined behaviour.
    The compiler's part is modelled too: locals that were not moved out are dropped in reverse order of
    their declaration when the scope is left, on panic as well; a panic in a destructor starts the
    unwinding, or, during the unwinding, aborts the process. *)
From stdpp Require Import prelude list.

Section exit_guard.
Context {T : Type}.

(** What the code of a scope does with its guards; guards are numbered in order of declaration.
    [SOther] is anything that does not involve a guard. *)
Inductive stmt := SNew (v : T) | SMut (i : nat) (f : T -> T) | SForget (i : nat) | SDrop (i : nat) | SOther.
(** [Ran i v]: the callback of guard [i] ran with [v]; [Freed i v]: its captured value was dropped unused. *)
Inductive event := Ran (i : nat) (v : T) | Freed (i : nat) (v : T).
Inductive cell := Full (v : T) | Empty.
(** A local variable: its memory, and the drop flag (false: moved out). *)
Record local := Local { mem : cell; owned : bool }.
Inductive out := Normal | Unwound | Aborted | UB.

(** The memory of guard [i] is taken out: L25 (drop in place) and L34 (take). *)
Definition take_out (i : nat) (gs : list local) : option (T * list local) :=
  match gs !! i with
  | Some (Local (Full v) o) => Some (v, <[i := Local Empty o]> gs)
  | _ => None
  end.
Definition move_out (i : nat) (gs : list local) : list local :=
  match gs !! i with Some (Local m _) => <[i := Local m false]> gs | None => gs end.
Definition is_owned (i : nat) (gs : list local) : bool :=
  match gs !! i with Some (Local _ o) => o | None => false end.

(** Drop::drop, L31-37. [None]: undefined behaviour. *)
Definition drop_guard (i : nat) (gs : list local) (log : list event) : option (list local * list event) :=
  match take_out i (move_out i gs) with
  | Some (v, gs) => Some (gs, log ++ [Ran i v])
  | None => None
  end.
(** forget, L23-28: the pair is dropped in place, and [mem::forget] moves the guard away.  Dropping the
    captured value is assumed not to panic; all captured values in the crate are references, flags and
    array guards. *)
Definition forget_guard (i : nat) (gs : list local) (log : list event) : option (list local * list event) :=
  match take_out i gs with
  | Some (v, gs) => Some (move_out i gs, log ++ [Freed i v])
  | None => None
  end.

(** Leaving the scope: locals [i-1], ..., [0] in this order. [bad i]: the callback of [i] panics. *)
Fixpoint leave (bad : nat -> bool) (i : nat) (unw : bool) (gs : list local) (log : list event) : list event * out :=
  match i with
  | 0 => (log, if unw then Unwound else Normal)
  | S i =>
    if is_owned i gs then
      match drop_guard i gs log with
      | Some (gs, log) =>
        if bad i then if unw then (log, Aborted) else leave bad i true gs log
        else leave bad i unw gs log
      | None => (log, UB)
      end
    else leave bad i unw gs log
  end.

(** Runs the statements; [crash = Some n]: a panic happens before the statement [n].  The result says
    how many statements were executed.  [None]: the compiler would reject the program, for it uses a
    guard that does not exist or was moved out. *)
Fixpoint exec (bad : nat -> bool) (crash : option nat) (n : nat) (p : list stmt) (gs : list local) (log : list event) :
    option (nat * nat * (list event * out)) :=
  let fin unw gs log := Some (n, length gs, leave bad (length gs) unw gs log) in
  if decide (crash = Some n) then fin true gs log else
  match p with
  | [] => fin false gs log
  | SOther :: p => exec bad crash (S n) p gs log
  | SNew v :: p => (* new, L15-19 *)
    exec bad crash (S n) p (gs ++ [Local (Full v) true]) log
  | SMut i f :: p => (* deref_mut, L50-52 *)
    if is_owned i gs then
      match gs !! i with
      | Some (Local (Full v) o) => exec bad crash (S n) p (<[i := Local (Full (f v)) o]> gs) log
      | _ => Some (S n, length gs, (log, UB))
      end
    else None
  | SForget i :: p =>
    if is_owned i gs then
      match forget_guard i gs log with
      | Some (gs, log) => exec bad crash (S n) p gs log
      | None => Some (S n, length gs, (log, UB))
      end
    else None
  | SDrop i :: p =>
    if is_owned i gs then
      match drop_guard i gs log with
      | Some (gs, log) =>
        if bad i then Some (S n, length gs, leave bad (length gs) true gs log) else exec bad crash (S n) p gs log
      | None => Some (S n, length gs, (log, UB))
      end
    else None
  end.
Definition scope bad crash p := exec bad crash 0 p [] [].
End exit_guard.
Arguments stmt : clear implicits.
Arguments event : clear implicits.
Arguments local : clear implicits.
