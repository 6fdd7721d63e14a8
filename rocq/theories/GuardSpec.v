(** What is expected of exit guards, read off the statements of the scope. *)
From stdpp Require Import prelude list.
From Verif Require Import GuardModel.

Section spec.
Context {T : Type}.
(** The values with which guards are created, in order. *)
Definition initial (p : list (stmt T)) : list T := omap (fun x => match x with SNew v => Some v | _ => None end) p.
Definition updates (i : nat) (p : list (stmt T)) : list (T -> T) :=
  omap (fun x => match x with SMut j f => if decide (j = i) then Some f else None | _ => None end) p.
(** The value last assigned to guard [i]. *)
Definition latest (i : nat) (p : list (stmt T)) : option T :=
  (fun v => fold_left (fun v f => f v) (updates i p) v) <$> (initial p !! i).
Definition forgotten (i : nat) (p : list (stmt T)) : Prop := SForget i ∈ p.
(** The events of guard [i]. *)
Definition about (i : nat) (log : list (event T)) : list (event T) :=
  List.filter (fun e => match e with Ran j _ | Freed j _ => bool_decide (j = i) end) log.
End spec.
