(** What it means for concurrent calls of [insert], [remove_if] and [peek] to be explained by one
    history of updates.  Independent of trees: a history is a list of events, newest first. *)
From Coq Require Import List Arith Bool Lia.
From Verif Require Import TcModel.
Import ListNotations.

Section spec.
Context {K V : Type} (leb : K -> K -> bool).

(** The contents of the map after a history. *)
Fixpoint abs (l : list (ev K V)) (k : K) : option V :=
  match l with
  | [] => None
  | EIns _ a v :: r => if keqb leb k a then Some v else abs r k
  | ERem _ a :: r => if keqb leb k a then None else abs r k
  end.

(** The history at the instant when it had [i] events, and the event after that instant. *)
Definition at_i (l : list (ev K V)) (i : nat) : list (ev K V) := skipn (length l - i) l.
Definition ev_i (l : list (ev K V)) (i : nat) : option (ev K V) := nth_error (rev l) i.

Definition by_call (t : nat) (e : ev K V) : Prop := match e with EIns t' _ _ | ERem t' _ => t' = t end.

(** The update [e] fits the call [q] and the contents before it. *)
Definition fits (q : opk K V) (before : K -> option V) (e : ev K V) : Prop :=
  match e with
  | EIns _ k v => q = OIns k v /\ before k = None
  | ERem _ k => exists cond v, q = ORem k cond /\ before k = Some v /\ cond v = true
  end.

(** The call [t] of [q] began at the instant [b], and up to the instant [e] it has done what its
    result [r], if any, tells. *)
Definition quiet (l : list (ev K V)) (t : nat) : Prop := forall i e, ev_i l i = Some e -> ~ by_call t e.
Definition explains (l : list (ev K V)) (t : nat) (q : opk K V) (b e : nat) (r : res V) : Prop :=
  b <= e <= length l /\
  match q, r with
  | OPeek k, RVal v => quiet l t /\ exists i, b <= i <= e /\ abs (at_i l i) k = v
  | OIns k v, RIns true =>
      exists i, b <= i < e /\ ev_i l i = Some (EIns t k v)
        /\ forall j a, ev_i l j = Some a -> by_call t a -> j = i
  | OIns k v, RSpur => quiet l t
  | OIns k v, RIns false => quiet l t /\ exists i, b <= i <= e /\ abs (at_i l i) k <> None
  | ORem k cond, RRem true =>
      (exists i, b <= i < e /\ ev_i l i = Some (ERem t k))
      /\ forall j a, ev_i l j = Some a -> by_call t a -> b <= j < e
  | ORem k cond, RRem false =>
      quiet l t /\ exists i, b <= i <= e /\
        (abs (at_i l i) k = None \/ exists v, abs (at_i l i) k = Some v /\ cond v = false)
  | _, _ => False
  end.

(** Every update of the history belongs to a call that has begun, and fits it. *)
Definition sound (l : list (ev K V)) (call : nat -> option (opk K V * nat)) : Prop :=
  forall i e, ev_i l i = Some e ->
    exists t q b, by_call t e /\ call t = Some (q, b) /\ b <= i /\ fits q (abs (at_i l i)) e.
End spec.
