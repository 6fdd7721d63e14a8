(** What a user may expect of an iterator over a TreeIndex, as in TiSpec. *)
From Coq Require Import List Arith Bool.
From Verif Require Import TcModel TiModel TiSpec TmModel.

Section spec.
Context {K V : Type}.
(** The iterator [i], created at the instant [b], has yielded [y] so far. *)
Definition walked (s : tms K V) (i b : nat) (y : list (K * V)) : Prop :=
  exists x, mis s i = Some x /\ m0 x = b /\ mout x = y.
(** It has returned [None] at the instant [e]. *)
Definition walked_out (s : tms K V) (i e : nat) : Prop :=
  exists x y, mis s i = Some x /\ mp x = MGo y /\ ipos y = IEnd e.
(** On its way to the first leaf it has found a node without a leaf below it, and has gone on with the next
    child of the parent. *)
Definition went_on (s : tms K V) (i : nat) : Prop := exists x, mis s i = Some x /\ on x = true.
(** No rollback of a leaf split gets as far as removing the mark of the leaf. *)
Definition no_rollback_m (l : list (mact K V)) : Prop := forall n, ~ In (XL (LL (LUnm n))) l.
End spec.
