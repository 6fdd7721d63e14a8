(** What a user may expect of a range with a lower and an upper bound. *)
From Coq Require Import List Arith Bool.
From Verif Require Import TcModel TiModel TiSpec RgModel LbModel.

(** The key is within the lower bound. *)
Definition in_lower {K : Type} (leb : K -> K -> bool) (b : lbd K) (k : K) : Prop :=
  match b with
  | LIncl l => leb l k = true
  | LExcl l => leb l k = true /\ leb k l = false
  | LNone => True
  end.

Section spec.
Context {K V : Type}.
(** The range [i] from [l] to [u] has yielded [y] so far. *)
Definition spanned (s : lbs K V) (i : nat) (l : lbd K) (u : ubd K) (y : list (K * V)) : Prop :=
  exists r, lrs s i = Some r /\ llo r = l /\ lup r = u /\ ly r = y.
(** It has returned [None]. *)
Definition span_over (s : lbs K V) (i : nat) : Prop := exists r, lrs s i = Some r /\ lend r = true.
(** No rollback of a leaf split gets as far as removing the mark of the leaf. *)
Definition no_rollback_b (l : list (lbact K V)) : Prop := forall n, ~ In (BL (LL (LUnm n))) l.
(** No call of the run removes a key. *)
Definition no_removals_b (l : list (lbact K V)) : Prop := forall t k c, ~ In (BL (LT (AInv t (ORem k c)))) l.
End spec.
