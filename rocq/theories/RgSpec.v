(** What a user may expect of a range with an upper bound. *)
From Coq Require Import List Arith Bool.
From Verif Require Import TcModel TiModel TiSpec RgModel.

Section spec.
Context {K V : Type} (leb : K -> K -> bool).
(** The range [i] with the bound [b] has yielded [y] so far. *)
Definition ranged (s : rs K V) (i : nat) (b : ubd K) (y : list (K * V)) : Prop :=
  exists r, rgs s i = Some r /\ rb r = b /\ ry r = y.
(** The key is within the upper bound. *)
Definition in_upper (b : ubd K) (k : K) : Prop :=
  match b with
  | UIncl h => leb k h = true
  | UExcl h => leb k h = true /\ leb h k = false
  | UNone => True
  end.
(** The call may remove a key that is not within the bound. *)
Definition removes_beyond (b : ubd K) (q : opk K V) : Prop :=
  exists k c, ~ in_upper b k /\ q = ORem k c.
(** It was created at the instant [t0]. *)
Definition created (s : rs K V) (i t0 : nat) : Prop := exists x, its (li s) i = Some x /\ it0 x = t0.
(** It has returned [None]. *)
Definition range_over (s : rs K V) (i : nat) : Prop := exists r, rgs s i = Some r /\ rend r = true.
(** No rollback of a leaf split gets as far as removing the mark of the leaf. *)
Definition no_rollback_r (l : list (ract K V)) : Prop := forall n, ~ In (RL (LL (LUnm n))) l.
End spec.
