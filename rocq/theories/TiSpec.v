(** What a user may expect of an iterator over a TreeIndex that other threads work on.  Independent of
    the tree: a history is a list of events, an iteration is what it yielded between two instants. *)
From Coq Require Import List Arith Bool.
From Verif Require Import TcModel TcSpec TcLin TiModel.
Import ListNotations.

Section spec.
Context {K V : Type} (leb : K -> K -> bool).
(** Every key is smaller than those that follow. *)
Fixpoint ascending (l : list K) : Prop :=
  match l with [] => True | a :: r => (forall b, In b r -> leb b a = false) /\ ascending r end.
(** The iterator [i] of the run [l], which ended in [s], has yielded [y] so far; it was created at the
    instant [b]. *)
Definition iterated (s : ls K V) (i b : nat) (y : list (K * V)) : Prop :=
  exists x, its s i = Some x /\ it0 x = b /\ out x = y.
(** It has returned [None] at the instant [e]. *)
Definition finished (s : ls K V) (i e : nat) : Prop := exists x, its s i = Some x /\ ipos x = IEnd e.
(** No call in [l] removes anything. *)
Definition no_removals (l : list (lsact K V)) : Prop := forall t k c, ~ In (LT (AInv t (ORem k c))) l.
(** No rollback of a leaf split gets as far as removing the mark of the leaf. *)
Definition no_rollback (l : list (lsact K V)) : Prop := forall n, ~ In (LL (LUnm n)) l.
(** The history [l] had the entry at every instant, or at some instant, from [b] to [e]. *)
Definition throughout (l : list (ev K V)) (b e : nat) (k : K) (v : V) : Prop :=
  forall j, b <= j <= e -> abs leb (at_i l j) k = Some v.
Definition sometime (l : list (ev K V)) (b e : nat) (k : K) (v : V) : Prop :=
  exists j, b <= j <= e /\ abs leb (at_i l j) k = Some v.
(** In the state [s] the call [t] of [q] has begun; all calls in [P] that have begun have returned; the
    calls in [P] that have begun in [s] had already begun in [s0]. *)
Definition call (s : ls K V) (t : nat) (q : opk K V) : Prop := exists p, ops (tc s) t = Some p /\ kind p = q.
Definition all_returned (s : ls K V) (P : opk K V -> Prop) : Prop :=
  forall t q, call s t q -> P q -> exists r, returned (tc s) t r.
Definition none_begins (s0 s : ls K V) (P : opk K V -> Prop) : Prop :=
  forall t q, call s t q -> P q -> call s0 t q.
Definition removal (k : K) (q : opk K V) : Prop := exists c, q = ORem k c.
Definition insertion (k : K) (q : opk K V) : Prop := exists v, q = OIns k v.
End spec.
