(** When a range goes on with the next child of a node on its way to the first leaf. *)
From Coq Require Import List Arith Bool.
From Verif Require Import TcModel TiModel RgModel LbModel.
Import ListNotations.

Section spec.
Context {K V : Type} (leb : K -> K -> bool).
(** The range [i] has found no leaf below a node, and is about to go on with the next child of the parent. *)
Definition passes (s : lbs K V) (i : nat) : Prop :=
  exists r rt w f n M k, lrs s i = Some r /\ ph r = PD (MMeta rt (w :: f) n M [] k) /\ forall c, ub (nd (bl s) n) <> UTo c.
(** It never does in the run [l] from [s0]. *)
Definition never_passes (l : list (lbact K V)) (s0 : lbs K V) (i : nat) : Prop :=
  forall l1 l2 s, l = l1 ++ BNext i :: l2 -> lbrun leb l1 s0 = Some s -> ~ passes s i.
End spec.
