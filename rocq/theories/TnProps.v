(** Iterators and ranges over a shared TreeIndex yield nothing that was never there. *)
From Coq Require Import List Arith Bool.
From Verif Require Import TcModel TcRoute TcSpec TcLin TiModel TiSpec RgModel LbModel LbSpec TmModel TmSpec TmThms TnThms.
Import ListNotations.

(** C57: whatever an iterator yields was in the index at some time, in every run.  (Missing: after the creation of
    the iterator; see C57_iteration_sound_refuted and C57_first_leaf_sound_partial.) *)
Theorem C57_never_invents_partial :
  forall (K V : Type) (leb : K -> K -> bool), tord leb ->
  forall (l : list (mact K V)) s i b y k v,
    mrun leb l minit = Some s -> walked s i b y -> In (k, v) y ->
    sometime leb (log (tc (ml s))) 0 (length (log (tc (ml s)))) k v.
Proof. exact lC57_tn. Qed.
Print Assumptions C57_never_invents_partial.

(** The run of C57_iteration_sound_refuted: the pair was there, and is gone. *)
Example C57_never_invents_example : exists s, mrun Nat.leb (xa ++ xb) minit = Some s /\ walked s 0 12 [(10, 1)]
  /\ log (tc (ml s)) = [ERem 12 20; ERem 11 15; ERem 10 10; EIns 9 15 1; EIns 7 35 8; EIns 6 70 7; EIns 5 50 5;
                        EIns 4 60 6; EIns 3 40 4; EIns 2 30 3; EIns 1 20 2; EIns 0 10 1].
Proof. exact lC57_tn_ex. Qed.

(** C62: the same for ranges, with lower bounds too. *)
Theorem C62_never_invents_partial :
  forall (K V : Type) (leb : K -> K -> bool), tord leb ->
  forall (l : list (lbact K V)) s i lo up y k v,
    lbrun leb l lbinit = Some s -> spanned s i lo up y -> In (k, v) y ->
    sometime leb (log (tc (bl s))) 0 (length (log (tc (bl s)))) k v.
Proof. exact lC62_tn. Qed.
Print Assumptions C62_never_invents_partial.

Example C62_never_invents_example : exists s, lbrun Nat.leb (za ++ zb) lbinit = Some s
  /\ spanned s 0 LNone (UIncl 25) [(10, 1)]
  /\ log (tc (bl s)) = [ERem 12 20; ERem 11 15; ERem 10 10; EIns 9 15 1; EIns 7 35 8; EIns 6 70 7; EIns 5 50 5;
                        EIns 4 60 6; EIns 3 40 4; EIns 2 30 3; EIns 1 20 2; EIns 0 10 1].
Proof. exact lC62_tn_ex. Qed.
