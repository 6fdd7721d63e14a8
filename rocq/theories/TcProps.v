(** C55: a TreeIndex shared by threads is linearizable, across splits, merges and changes of the root. *)
From Coq Require Import List Arith Bool.
From Verif Require Import TcModel TcRoute TcLin TcOne TcOnce TcWit TcThms.
Import ListNotations.

(** The property as stated does not hold: a removal that starts over may remove a second entry. *)
Theorem C55_treeindex_linearizable_refuted :
  exists (l : list (act nat nat)) s, run Nat.leb l init = Some s /\ ~ linearizable Nat.leb true l s.
Proof. exact lC55_refuted. Qed.
Print Assumptions C55_treeindex_linearizable_refuted.

(** It holds for every run in which neither a removal starts over after it has emptied a leaf, nor an
    insertion is overtaken by the rollback of a split. *)
Theorem C55_treeindex_linearizable_partial :
  forall (K V : Type) (leb : K -> K -> bool), tord leb ->
  forall (l : list (act K V)) s,
    Forall (fun a => ~ race a) l -> run leb l init = Some s -> linearizable leb true l s.
Proof. exact @lC55_strict. Qed.
Print Assumptions C55_treeindex_linearizable_partial.

(** And for every run, if one call of remove_if counts as the removals that it did, and a duplicate
    reported for no reason as no operation. *)
Theorem C55_treeindex_linearizable_loosely_partial :
  forall (K V : Type) (leb : K -> K -> bool), tord leb ->
  forall (l : list (act K V)) s, run leb l init = Some s -> linearizable leb false l s.
Proof. exact @lC55_loose. Qed.
Print Assumptions C55_treeindex_linearizable_loosely_partial.

(** No step panics. *)
Theorem C55_treeindex_does_not_panic :
  forall (K V : Type) (leb : K -> K -> bool), tord leb ->
  forall (l : list (act K V)) s, run leb l init = Some s -> err s = false.
Proof. exact @lC55_no_panic. Qed.
Print Assumptions C55_treeindex_does_not_panic.

(** A lookup that is overtaken by a split and a removal returns the old value. *)
Example C55_example : exists s, run Nat.leb ex1 init = Some s /\ Forall (fun a => ~ race a) ex1
  /\ map (stat s) [2; 3; 4; 5] =
     [Some (PDone (RVal (Some 20)) 4); Some (PDone (RIns true) 3); Some (PDone (RRem true) 4); Some (PDone (RVal None) 4)].
Proof. exact ex1_ok. Qed.
Example C55_loose_example : exists s, run Nat.leb w3 init = Some s
  /\ linearizable Nat.leb false w3 s /\ ~ linearizable Nat.leb true w3 s.
Proof. exact wit_loose. Qed.

(** C31. Unless the removal finds the root locked after it has emptied a leaf, and starts over, it removes
    one entry if it returns true and none if it returns false, whatever all other calls do.  ([ARetry] is
    the step of starting over; [updates s t] are the updates of the tree that the call [t] has done.) *)
Theorem C31_remove_once_partial :
  forall (K V : Type) (leb : K -> K -> bool), tord leb ->
  forall (l : list (act K V)) s, Forall (fun a => ~ again a) l -> run leb l init = Some s ->
  forall t p k cond, ops s t = Some p -> kind p = ORem k cond ->
    length (updates s t) <= 1
    /\ (returned s t (RRem true) -> updates s t = [ERem t k])
    /\ (returned s t (RRem false) -> updates s t = []).
Proof. exact @lC31_once. Qed.
Print Assumptions C31_remove_once_partial.
Example C31_once_example : exists s p, run Nat.leb ex1 init = Some s /\ Forall (fun a => ~ again a) ex1
  /\ ops s 4 = Some p /\ kind p = ORem 2 always /\ returned s 4 (RRem true) /\ updates s 4 = [ERem 4 2].
Proof. exact ex1_once. Qed.
(** With the step of starting over, two entries are removed by one call. *)
Example C31_twice_example : exists s, run Nat.leb w3 init = Some s /\ updates s 1 = [ERem 1 1; ERem 1 1].
Proof. exact w3_twice. Qed.
