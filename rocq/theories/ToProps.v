(** C62 for ranges without a lower bound whose search for the first leaf is as in the code. *)
From Coq Require Import List Arith Bool.
From Verif Require Import TcModel TcRoute TcSpec TcLin TiModel TiSpec RgModel RgSpec LbModel LbSpec LbThms ToSpec ToThms.
Import ListNotations.

(** C62: a range that has never gone on with the next child while it was looking for the first leaf yields
    every entry, within its bound, that was there from before its creation until it returned [None].
    [sa] is any state before the creation of the range.
    Missing: ranges that did go on with the next child, and ranges with a lower bound. *)
Theorem C62_as_in_code_complete_partial :
  forall (K V : Type) (leb : K -> K -> bool), tord leb ->
  forall (la lb : list (lbact K V)) sa s i u y k v,
    lbrun leb la lbinit = Some sa -> lrs sa i = None -> lbrun leb lb sa = Some s -> never_passes leb lb sa i ->
    spanned s i LNone u y -> span_over s i ->
    throughout leb (log (tc (bl s))) (length (log (tc (bl sa)))) (length (log (tc (bl s)))) k v ->
    in_upper leb u k -> In (k, v) y.
Proof. exact lC62_to_complete. Qed.
Print Assumptions C62_as_in_code_complete_partial.

(** ... and whatever it yields was there at some time after its creation.
    Missing: as above; for ranges that did go on the claim is false (C62_range_sound_refuted). *)
Theorem C62_as_in_code_sound_partial :
  forall (K V : Type) (leb : K -> K -> bool), tord leb ->
  forall (la lb : list (lbact K V)) sa s i u y k v,
    lbrun leb la lbinit = Some sa -> lrs sa i = None -> lbrun leb lb sa = Some s -> never_passes leb lb sa i ->
    spanned s i LNone u y -> In (k, v) y ->
    sometime leb (log (tc (bl s))) (length (log (tc (bl sa)))) (length (log (tc (bl s)))) k v.
Proof. exact lC62_to_sound. Qed.
Print Assumptions C62_as_in_code_sound_partial.

(** A range up to 4; a leaf is split under it, 3 is removed, 0 and 5 are inserted. *)
Example C62_as_in_code_example : exists sa s,
  lbrun Nat.leb b0 lbinit = Some sa /\ lrs sa 0 = None /\ lbrun Nat.leb b2 sa = Some s /\ never_passes Nat.leb b2 sa 0
  /\ spanned s 0 LNone (UIncl 4) [(1, 10); (2, 20); (4, 40)] /\ span_over s 0
  /\ throughout Nat.leb (log (tc (bl s))) (length (log (tc (bl sa)))) (length (log (tc (bl s)))) 4 40
  /\ log (tc (bl s)) = [EIns 6 5 50; ERem 5 3; EIns 4 0 50; EIns 3 3 30; EIns 2 4 40; EIns 1 2 20; EIns 0 1 10].
Proof. exact lC62_to_ex. Qed.
