(** C30 (what remains true of it), C56 and C62: ranges with an upper bound over a TreeIndex that other
    threads work on. *)
From Coq Require Import List Arith Bool.
From Verif Require Import TcModel TcRoute TcLin TiModel TiSpec RgModel RgSpec RgThms.
Import ListNotations.

(** C30 without lower bounds and without removals beyond the bound: if every removal of a key beyond the
    bound has returned before the range is created, and none begins later, no key beyond the bound is
    yielded, whatever else is inserted and removed.
    Missing: removals beyond the bound at the same time, for which the claim is false
    (C30_range_bounds_refuted); lower bounds are in LbProps. *)
Theorem C30_range_bounds_partial :
  forall (K V : Type) (leb : K -> K -> bool), tord leb ->
  forall (la lb : list (ract K V)) sa s i b y,
    rrun leb la rinit = Some sa -> rrun leb lb sa = Some s ->
    all_returned (li sa) (removes_beyond leb b) -> none_begins (li sa) (li s) (removes_beyond leb b) ->
    rgs sa i = None -> ranged s i b y ->
    forall k v, In (k, v) y -> in_upper leb b k.
Proof. exact @lC30_bounded. Qed.
Print Assumptions C30_range_bounds_partial.

(** A range up to 4; a leaf is split under it, 3 is removed, 0 and 5 are inserted. *)
Example C30_partial_example : exists sa s, rrun Nat.leb ra rinit = Some sa /\ rrun Nat.leb rb4 sa = Some s
  /\ all_returned (li sa) (removes_beyond Nat.leb (UIncl 4)) /\ none_begins (li sa) (li s) (removes_beyond Nat.leb (UIncl 4))
  /\ rgs sa 0 = None /\ ranged s 0 (UIncl 4) [(1, 10); (2, 20); (4, 40)]
  /\ log (tc (li s)) = [EIns 6 5 50; ERem 5 3; EIns 4 0 50; EIns 3 3 30; EIns 2 4 40; EIns 1 2 20; EIns 0 1 10].
Proof. exact lC30_ex. Qed.

(** C62: a range that has just returned [None] has yielded every entry within its bound that was there from
    the creation of the range until now, ...  (Missing, here and in the next theorem: ranges that go on with the
    next child of a node after one without a leaf, see C62_range_sound_refuted in TmProps.) *)
Theorem C62_range_complete_partial :
  forall (K V : Type) (leb : K -> K -> bool), tord leb ->
  forall (l : list (ract K V)) s i b t0 y k v,
    rrun leb l rinit = Some s -> ranged s i b y -> created s i t0 -> range_over s i ->
    throughout leb (log (tc (li s))) t0 (length (log (tc (li s)))) k v ->
    in_upper leb b k -> In (k, v) y.
Proof. exact @lC62_complete. Qed.
Print Assumptions C62_range_complete_partial.

(** ... and whatever it yields was there at some time after its creation. *)
Theorem C62_range_sound_partial :
  forall (K V : Type) (leb : K -> K -> bool), tord leb ->
  forall (l : list (ract K V)) s i b t0 y k v,
    rrun leb l rinit = Some s -> ranged s i b y -> created s i t0 -> In (k, v) y ->
    sometime leb (log (tc (li s))) t0 (length (log (tc (li s)))) k v.
Proof. exact @lC62_sound. Qed.
Print Assumptions C62_range_sound_partial.

(** C56 for ranges: ascending, unless a leaf split is rolled back. *)
Theorem C56_range_order_partial :
  forall (K V : Type) (leb : K -> K -> bool), tord leb ->
  forall (l : list (ract K V)) s i b y,
    rrun leb l rinit = Some s -> no_rollback_r l -> ranged s i b y -> ascending leb (map fst y).
Proof. exact @lC62_ordered. Qed.
Print Assumptions C56_range_order_partial.

Example C62_example : exists s, rrun Nat.leb (ra ++ rb4) rinit = Some s /\ no_rollback_r (ra ++ rb4)
  /\ ranged s 0 (UIncl 4) [(1, 10); (2, 20); (4, 40)] /\ created s 0 4 /\ range_over s 0
  /\ throughout Nat.leb (log (tc (li s))) 4 (length (log (tc (li s)))) 4 40
  /\ log (tc (li s)) = [EIns 6 5 50; ERem 5 3; EIns 4 0 50; EIns 3 3 30; EIns 2 4 40; EIns 1 2 20; EIns 0 1 10].
Proof. exact lC62_ex. Qed.
