(** C30 and C56: ranges with a lower and an upper bound over a TreeIndex that other threads work on. *)
From Coq Require Import List Arith Bool.
From Verif Require Import TcModel TcRoute TcLin TiModel TiSpec RgModel RgSpec LbModel LbSpec LbThms.
Import ListNotations.

(** C30 is also false of the lower bound, and without any removal: a range from 2 on yields 1. *)
Theorem C30_lower_bound_refuted :
  exists (l : list (lbact nat nat)) s y,
    lbrun Nat.leb l lbinit = Some s /\ no_removals_b l /\ spanned s 0 (LIncl 2) UNone y
    /\ exists k v, In (k, v) y /\ ~ in_lower Nat.leb (LIncl 2) k.
Proof. exact lC30_low_refuted. Qed.
Print Assumptions C30_lower_bound_refuted.

(** If no leaf split is rolled back as far as removing its mark, no key below the lower bound is yielded,
    whatever else is inserted and removed. *)
Theorem C30_lower_bound_partial :
  forall (K V : Type) (leb : K -> K -> bool), tord leb ->
  forall (l : list (lbact K V)) s i b u y,
    lbrun leb l lbinit = Some s -> no_rollback_b l -> spanned s i b u y ->
    forall k v, In (k, v) y -> in_lower leb b k.
Proof. exact @lC30_low. Qed.
Print Assumptions C30_lower_bound_partial.

(** If, besides, no removal beyond the upper bound takes effect while the range exists, only keys within
    both bounds are yielded.
    Missing: rollbacks and such removals, for which the claim is false (C30_lower_bound_refuted,
    C30_range_bounds_refuted). *)
Theorem C30_two_bounds_partial :
  forall (K V : Type) (leb : K -> K -> bool), tord leb ->
  forall (la lb : list (lbact K V)) sa s i l u y,
    lbrun leb la lbinit = Some sa -> lbrun leb lb sa = Some s -> no_rollback_b (la ++ lb) ->
    all_returned (bl sa) (removes_beyond leb u) -> none_begins (bl sa) (bl s) (removes_beyond leb u) ->
    lrs sa i = None -> spanned s i l u y ->
    forall k v, In (k, v) y -> in_lower leb l k /\ in_upper leb u k.
Proof. exact @lC30_span. Qed.
Print Assumptions C30_two_bounds_partial.

(** C56 for such ranges: ascending, unless a leaf split is rolled back. *)
Theorem C56_two_bounds_order_partial :
  forall (K V : Type) (leb : K -> K -> bool), tord leb ->
  forall (l : list (lbact K V)) s i b u y,
    lbrun leb l lbinit = Some s -> no_rollback_b l -> spanned s i b u y -> ascending leb (map fst y).
Proof. exact @lC56_span. Qed.
Print Assumptions C56_two_bounds_order_partial.

(** A range from 2 to 4; a leaf is split under it, 3 is removed, 0 and 5 are inserted. *)
Example C30_two_bounds_example : exists sa s, lbrun Nat.leb b0 lbinit = Some sa /\ lbrun Nat.leb b1 sa = Some s
  /\ no_rollback_b (b0 ++ b1)
  /\ all_returned (bl sa) (removes_beyond Nat.leb (UIncl 4)) /\ none_begins (bl sa) (bl s) (removes_beyond Nat.leb (UIncl 4))
  /\ lrs sa 0 = None /\ spanned s 0 (LIncl 2) (UIncl 4) [(2, 20); (4, 40)]
  /\ log (tc (bl s)) = [EIns 6 5 50; ERem 5 3; EIns 4 0 50; EIns 3 3 30; EIns 2 4 40; EIns 1 2 20; EIns 0 1 10].
Proof. exact lC30_span_ex. Qed.
