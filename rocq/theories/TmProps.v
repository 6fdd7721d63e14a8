(** Iterators over a shared TreeIndex, with the search for the first leaf as it is in the code. *)
From Coq Require Import List Arith Bool.
From Verif Require Import TcModel TcRoute TcSpec TcLin TiModel TiSpec RgModel LbModel LbSpec TmModel TmSpec TmThms.
Import ListNotations.

(** C57: whatever an iterator has yielded was there at some time after its creation.  Not so: it may yield an
    entry whose removal had returned before the iterator was created.  While an internal node is being split,
    there is a time when the parent has the lower half and still the node itself; if everything in the lower
    half is removed then, the search for the first leaf goes on with the old node, which has old leaves. *)
Theorem C57_iteration_sound_refuted :
  exists (la lb : list (mact nat nat)) sa s t b k v,
    mrun Nat.leb la minit = Some sa /\ mrun Nat.leb lb sa = Some s
    /\ ((exists c, call (ml sa) t (ORem k c)) /\ returned (tc (ml sa)) t (RRem true)) /\ mis sa 0 = None
    /\ walked s 0 b [(k, v)] /\ ~ sometime Nat.leb (log (tc (ml s))) b (length (log (tc (ml s)))) k v.
Proof. exact lC57_tm_refuted. Qed.
Print Assumptions C57_iteration_sound_refuted.

(** C62: the same with a range that has an upper bound. *)
Theorem C62_range_sound_refuted :
  exists (la lb : list (lbact nat nat)) sa s t k v,
    lbrun Nat.leb la lbinit = Some sa /\ lbrun Nat.leb lb sa = Some s
    /\ ((exists c, call (bl sa) t (ORem k c)) /\ returned (tc (bl sa)) t (RRem true)) /\ lrs sa 0 = None
    /\ spanned s 0 LNone (UIncl 25) [(k, v)]
    /\ ~ sometime Nat.leb (log (tc (bl s))) (length (log (tc (bl sa)))) (length (log (tc (bl s)))) k v.
Proof. exact lC62_lb_refuted. Qed.
Print Assumptions C62_range_sound_refuted.

(** An iterator misses nothing and invents nothing unless it has gone on with the next child after one without
    a leaf.  (Missing: iterators that have; for those the second theorem is refuted above.) *)
Theorem C57_first_leaf_complete_partial :
  forall (K V : Type) (leb : K -> K -> bool), tord leb ->
  forall (l : list (mact K V)) s i b e y k v,
    mrun leb l minit = Some s -> ~ went_on s i -> walked s i b y -> walked_out s i e ->
    throughout leb (log (tc (ml s))) b e k v -> In (k, v) y.
Proof. exact @lC57_tm_complete. Qed.
Print Assumptions C57_first_leaf_complete_partial.

Theorem C57_first_leaf_sound_partial :
  forall (K V : Type) (leb : K -> K -> bool), tord leb ->
  forall (l : list (mact K V)) s i b y k v,
    mrun leb l minit = Some s -> ~ went_on s i -> walked s i b y -> In (k, v) y ->
    sometime leb (log (tc (ml s))) b (length (log (tc (ml s)))) k v
    /\ forall e, walked_out s i e -> sometime leb (log (tc (ml s))) b e k v.
Proof. exact @lC57_tm_sound. Qed.
Print Assumptions C57_first_leaf_sound_partial.

(** The run of C57_example: a leaf is split while the iterator stands in it; 0, 5 are inserted and 3 is
    removed meanwhile. *)
Example C57_first_leaf_example : exists s, mrun Nat.leb xc minit = Some s
  /\ walked s 0 4 [(1, 10); (2, 20); (4, 40); (5, 50)] /\ (walked_out s 0 7 /\ ~ went_on s 0)
  /\ log (tc (ml s)) = [EIns 6 5 50; ERem 5 3; EIns 4 0 50; EIns 3 3 30; EIns 2 4 40; EIns 1 2 20; EIns 0 1 10].
Proof. exact lC57_tm_ex. Qed.

(** C56: keys come in ascending order, none twice, unless a split is rolled back; also from an old leaf on. *)
Theorem C56_first_leaf_order_partial :
  forall (K V : Type) (leb : K -> K -> bool), tord leb ->
  forall (l : list (mact K V)) s i b y,
    mrun leb l minit = Some s -> no_rollback_m l -> walked s i b y -> ascending leb (map fst y).
Proof. exact @lC56_tm_ordered. Qed.
Print Assumptions C56_first_leaf_order_partial.

(** The run of C57_iteration_sound_refuted, in which 10 and 20 have been removed before. *)
Example C56_first_leaf_example : exists s, mrun Nat.leb xd minit = Some s /\ no_rollback_m xd /\ went_on s 0
  /\ walked s 0 12 [(10, 1); (20, 2); (30, 3); (35, 8); (40, 4); (50, 5); (60, 6); (70, 7)].
Proof. exact lC56_tm_ex. Qed.
