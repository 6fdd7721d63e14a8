(** Iterators over a shared TreeIndex. *)
From Coq Require Import List Arith Bool.
From Verif Require Import TcModel TcRoute TcSpec TcLin TiModel TiSpec TiWit TiThms TiEx.
Import ListNotations.

(** C56: keys come in ascending order, none twice.  Not so, even if nothing is ever removed. *)
Theorem C56_iteration_order_refuted :
  exists (l : list (lsact nat nat)) s b y,
    lsrun Nat.leb l linit = Some s /\ no_removals l /\ iterated s 0 b y
    /\ ~ ascending Nat.leb (map fst y) /\ ~ NoDup (map fst y).
Proof. exact lC56_refuted. Qed.
Print Assumptions C56_iteration_order_refuted.

(** It is so unless a split is rolled back, whatever else other threads do.  (Missing: rollbacks.) *)
Theorem C56_iteration_order_partial :
  forall (K V : Type) (leb : K -> K -> bool), tord leb ->
  forall (l : list (lsact K V)) s i b y,
    lsrun leb l linit = Some s -> no_rollback l -> iterated s i b y -> ascending leb (map fst y).
Proof. exact @lC56_ordered. Qed.
Print Assumptions C56_iteration_order_partial.

(** The leaf of the iterator is split while it iterates. *)
Example C56_example : exists s, lsrun Nat.leb u2 linit = Some s /\ no_rollback u2
  /\ iterated s 0 4 [(1, 10); (2, 20); (4, 40); (5, 50)] /\ u2 = u0 ++ u2b /\ In (LL (LPushLo 5)) u2b.
Proof. exact lC56_ex. Qed.

(** C57: an iterator that has returned [None] has yielded every entry that was there all the time, ...
    (Missing, here and in the next three: iterators that go on with the next child of a node after one without
    a leaf; the model lets them start over.  See TmProps, where the second theorem is refuted for those.) *)
Theorem C57_iteration_complete_partial :
  forall (K V : Type) (leb : K -> K -> bool), tord leb ->
  forall (l : list (lsact K V)) s i b e y k v,
    lsrun leb l linit = Some s -> iterated s i b y -> finished s i e ->
    throughout leb (log (tc s)) b e k v -> In (k, v) y.
Proof. exact @lC57_complete. Qed.
Print Assumptions C57_iteration_complete_partial.

(** ... and whatever an iterator has yielded was there at some time after its creation. *)
Theorem C57_iteration_sound_partial :
  forall (K V : Type) (leb : K -> K -> bool), tord leb ->
  forall (l : list (lsact K V)) s i b y k v,
    lsrun leb l linit = Some s -> iterated s i b y -> In (k, v) y ->
    sometime leb (log (tc s)) b (length (log (tc s))) k v
    /\ forall e, finished s i e -> sometime leb (log (tc s)) b e k v.
Proof. exact @lC57_sound. Qed.
Print Assumptions C57_iteration_sound_partial.

(** A leaf is split while the iterator stands in it; 0, 5 are inserted and 3 is removed meanwhile. *)
Example C57_example : exists s, lsrun Nat.leb u2 linit = Some s
  /\ iterated s 0 4 [(1, 10); (2, 20); (4, 40); (5, 50)] /\ finished s 0 7
  /\ log (tc s) = [EIns 6 5 50; ERem 5 3; EIns 4 0 50; EIns 3 3 30; EIns 2 4 40; EIns 1 2 20; EIns 0 1 10].
Proof. exact u2_ok. Qed.

(** In terms of calls.  An entry whose insertion returned before the iterator was created is yielded, if
    every removal of its key had returned before that insertion began. *)
Theorem C57_iteration_sees_inserted_partial :
  forall (K V : Type) (leb : K -> K -> bool), tord leb ->
  forall (la lb lc : list (lsact K V)) sa sb s t k v i b e y,
    lsrun leb la linit = Some sa -> lsrun leb lb sa = Some sb -> lsrun leb lc sb = Some s ->
    all_returned sa (removal k) -> none_begins sa s (removal k) ->
    ops (tc sa) t = None -> call sb t (OIns k v) -> returned (tc sb) t (RIns true) -> its sb i = None ->
    iterated s i b y -> finished s i e -> In (k, v) y.
Proof. exact @lC57_inserted. Qed.
Print Assumptions C57_iteration_sees_inserted_partial.

Example C57_example_inserted : exists sb s, lsrun Nat.leb u0 l0 = Some sb /\ lsrun Nat.leb u2b sb = Some s
  /\ all_returned l0 (removal 4) /\ none_begins l0 s (removal 4)
  /\ ops (tc l0) 2 = None /\ call sb 2 (OIns 4 40) /\ returned (tc sb) 2 (RIns true) /\ its sb 0 = None
  /\ iterated s 0 4 [(1, 10); (2, 20); (4, 40); (5, 50)] /\ finished s 0 7.
Proof. exact ex_seen. Qed.

(** A key whose removal returned before the iterator was created is not yielded, if every insertion of
    it had returned before that removal began. *)
Theorem C57_iteration_skips_removed_partial :
  forall (K V : Type) (leb : K -> K -> bool), tord leb ->
  forall (la lb lc : list (lsact K V)) sa sb s t k c i b y w,
    lsrun leb la linit = Some sa -> lsrun leb lb sa = Some sb -> lsrun leb lc sb = Some s ->
    all_returned sa (insertion k) -> none_begins sa s (insertion k) ->
    ops (tc sa) t = None -> call sb t (ORem k c) -> returned (tc sb) t (RRem true) -> its sb i = None ->
    iterated s i b y -> ~ In (k, w) y.
Proof. exact @lC57_removed. Qed.
Print Assumptions C57_iteration_skips_removed_partial.

Example C57_example_removed : exists sa sb s, lsrun Nat.leb u0 l0 = Some sa /\ lsrun Nat.leb u2b sa = Some sb /\ lsrun Nat.leb u3c sb = Some s
  /\ all_returned sa (insertion 3) /\ none_begins sa s (insertion 3)
  /\ ops (tc sa) 5 = None /\ (exists c, call sb 5 (ORem 3 c)) /\ returned (tc sb) 5 (RRem true) /\ its sb 1 = None
  /\ iterated s 1 7 [(0, 50); (1, 10); (2, 20); (4, 40); (5, 50)].
Proof. exact ex_skipped. Qed.
