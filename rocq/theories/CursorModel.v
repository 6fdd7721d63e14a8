(** Cursor iteration over a HashMap: [begin_sync], [next_sync], [remove_and_sync].

    Models hash_map.rs L431-433, L487-510, L2054-2145 and hash_table.rs L1610-1646, one thread.
    An [OccupiedEntry] is the locked bucket's place and the entry pointer. *)
From Coq Require Import NArith.
From stdpp Require Import prelude list numbers.
From Verif Require CapModel.
From Verif Require Import BucketModel TableModel MapModel.
Local Open Scope N_scope.

Section cursor_model.
Context {K V : Type} `{EqDecision K}.
Implicit Types tb : table K V.

Definition cursor : Type := loc * eptr.

(** [for_each_writer_sync] L700-763 with the closure that stops at the first occupied bucket
    (hash_table.rs L1634-1643; hash_map.rs L493-508 with the predicate [true]). *)
Fixpoint seek sg hash tb (is : list N) : option (table K V * option cursor) :=
  match is with
  | [] => Some (tb, None)
  | i :: is' =>
    tb' ← prepare MAP sg hash tb i;
    b ← lock tb' (Cur, i);
    match move_to_next MAP b null_ptr with
    | (p, true) => Some (tb', Some ((Cur, i), p))
    | (_, false) => seek sg hash tb' is'
    end
  end.
(** L710-723: where to start, if the array has been replaced since [start] was computed. *)
Definition seek_from sg hash tb (start expected_len : N) : option (table K V * option cursor) :=
  match cur tb with
  | None => Some (tb, None)
  | Some c =>
    let s := if (expected_len =? 0) || (expected_len =? alen c) then start
             else (CapModel.from_index_to_range expected_len (alen c) start).1 in
    seek sg hash tb (range s (alen c))
  end.
Definition cursor_begin sg hash tb : option (table K V * option cursor) := seek_from sg hash tb 0 0.

(** [LockedBucket::next_sync] hash_table.rs L1610-1646. *)
Definition cursor_next sg hash tb (q : cursor) : option (table K V * option cursor) :=
  b ← lock tb q.1;
  match move_to_next MAP b q.2 with
  | (p, true) => Some (tb, Some (q.1, p))
  | (_, false) =>
    a ← loc_array tb q.1.1;
    tb' ← (if (blen b =? 0)%nat then locked_try_shrink MAP tb q.1 else Some tb);
    if q.1.2 + 1 =? alen a then Some (tb', None)
    else seek_from sg hash tb' (q.1.2 + 1) (alen a)
  end.
(** [remove_and_sync] hash_map.rs L2054-2072. *)
Definition cursor_remove sg hash tb (q : cursor) : option (table K V * option cursor * (K * V)) :=
  b ← lock tb q.1;
  r ← remove MAP b q.2;
  tb' ← set_loc tb q.1 r.1.1;
  z ← cursor_next sg hash tb' (q.1, r.1.2);
  Some (z.1, z.2, r.2).

(** A caller that walks the map, keeping or removing each entry it sees.  Result: table, the entries
    seen in order, the ones removed, and whether the end was reached within [fuel] entries. *)
Fixpoint walk {S} (fuel : nat) sg hash (keep : S -> K * V -> S * bool) (s : S) tb (q : option cursor)
  : option (table K V * list (K * V) * list (K * V) * bool) :=
  match q with
  | None => Some (tb, [], [], true)
  | Some q =>
    match fuel with
    | O => Some (tb, [], [], false)
    | Datatypes.S n =>
      b ← lock tb q.1;
      e ← get b q.2;
      if (keep s e).2 then
        z ← cursor_next sg hash tb q;
        w ← walk n sg hash keep (keep s e).1 z.1 z.2;
        Some (w.1.1.1, e :: w.1.1.2, w.1.2, w.2)
      else
        z ← cursor_remove sg hash tb q;
        w ← walk n sg hash keep (keep s e).1 z.1.1 z.1.2;
        Some (w.1.1.1, e :: w.1.1.2, z.2 :: w.1.2, w.2)
    end
  end.
Definition walk_map {S} (fuel : nat) sg hash (keep : S -> K * V -> S * bool) (s : S) tb
  : option (table K V * list (K * V) * list (K * V) * bool) :=
  r ← cursor_begin sg hash tb;
  walk fuel sg hash keep s r.1 r.2.
End cursor_model.
