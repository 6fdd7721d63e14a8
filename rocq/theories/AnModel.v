(** HashMap and HashIndex: [any_sync] and the use of the entry it returns, one thread. *)
From Coq Require Import NArith.
From stdpp Require Import prelude list numbers.
From Verif Require Import BucketModel TableModel IndexModel.
Local Open Scope N_scope.

Section any_model.
Context {K V : Type} `{EqDecision K} {S : Type}.
Implicit Types tb : table K V.

(** The loop over the entries of one bucket, hash_map.rs L494-506 and hash_index.rs
    L474-488; [t] is the kind of table.  [s] is the state of the predicate, which is
    an [FnMut]. *)
Fixpoint find_loop (t : kind) (fuel : nat) (pred : S -> K * V -> S * bool) (s : S) (b : bucket K V) (p : eptr) : option (S * option eptr) :=
  match fuel with
  | O => None
  | Datatypes.S n =>
    match move_to_next t b p with
    | (_, false) => Some (s, None)
    | (p', true) =>
      e ← get b p';
      if (pred s e).2 then Some ((pred s e).1, Some p') else find_loop t n pred (pred s e).1 b p'
    end
  end.
(** [for_each_writer_sync] hash_table.rs L700-763 over the buckets [is] with that closure; it removes nothing, so
    L755-762 do not apply.  The result is the place of the entry, whose bucket stays locked. *)
Fixpoint any_seek (t : kind) sg hash tb (is : list N) (pred : S -> K * V -> S * bool) (s : S) : option (table K V * S * option (loc * eptr)) :=
  match is with
  | [] => Some (tb, s, None)
  | i :: is' =>
    tb' ← prepare t sg hash tb i;
    b ← lock tb' (Cur, i);
    r ← find_loop t (Datatypes.S (blen b)) pred s b null_ptr;
    match r.2 with
    | Some p => Some (tb', r.1, Some ((Cur, i), p))
    | None => any_seek t sg hash tb' is' pred r.1
    end
  end.
(** [any_sync] hash_map.rs L487-510; hash_index.rs L472-490. *)
Definition any_sync (t : kind) sg hash tb (pred : S -> K * V -> S * bool) (s : S) : option (table K V * S * option (loc * eptr)) :=
  match cur tb with
  | None => Some (tb, s, None)
  | Some c => any_seek t sg hash tb (range 0 (alen c)) pred s
  end.
(** Followed by what the caller does with the [OccupiedEntry]: [None] is [remove_entry] L1888-1890, [Some v] is
    [insert] L1957-1959.  The result is the state of the predicate and the entry found. *)
Definition any_then sg hash tb (pred : S -> K * V -> S * bool) (s : S) (use : K * V -> option V)
  : option (table K V * S * option (K * V)) :=
  r ← any_sync MAP sg hash tb pred s;
  match r.2 with
  | None => Some (r.1.1, r.1.2, None)
  | Some (l, p) =>
    b ← lock r.1.1 l;
    e ← get b p;
    match use e with
    | None => z ← locked_remove MAP r.1.1 l p; Some (z.1, r.1.2, Some z.2)
    | Some v => q ← replace_value b p v; tb' ← set_loc r.1.1 l q.1; Some (tb', r.1.2, Some e)
    end
  end.
(** HashIndex: [any_sync] hash_index.rs L467-491, which first reclaims memory, followed by what the caller does
    with the [OccupiedEntry] as in IndexModel.v. *)
Definition iany_then (e : env) hash tb (pred : S -> K * V -> S * bool) (s : S) (use : K * V -> act V)
  : option (table K V * S * option (K * V)) :=
  tb ← reclaim_memory e tb;
  r ← any_sync INDEX (same_gen e) hash tb pred s;
  match r.2 with
  | None => Some (r.1.1, r.1.2, None)
  | Some (l, p) =>
    b ← lock r.1.1 l;
    x ← get b p;
    tb' ← occupied e r.1.1 l p (use x);
    Some (tb', r.1.2, Some x)
  end.
End any_model.
