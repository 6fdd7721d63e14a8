(** User code that panics: HashMap operations in which [Hash], [Eq] or a closure unwinds, one thread.

    Models, on top of TableModel.v and MapModel.v, the states src/hash_table.rs and src/hash_map.rs
    leave behind when the stack is unwound:
    - [Hash] is called on stored keys by [relocate_bucket] when the table grows (L1029 and L1081).  A
      call that unwinds leaves [relocate_bucket]; [unlock] (L976-981) releases the target buckets, the
      [Writer] of the old bucket is dropped, so the bucket is unlocked and not killed, and the
      [rehashing_guard] (L1217-1219) takes back the claimed range.
    - [n : nat] is the number of calls of [Hash] on stored keys that return before one unwinds; the
      second component of a result is the number left, [None] if the stack is being unwound.
    - [Hash] of the argument is called before the table is touched (hash_map.rs L566, L680, L934, ...):
      a panic there changes nothing and is not modelled.
    - Destructors do not panic; allocation failure aborts. *)
From Coq Require Import NArith.
From stdpp Require Import prelude list numbers.
From Verif Require CapModel.
From Verif Require Import BucketModel TableModel MapModel.
Local Open Scope N_scope.

Section tu_model.
Context {K V : Type} `{EqDecision K}.
Implicit Types (tb : table K V) (a c o : barray K V) (b : bucket K V).

(** hash_table.rs L1024-1060 without pre-allocation, [direct_loop]: [Hash] is called for every entry
    unless the array shrinks or keeps its size. *)
Fixpoint direct_loop_u (fuel : nat) t sg hash (keep : bool) (target : N) a b (p : eptr) (acc : list (K * V)) (n : nat)
  : option (barray K V * bucket K V * list (K * V) * option nat) :=
  match fuel with
  | O => None
  | S f =>
    match move_to_next t b p with
    | (p', false) => Some (a, b, acc, Some n)
    | (p', true) =>
      if negb keep && (n =? 0)%nat then Some (a, b, acc, None)
      else
        oh ← entry_target hash keep a target b p';
        r ← move_entry t sg a (target + oh.1) oh.2 b p';
        direct_loop_u f t sg hash keep target r.1.1 r.1.2 p' (acc ++ r.2) (if keep then n else pred n)
    end
  end.

(** L1024-1060 with pre-allocation, [collect_loop]. *)
Fixpoint collect_loop_u (fuel : nat) t hash (keep : bool) (target : N) a b (p : eptr)
  (dist : list nat) (hash_data : list N) (position : nat) (n : nat)
  : option (list nat * list N * option nat) :=
  match fuel with
  | O => None
  | S f =>
    match move_to_next t b p with
    | (p', false) => Some (dist, hash_data, Some n)
    | (p', true) =>
      if negb keep && (n =? 0)%nat then Some (dist, hash_data, None)
      else
        oh ← entry_target hash keep a target b p';
        collect_loop_u f t hash keep target a b p' (dist_add dist (N.to_nat oh.1))
          (if (position =? BUCKET_LEN)%nat then hash_data else <[position := oh.2]> hash_data)
          (if (position =? BUCKET_LEN)%nat then position else S position)
          (if keep then n else pred n)
    end
  end.

(** L1074-1093, [second_loop]: [Hash] is called again once the 32 remembered hashes are used up. *)
Fixpoint second_loop_u (fuel : nat) t sg hash (keep : bool) (target : N) a b (p : eptr)
  (hash_data : list N) (position : nat) (acc : list (K * V)) (n : nat)
  : option (barray K V * bucket K V * list (K * V) * option nat) :=
  match fuel with
  | O => None
  | S f =>
    match move_to_next t b p with
    | (p', false) => Some (a, b, acc, Some n)
    | (p', true) =>
      if negb keep && (position =? BUCKET_LEN)%nat && (n =? 0)%nat then Some (a, b, acc, None)
      else
        h ← (if keep then entry_byte b p'
             else if (position =? BUCKET_LEN)%nat then e ← get b p'; Some (hash e.1)
             else hash_data !! position);
        let i := if keep then target else CapModel.bucket_index (sz a) h in
        r ← move_entry t sg a i h b p';
        second_loop_u f t sg hash keep target r.1.1 r.1.2 p' hash_data
          (if keep then position else if (position =? BUCKET_LEN)%nat then position else S position)
          (acc ++ r.2) (if negb keep && (position =? BUCKET_LEN)%nat then pred n else n)
    end
  end.

(** [relocate_bucket] L1003-1094. *)
Definition relocate_bucket_u t sg hash a (target old_len : N) b (n : nat)
  : option (barray K V * bucket K V * list (K * V) * option nat) :=
  let keep := alen a <=? old_len in
  let pre_allocate := (alen a <? old_len) || (BUCKET_LEN <? blen b)%nat in
  let fuel := S (blen b) in
  if pre_allocate then
    dh ← collect_loop_u fuel t hash keep target a b null_ptr (replicate 8 0%nat) (replicate BUCKET_LEN 0) 0 n;
    match dh.2 with
    | None => Some (a, b, [], None)
    | Some n' =>
      a' ← reserve_all a target dh.1.1;
      second_loop_u fuel t sg hash keep target a' b null_ptr dh.1.2 0 [] n'
    end
  else direct_loop_u fuel t sg hash keep target a b null_ptr [] n.

(** [relocate_bucket_sync] L948-997: unwinding, the old bucket is unlocked with what is left in it. *)
Definition relocate_cell_u t sg hash c o (i : N) (n : nat)
  : option (barray K V * barray K V * list (K * V) * option nat) :=
  x ← cell_at o i;
  if dead x then Some (c, o, [], Some n)
  else if (blen (bkt x) =? 0)%nat then
    k ← kill t (bkt x);
    Some (c, set_cell o i (Cell k.1 true), k.2, Some n)
  else
    let r := CapModel.from_index_to_range (alen o) (alen c) i in
    q ← relocate_bucket_u t sg hash c r.1 (alen o) (bkt x) n;
    match q.2 with
    | None => Some (q.1.1.1, set_cell o i (Cell q.1.1.2 false), q.1.2, None)
    | Some n' =>
      k ← kill t q.1.1.2;
      Some (q.1.1.1, set_cell o i (Cell k.1 true), q.1.2 ++ k.2, Some n')
    end.
Fixpoint relocate_cells_u t sg hash c o (is : list N) (acc : list (K * V)) (n : nat)
  : option (barray K V * barray K V * list (K * V) * option nat) :=
  match is with
  | [] => Some (c, o, acc, Some n)
  | i :: is' =>
    r ← relocate_cell_u t sg hash c o i n;
    match r.2 with
    | None => Some (r.1.1.1, r.1.1.2, acc ++ r.1.2, None)
    | Some n' => relocate_cells_u t sg hash r.1.1.1 r.1.1.2 is' (acc ++ r.1.2) n'
    end
  end.

(** [incremental_rehash_sync] L1209-1256; the guard runs [end_incremental_rehash] L1127-1154 with
    [success = false]: the counter, raised by 33 in [start_incremental_rehash], becomes
    [prev | (refs - 1)]. *)
Definition take_back (current base : N) : N :=
  if current <=? base then current - 1 else N.lor base (N.land current 31 - 1).
Definition incremental_rehash_u t sg hash tb (n : nat) : option (table K V * option nat) :=
  match cur tb, old tb with
  | Some c, Some o =>
    let current := cleared o in
    if (alen o <=? current) || (N.land current 31 =? 31) then Some (tb, Some n)
    else
      let base := N.ldiff current 31 in
      r ← relocate_cells_u t sg hash c o (range base (N.min (base + 32) (alen o))) [] n;
      match r.2 with
      | None =>
        let o' := BArray (sz r.1.1.2) (bks r.1.1.2) (take_back (current + 33) base) in
        Some (release (with_arrays tb (Some r.1.1.1) (Some o')) r.1.2, None)
      | Some n' =>
        let metadata := current + 33 - 1 in
        let o' := BArray (sz r.1.1.2) (bks r.1.1.2) metadata in
        let tb' := release (with_arrays tb (Some r.1.1.1) (Some o')) r.1.2 in
        if (N.land metadata 31 =? 0) && (alen o <=? metadata) then
          tb'' ← defer_reclaim t (with_old tb' None) o'; Some (tb'', Some n')
        else Some (tb', Some n')
      end
  | _, _ => Some (tb, Some n)
  end.

(** The steps before every access to bucket [i], [prepare]: L320-323, L394-397, L466-469, L590-593,
    L723-726, with [dedup_bucket_sync] L859-888. *)
Definition prepare_u t sg hash tb (i : N) (n : nat) : option (table K V * option nat) :=
  r ← incremental_rehash_u t sg hash tb n;
  match r.2 with
  | None => Some r
  | Some n' =>
    match cur r.1, old r.1 with
    | Some c, Some o =>
      let w := CapModel.from_index_to_range (alen c) (alen o) i in
      q ← relocate_cells_u t sg hash c o (range w.1 w.2) [] n';
      Some (release (with_arrays r.1 (Some q.1.1.1) (Some q.1.1.2)) q.1.2, q.2)
    | _, _ => Some r
    end
  end.

(** [for_each_reader_sync] L572-612: readers change nothing else. *)
Fixpoint reader_loop_u t sg hash tb (is : list N) (n : nat) : option (table K V * option nat) :=
  match is with
  | [] => Some (tb, Some n)
  | i :: is' =>
    r ← prepare_u t sg hash tb i n;
    match r.2 with None => Some r | Some n' => reader_loop_u t sg hash r.1 is' n' end
  end.

(** How a mutable iteration ends. *)
Inductive finish := Through | Stopped | Unwound.
(** [for_each_writer_sync] L700-763 up to L753, [writer_loop]. *)
Fixpoint writer_loop_u {S} t sg hash tb (is : list N)
  (g : S -> bucket K V -> option (bucket K V * S * list (K * V) * bool)) (s : S) (out : list (K * V)) (n : nat)
  : option (table K V * S * list (K * V) * finish) :=
  match is with
  | [] => Some (tb, s, out, Through)
  | i :: is' =>
    q ← prepare_u t sg hash tb i n;
    match q.2 with
    | None => Some (q.1, s, out, Unwound)
    | Some n' =>
      b ← lock q.1 (Cur, i);
      r ← g s b;
      tb'' ← set_loc q.1 (Cur, i) r.1.1.1;
      if r.2 : bool then writer_loop_u t sg hash tb'' is' g r.1.1.2 (out ++ r.1.2) n'
      else Some (tb'', r.1.1.2, out ++ r.1.2, Stopped)
    end
  end.

(** [retain_sync], hash_map.rs L1338-1348, with a predicate that may unwind: it returns the value it
    leaves and [None] if it unwinds.  The entry it was called on stays, the loop is left at once, and
    [try_shrink] (hash_table.rs L752-762) is not reached.  The result tells whether it unwound. *)
Definition retain_u sg hash tb (pred : K * V -> V * option bool) (n : nat) : option (table K V * bool) :=
  match cur tb with
  | None => Some (tb, false)
  | Some c =>
    r ← writer_loop_u MAP sg hash tb (range 0 (alen c))
          (fun s b => mut_loop (Datatypes.S (blen b)) MAP
             (fun (s : unit) e => match (pred e).2 with
                | Some keep => Verdict _ s (pred e).1 keep true
                | None => Verdict _ s (pred e).1 true false
                end) s b null_ptr []) tt [] n;
    match r.2 with
    | Through =>
      tb' ← (match r.1.2 with [] => Some r.1.1.1 | _ => try_shrink MAP r.1.1.1 0 end);
      Some (release tb' r.1.2, false)
    | _ => Some (release r.1.1.1 r.1.2, true)
    end
  end.

(** ** Operations that may unwind *)
Inductive uop :=
| UDone (o : mop K V)                              (* nothing panics *)
| UHash (n : nat) (o : mop K V)                    (* the (n+1)-st [Hash] of a stored key unwinds *)
| UEq (o : mop K V)                                (* comparing the key with a stored one unwinds *)
| UUpdate (k : K) (f : K -> V -> V * option V)     (* [None]: the updater unwinds *)
| URemoveIf (k : K) (cond : V -> V * option bool)  (* [None]: the condition unwinds *)
| UEntry (k : K) (f : V -> V)                      (* a closure run on the entry unwinds *)
| URetain (n : nat) (pred : K * V -> V * option bool).  (* as [UHash]; [None]: the predicate unwinds *)

(** Everything in the operation that can call [Hash] on stored keys, if it does not change entries. *)
Definition access_u sg hash tb (o : mop K V) (n : nat) : option (table K V * option nat) :=
  match o with
  | MInsert k _ | MUpsert k _ | MEntry k _ =>
    tb0 ← create tb;
    c0 ← cur tb0;
    prepare_u MAP sg hash tb0 (CapModel.bucket_index (sz c0) (hash k)) n
  | MUpdate k _ | MRemoveIf k _ | MRead k =>
    match cur tb with
    | None => Some (tb, Some n)
    | Some c => prepare_u MAP sg hash tb (CapModel.bucket_index (sz c) (hash k)) n
    end
  | MLen | MIsEmpty => incremental_rehash_u MAP sg hash tb n
  | MScan =>
    match cur tb with
    | None => Some (tb, Some n)
    | Some c => reader_loop_u MAP sg hash tb (range 0 (alen c)) n
    end
  | _ => Some (tb, Some n)
  end.

(** [None] for the result: the operation unwound. *)
Definition completed (r : option (table K V * mout K V)) : option (table K V * option (mout K V)) :=
  q ← r; Some (q.1, Some q.2).
Definition ustep sg hash tb (u : uop) : option (table K V * option (mout K V)) :=
  match u with
  | UDone o => completed (mstep sg hash tb o)
  | UHash n (MRetain p) =>
    r ← retain_u sg hash tb (fun e => ((p e).1, Some (p e).2)) n;
    Some (r.1, if r.2 : bool then None else Some OUnit)
  | UHash n MClear =>
    r ← retain_u sg hash tb (fun e => (e.2, Some false)) n;
    Some (r.1, if r.2 : bool then None else Some OUnit)
  | UHash n o =>
    r ← access_u sg hash tb o n;
    match r.2 with None => Some (r.1, None) | Some _ => completed (mstep sg hash tb o) end
  | UEq o =>
    (* The search comes right after the bucket has been locked: hash_map.rs L567, L682, L936, ... *)
    match o with
    | MInsert k _ | MUpsert k _ | MEntry k _ => r ← writer MAP sg hash tb (hash k); Some (r.1, None)
    | MUpdate k _ | MRemoveIf k _ | MRead k => r ← optional_writer MAP sg hash tb (hash k); Some (r.1, None)
    | _ => completed (mstep sg hash tb o)
    end
  | UUpdate k f =>
    r ← update_sync MAP sg hash tb k f;
    Some (r.1, match r.2 with None => Some (OValue None) | Some None => None | Some (Some v) => Some (OValue (Some v)) end)
  | URemoveIf k cond =>
    (* The condition is called on the value in place; if it unwinds, [remove] is not reached. *)
    w ← update_sync MAP sg hash tb k (fun _ v => ((cond v).1, (cond v).2));
    match w.2 with
    | Some None => Some (w.1, None)
    | _ => completed (mstep sg hash tb (MRemoveIf k (fun v => ((cond v).1, match (cond v).2 with Some x => x | None => false end))))
    end
  | UEntry k f =>
    r ← entry_sync sg hash tb k (option_map f);
    Some (r.1, None)
  | URetain n p =>
    r ← retain_u sg hash tb p n;
    Some (r.1, if r.2 : bool then None else Some OUnit)
  end.
Fixpoint urun sg hash tb (us : list uop) : option (table K V * list (option (mout K V))) :=
  match us with
  | [] => Some (tb, [])
  | u :: us' => r ← ustep sg hash tb u; q ← urun sg hash r.1 us'; Some (q.1, r.2 :: q.2)
  end.
(** A map created with [with_capacity(capacity)] after a history. *)
Definition run_u sg hash (capacity : N) (us : list uop) : option (table K V * list (option (mout K V))) :=
  tb ← new_map capacity; urun sg hash tb us.
End tu_model.
Arguments uop : clear implicits.
