(** A second thread that has loaded the bucket array before the table is resized.

    Models the part of [reader_sync] (src/hash_table.rs L306-329) and [writer_sync] (L385-412) after the
    array was loaded while it had no linked array: neither [incremental_rehash_sync] nor
    [dedup_bucket_sync] is called, and what remains is to lock bucket [i] of that array and to search
    it.  Meanwhile another thread runs whole operations ([TuModel.ustep]).  If the bucket was killed,
    [lock_sync] returns [None] and the loop is entered again, which is not modelled. *)
From Coq Require Import NArith.
From stdpp Require Import prelude list numbers.
From Verif Require CapModel.
From Verif Require Import BucketModel TableModel MapModel TuModel.
Local Open Scope N_scope.

Section tl_model.
Context {K V : Type} `{EqDecision K}.
Implicit Types tb : table K V.

(** Where the loaded array is after a step of the other thread; [None] once it is unlinked.  A resize
    always changes the length of the current array, L1381-1385. *)
Definition follow (w : which) tb tb' : option which :=
  match w, old tb, old tb' with
  | Cur, None, None =>
    c ← cur tb; c' ← cur tb'; if alen c =? alen c' then Some Cur else None
  | Cur, None, Some _ => Some Old
  | Old, Some _, Some _ =>
    c ← cur tb; c' ← cur tb'; if alen c =? alen c' then Some Old else None
  | _, _, _ => None
  end.
(** The other thread's operations; the result also tells where the loaded array is. *)
Fixpoint meanwhile sg hash (w : which) tb (us : list (uop K V)) : option (table K V * which) :=
  match us with
  | [] => Some (tb, w)
  | u :: us' => r ← ustep sg hash tb u; w' ← follow w tb r.1; meanwhile sg hash w' r.1 us'
  end.
(** The array a thread loads now, and the bucket it is going to lock for [k]; [None] if there is a linked array. *)
Definition loaded hash tb (k : K) : option N :=
  match cur tb, old tb with
  | Some c, None => Some (CapModel.bucket_index (sz c) (hash k))
  | _, _ => None
  end.
(** [reader_sync] L320-325 and the search in hash_map.rs L1054-1059. *)
Definition late_read hash tb (l : loc) (k : K) : option (option (K * V)) :=
  b ← lock tb l; search_entry MAP b k (hash k).
(** [writer_sync] L405-411, and [insert_sync] in hash_map.rs L564-573. *)
Definition late_insert sg hash tb (l : loc) (k : K) (v : V) : option (table K V * option (K * V)) :=
  b ← lock tb l;
  p ← get_entry_ptr MAP b k (hash k);
  if is_valid p then Some (tb, Some (k, v))
  else
    q ← insert MAP sg b (hash k) (k, v);
    tb' ← set_loc tb l q.1.1;
    Some (release tb' q.2, None).
(** What the thread sees or does if it loaded the array after the history [us] and locks its bucket
    after the other thread's operations [us']. *)
Definition late {R} sg hash (cap : N) (us us' : list (uop K V)) (k : K) (f : table K V -> loc -> option R) : option R :=
  r ← run_u sg hash cap us; i ← loaded hash r.1 k; q ← meanwhile sg hash Cur r.1 us'; f q.1 (q.2, i).
End tl_model.
