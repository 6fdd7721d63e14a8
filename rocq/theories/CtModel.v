(** The hash table under concurrency: any number of threads, interleaved at the level of pointer
    loads and stores, compare-and-swaps, and acquisitions and releases of single bucket locks.

    Models src/hash_table.rs (reader_sync L302-325, writer_sync L383-409, optional_writer_sync
    L456-476, for_each_reader_sync L571-611, for_each_writer_sync L690-763, try_reserve_bucket
    L767-797, dedup_bucket_sync L867-897, relocate_bucket_sync L956-1003, start_incremental_rehash
    L1099-1126, end_incremental_rehash L1130-1158, incremental_rehash_sync L1217-1268, try_resize
    L1319-1429, try_shrink L1566-1581) and the locking functions of src/hash_table/bucket.rs L740-895.

    Simplifications, all of them stated here:
    - One atomic memory access or lock operation is one step; memory is sequentially consistent.
    - The contents of a bucket are a list of entries: the slot arrays, bitmaps and overflow links are
      the subject of BucketModel.v, and a critical section of one bucket is one step.  Acquiring and
      releasing the lock are separate steps.
    - Arrays are named by numbers and never freed: reclamation of an array that a thread can still see
      is prevented by the epochs of the [sdd] crate (assumed).
    - When to attempt a resize, and to which size, is left open: every size that [BucketArray::new]
      can produce, and dropping the table, may be chosen at every point where the code may call
      [try_resize].  (The decision itself is the subject of CapModel.v and TableModel.v.)
    - A TRY_LOCK call may give up at any lock ([CBusy]); an asynchronous call may be dropped while it
      waits for a lock ([CCancel]).
    - A user closure does not panic.
    - [saa::Lock] is assumed to be a readers-writer lock with poisoning. *)
From Coq Require Import NArith.
From stdpp Require Import prelude list numbers.
From Verif Require CapModel.
Local Open Scope N_scope.

Section conc.
Context {K V : Type} `{EqDecision K} (hash : K -> N).

(** ** Calls *)

(** Calls on one key: [OInsert] insert_sync, [OUpsert] upsert_sync, [OUpdate] update_sync, [ORemove]
    remove_if_sync, [ORead] read_sync, [OEntry] entry_sync followed by any use of the entry, [OGet]
    get_sync followed by any use of the entry. *)
Inductive op :=
| OInsert (k : K) (v : V) | OUpsert (k : K) (v : V) | OUpdate (k : K) (f : V -> V)
| ORemove (k : K) (p : V -> bool) | ORead (k : K)
| OEntry (k : K) (f : option V -> option V) | OGet (k : K) (f : V -> option V).
(** [KScan None] is iter_sync; [KScan (Some f)] is retain_sync/iter_mut_sync/clear_sync: [f] says what
    becomes of each entry. [KResize] is a call that only attempts a resize (reserve). *)
Inductive call := KOp (o : op) | KScan (f : option (K -> V -> option V)) | KResize.
Inductive res := RUnit | RBool (b : bool) | RVal (v : option V) | RBusy
| RSeen (es : list (K * V)) | RStopped (es : list (K * V)).

Definition okey (o : op) : K :=
  match o with
  | OInsert k _ | OUpsert k _ | OUpdate k _ | ORemove k _ | ORead k | OEntry k _ | OGet k _ => k
  end.
(** Does the call use writer_sync (which creates a table) rather than optional_writer_sync? *)
Definition creates (o : op) : bool :=
  match o with OInsert _ _ | OUpsert _ _ | OEntry _ _ => true | _ => false end.
(** The answer given if there is no table. *)
Definition absent (o : op) : res :=
  match o with OUpdate _ _ => RBool false | _ => RVal None end.

(** ** What a call does inside a locked bucket *)

Fixpoint find (k : K) (es : list (K * V)) : option V :=
  match es with
  | [] => None
  | e :: es => if decide (e.1 = k) then Some e.2 else find k es
  end.
(** Replaces the value of the entry with the key, or removes the entry. *)
Fixpoint change (k : K) (x : option V) (es : list (K * V)) : list (K * V) :=
  match es with
  | [] => []
  | e :: es => if decide (e.1 = k) then match x with Some v => (e.1, v) :: es | None => es end
               else e :: change k x es
  end.

(** hash_map.rs insert_sync L597-622, upsert_sync L647-671, update_sync L704-717, remove_if_sync
    L778-790, read_sync L942-953, entry_sync L344-364, get_sync L822-847. *)
Definition crit (o : op) (es : list (K * V)) : list (K * V) * res :=
  match o with
  | OInsert k v => match find k es with Some _ => (es, RBool false) | None => (es ++ [(k, v)], RBool true) end
  | OUpsert k v => match find k es with
                   | Some x => (change k (Some v) es, RVal (Some x)) | None => (es ++ [(k, v)], RVal None) end
  | OUpdate k f => match find k es with
                   | Some x => (change k (Some (f x)) es, RBool true) | None => (es, RBool false) end
  | ORemove k p => match find k es with
                   | Some x => if p x then (change k None es, RVal (Some x)) else (es, RVal None)
                   | None => (es, RVal None) end
  | ORead k => (es, RVal (find k es))
  | OEntry k f => match find k es with
                  | Some x => (change k (f (Some x)) es, RVal (Some x))
                  | None => (match f None with Some v => es ++ [(k, v)] | None => es end, RVal None) end
  | OGet k f => match find k es with
                | Some x => (change k (f x) es, RVal (Some x)) | None => (es, RVal None) end
  end.
(** A writer's visit of a bucket: hash_map.rs retain_sync L1158-1177. *)
Definition visit (f : option (K -> V -> option V)) (es : list (K * V)) : list (K * V) :=
  match f with
  | None => es
  | Some f => omap (fun e => match f e.1 e.2 with Some v => Some (e.1, v) | None => None end) es
  end.

(** ** Shared state *)

Inductive lock := LFree | LRead (ts : list nat) | LExcl (t : nat) | LDead.
Record bk := Bk { es : list (K * V); lk : lock }.
(** [BucketArray], bucket_array.rs L14-23: sizes, [linked_array], [rehashing] word. *)
Record meta := Meta { sz : CapModel.arr; link : option nat; word : N }.

(** ** Threads *)

(** A running call. [JScan f start prev seen]: [start_index] and [prev_len] of for_each_*, and the
    entries given to the closure so far. *)
Inductive job := JOp (o : op) | JScan (f : option (K -> V -> option V)) (start prev : N) (seen : list (K * V)) | JResize.
Definition init (c : call) : job :=
  match c with KOp o => JOp o | KScan f => JScan f 0 0 [] | KResize => JResize end.
(** Which relocation is going on: in incremental_rehash (with the claimed position), or in
    dedup_bucket (with the end of its range). *)
Inductive cont := CRehash (j : job) (prev : N) | CDedup (j : job) (hi : N).
(** Where to go on after try_resize: to locking the bucket, or to returning from the call. *)
Inductive kont := KAccess (j : job) (a : nat) (idx : N) | KRet (j : job) (r : res).

Inductive pc :=
| Idle
| Load (j : job)                                  (* about to load [bucket_array] *)
| Linked (j : job) (a : nat)                      (* about to load [a]'s linked array *)
| Relink (j : job) (a o : nat)                    (* the same once more, L1221 *)
| Claim (j : job) (a o : nat)                     (* start_incremental_rehash *)
| Rehash (j : job) (a o : nat) (prev i : N)       (* about to lock old bucket [i], L1228-1245 *)
| EndOk (j : job) (a o : nat) (prev : N)          (* end_incremental_rehash, success *)
| Detach (j : job) (a o : nat)                    (* linked_array.swap(null), L1258 *)
| EndFail (j : job) (a o : nat) (prev : N) (cx : bool) (* end_incremental_rehash, failure *)
| Dedup (j : job) (a o : nat) (i hi : N)          (* about to lock old bucket [i], L873-895 *)
| OldLocked (c : cont) (a o : nat) (i : N)        (* relocate_bucket_sync L963 *)
| TLock (c : cont) (a o : nat) (i lo hi n : N) (w : bool) (* about to lock target [n]; [w]: has waited *)
| TBack (c : cont) (a o : nat) (i m n : N)        (* gave up: unlocking targets [m..n], L976-979 *)
| TDrop (c : cont) (a o : nat) (i : N)            (* gave up: unlocking the old bucket *)
| TMove (c : cont) (a o : nat) (i lo hi : N)      (* relocate_bucket *)
| TUnlock (c : cont) (a o : nat) (i m hi : N)     (* unlocking targets [m..hi], L987-992 *)
| TKill (c : cont) (a o : nat) (i : N)            (* old_writer.kill(), L1001 *)
| Access (j : job) (a : nat) (idx : N)            (* about to lock the bucket *)
| Crit (j : job) (a : nat) (idx : N)              (* bucket locked *)
| Out (j : job) (a : nat) (idx : N) (r : res)     (* about to unlock it *)
| Done (j : job) (r : res)                        (* about to return *)
| RzCheck (k : kont) (s : nat)                    (* try_resize: about to load [bucket_array], L1325-1333 *)
| RzLink (k : kont) (s : nat)                     (* about to load the linked array, L1334 *)
| RzLock (k : kont) (s : nat)                     (* setting RESIZING, L1338-1351 *)
| RzIn (k : kont) (s : nat)                       (* L1356 *)
| RzDo (k : kont) (s : nat)                       (* deciding and acting, L1361-1428 *)
| DLock (k : kont) (s : nat) (n : N)              (* dropping the table: try_lock bucket [n], L1404-1413 *)
| DSwap (k : kont) (s : nat) (n : N)              (* all locked: bucket_array.swap(null), L1417 *)
| DUnlock (k : kont) (s : nat) (n hi : N) (ok : bool) (* writer_guard: unlock or kill [n..hi], L1394-1402 *)
| RzOut (k : kont)                                (* clearing RESIZING, L1352 *)
| Crash.                                          (* undefined behaviour or an arithmetic wrap *)

Inductive event := Call (t : nat) (c : call) | Ret (t : nat) (r : res) | Cxl (t : nat).

Record state := St {
  arr : nat -> meta; nxt : nat; bks : nat -> N -> bk; cur : option nat; rsz : bool;
  pcs : list pc; trace : list event }.

Definition set_pc t p s := St (arr s) (nxt s) (bks s) (cur s) (rsz s) (<[t := p]> (pcs s)) (trace s).
Definition set_bks b s := St (arr s) (nxt s) b (cur s) (rsz s) (pcs s) (trace s).
Definition set_bk x i b s :=
  set_bks (fun y j => if decide (y = x /\ j = i) then b else bks s y j) s.
Definition set_meta x m s :=
  St (fun y => if decide (y = x) then m else arr s y) (nxt s) (bks s) (cur s) (rsz s) (pcs s) (trace s).
Definition set_cur c s := St (arr s) (nxt s) (bks s) c (rsz s) (pcs s) (trace s).
Definition set_rsz b s := St (arr s) (nxt s) (bks s) (cur s) b (pcs s) (trace s).
Definition emit e s := St (arr s) (nxt s) (bks s) (cur s) (rsz s) (pcs s) (trace s ++ [e]).
(** A new array, made current: L1421-1428, and get_or_create_bucket_array L152-178. Its buckets are
    empty and unlocked because its name was never used. *)
Definition push z (l : option nat) s :=
  St (fun y => if decide (y = nxt s) then Meta z l 0 else arr s y) (S (nxt s)) (bks s) (Some (nxt s)) (rsz s)
     (pcs s) (trace s).

Definition alen s x : N := CapModel.array_len (sz (arr s x)).
Definition range s (x y : nat) (i : N) : N * N := CapModel.from_index_to_range (alen s x) (alen s y) i.

Definition jidx s (a : nat) (j : job) : N :=
  match j with
  | JOp o => CapModel.bucket_index (sz (arr s a)) (hash (okey o))
  | JScan _ start _ _ => start
  | JResize => 0
  end.
(** Does the call lock its bucket in shared mode? *)
Definition shared (j : job) : bool :=
  match j with JOp (ORead _) | JScan None _ _ _ => true | _ => false end.

Inductive choice := CGo | CCall (c : call) | CResize | CCap (c : N) | CDropTable | CBusy | CCancel | CRetry | CStop.

(** ** Pieces of the code *)

(** After a successful load of [bucket_array]; for_each_*_sync L580-590, L614. *)
Definition loaded s (j : job) (a : nat) : pc :=
  match j with
  | JOp _ => Linked j a
  | JScan f start prev seen =>
    let start := if (prev =? 0) || (prev =? alen s a) then start
                 else (CapModel.from_index_to_range prev (alen s a) start).1 in
    if start <? alen s a then Linked (JScan f start (alen s a) seen) a
    else if start =? alen s a then Done j (RSeen seen) else Load (JScan f start (alen s a) seen)
  | JResize => RzCheck (KRet j RUnit) a
  end.
Definition deduped s (j : job) (a : nat) : pc := Access j a (jidx s a j).
Definition dedup_from s (j : job) (a o : nat) : pc :=
  let r := range s a o (jidx s a j) in Dedup j a o r.1 r.2.
Definition next_rehash s (j : job) (a o : nat) (prev i : N) : pc :=
  if i <? N.min (prev + 32) (alen s o) then Rehash j a o prev i else EndOk j a o prev.
Definition next_dedup s (j : job) (a o : nat) (i hi : N) : pc :=
  if i <? hi then Dedup j a o i hi else deduped s j a.
Definition relocated s (c : cont) (a o : nat) (i : N) : pc :=
  match c with
  | CRehash j prev => next_rehash s j a o prev (i + 1)
  | CDedup j hi => next_dedup s j a o (i + 1) hi
  end.
Definition gave_up (c : cont) (a o : nat) (cx : bool) : pc :=
  match c with
  | CRehash j prev => EndFail j a o prev cx
  | CDedup j _ => if cx then Idle else Done j RBusy
  end.
Definition resume (k : kont) : pc :=
  match k with KAccess j a idx => Access j a idx | KRet j r => Done j r end.
Definition cont_job (c : cont) : job := match c with CRehash j _ | CDedup j _ => j end.

(** relocate_bucket L1009-1093: every entry goes to its bucket in the new array: the only target if
    the array does not grow, else [bucket_index] of its hash. *)
Definition target s (a o : nat) (lo : N) (e : K * V) : N :=
  if alen s a <=? alen s o then lo else CapModel.bucket_index (sz (arr s a)) (hash e.1).
Definition move s (a o : nat) (i lo : N) : nat -> N -> bk :=
  let moving := es (bks s o i) in
  fun y j =>
    if decide (y = o /\ j = i) then Bk [] (lk (bks s y j))
    else if decide (y = a) then Bk (es (bks s y j) ++ List.filter (fun e => target s a o lo e =? j) moving) (lk (bks s y j))
    else bks s y j.

(** Exclusive lock of bucket [i] of array [x]: the thread goes to [p] with the lock, to [q] if the
    bucket is killed.  [None] while the lock is held by others. *)
Definition lock_excl (t : nat) s x i (p q : pc) : option state :=
  if i <? alen s x then
    match lk (bks s x i) with
    | LFree => Some (set_pc t p (set_bk x i (Bk (es (bks s x i)) (LExcl t)) s))
    | LDead => Some (set_pc t q s)
    | _ => None
    end
  else Some (set_pc t Crash s).
Definition lock_shared (t : nat) s x i (p q : pc) : option state :=
  if i <? alen s x then
    match lk (bks s x i) with
    | LFree => Some (set_pc t p (set_bk x i (Bk (es (bks s x i)) (LRead [t])) s))
    | LRead ts => Some (set_pc t p (set_bk x i (Bk (es (bks s x i)) (LRead (t :: ts))) s))
    | LDead => Some (set_pc t q s)
    | LExcl _ => None
    end
  else Some (set_pc t Crash s).
Definition unlock (t : nat) (l : lock) : lock :=
  match l with
  | LRead ts => match List.filter (fun u => negb (u =? t)%nat) ts with [] => LFree | ts => LRead ts end
  | LExcl _ => LFree
  | l => l
  end.
Definition release (t : nat) x i s := set_bk x i (Bk (es (bks s x i)) (unlock t (lk (bks s x i)))) s.
(** Writer::kill, bucket.rs L790-823: the lock is poisoned; whatever the bucket contains is unreachable. *)
Definition kill x i s := set_bk x i (Bk [] LDead) s.

(** start_incremental_rehash: the claimed position and the new word. *)
Definition claim (len w : N) : option (N * N) :=
  if (len <=? w) || (N.land w 31 =? 31) then None else Some (N.ldiff w 31, w + 33).
(** end_incremental_rehash, failure: the new word. *)
Definition unclaim (w prev : N) : N :=
  if w <=? prev then w - 1 else N.lor prev (N.land w 31 - 1).

(** After unlocking the bucket of the call. *)
Definition unlocked s (j : job) (a : nat) (r : res) : pc :=
  match j with
  | JScan f start prev seen =>
    if start + 1 <? alen s a then Linked (JScan f (start + 1) prev seen) a else Done j (RSeen seen)
  | _ => Done j r
  end.

(** ** Steps *)

(** [step t c s] is a step of the thread [t]; [c] resolves what is left open. [None]: the thread
    cannot do this step now (in particular, it is waiting for a lock). *)
Definition step (t : nat) (c : choice) (s : state) : option state :=
  match pcs s !! t with
  | None => None
  | Some p =>
    match p, c with
    | Idle, CCall k => Some (set_pc t (Load (init k)) (emit (Call t k) s))
    | Load j, CGo =>
      match cur s with
      | Some a => Some (set_pc t (loaded s j a) s)
      | None =>
        match j with
        | JOp o => if creates o then None else Some (set_pc t (Done j (absent o)) s)
        | JScan _ _ _ seen => Some (set_pc t (Done j (RSeen seen)) s)
        | JResize => Some (set_pc t (Done j RUnit) s)
        end
      end
    | Load (JOp o), CCap n =>
      match cur s with
      | Some _ => None
      | None =>
        if creates o then
          match CapModel.arr_new n with
          | Some z => Some (set_pc t (Linked (JOp o) (nxt s)) (push z None s))
          | None => Some (set_pc t Crash s)
          end
        else None
      end
    | Linked j a, CGo =>
      match link (arr s a) with
      | Some o => Some (set_pc t (Relink j a o) s)
      | None => Some (set_pc t (deduped s j a) s)
      end
    | Relink j a o, CGo =>
      match link (arr s a) with
      | Some _ => Some (set_pc t (Claim j a o) s)
      | None => Some (set_pc t (dedup_from s j a o) s)
      end
    | Claim j a o, CGo =>
      match claim (alen s o) (word (arr s o)) with
      | Some (prev, w) =>
        Some (set_pc t (next_rehash s j a o prev prev) (set_meta o (Meta (sz (arr s o)) (link (arr s o)) w) s))
      | None => Some (set_pc t (dedup_from s j a o) s)
      end
    | Rehash j a o prev i, CGo => lock_excl t s o i (OldLocked (CRehash j prev) a o i) (next_rehash s j a o prev (i + 1))
    | Rehash j a o prev i, CBusy => Some (set_pc t (EndFail j a o prev false) s)
    | Rehash j a o prev i, CCancel => Some (set_pc t (EndFail j a o prev true) (emit (Cxl t) s))
    | EndOk j a o prev, CGo =>
      let w := word (arr s o) in
      if w =? 0 then Some (set_pc t Crash s) else
      let s' := set_meta o (Meta (sz (arr s o)) (link (arr s o)) (w - 1)) s in
      if (N.land (w - 1) 31 =? 0) && (alen s o <=? w - 1) then Some (set_pc t (Detach j a o) s')
      else Some (set_pc t (dedup_from s j a o) s')
    | Detach j a o, CGo =>
      Some (set_pc t (dedup_from s j a o) (set_meta a (Meta (sz (arr s a)) None (word (arr s a))) s))
    | EndFail j a o prev cx, CGo =>
      let w := word (arr s o) in
      if N.land w 31 =? 0 then Some (set_pc t Crash s) else
      Some (set_pc t (if cx then Idle else dedup_from s j a o)
        (set_meta o (Meta (sz (arr s o)) (link (arr s o)) (unclaim w prev)) s))
    | Dedup j a o i hi, CGo => lock_excl t s o i (OldLocked (CDedup j hi) a o i) (next_dedup s j a o (i + 1) hi)
    | Dedup j a o i hi, CBusy => Some (set_pc t (Done j RBusy) s)
    | Dedup j a o i hi, CCancel => Some (set_pc t Idle (emit (Cxl t) s))
    (* dedup_bucket_async L809-856: the array is no longer the current one, or has no linked array *)
    | Dedup j a o i hi, CRetry => Some (set_pc t (Load j) s)
    | Dedup j a o i hi, CStop =>
      match link (arr s a) with None => Some (set_pc t (deduped s j a) s) | Some _ => None end
    | OldLocked c a o i, CGo =>
      match es (bks s o i) with
      | [] => Some (set_pc t (TKill c a o i) s)
      | _ => let r := range s o a i in Some (set_pc t (TLock c a o i r.1 r.2 r.1 false) s)
      end
    | TLock c a o i lo hi n w, CGo =>
      if n <? hi then
        if n <? alen s a then
          match lk (bks s a n) with
          | LFree => Some (set_pc t (if n + 1 <? hi then TLock c a o i lo hi (n + 1) false else TMove c a o i lo hi)
                        (set_bk a n (Bk (es (bks s a n)) (LExcl t)) s))
          | LDead => Some (set_pc t Crash s)  (* unwrap_unchecked of None *)
          | _ => if w then None else Some (set_pc t (TLock c a o i lo hi n true) s)
          end
        else Some (set_pc t Crash s)
      else Some (set_pc t (TMove c a o i lo hi) s)
    | TLock c a o i lo hi n _, CBusy => Some (set_pc t (TBack c a o i lo n) s)
    (* relocate_bucket_async L915-930: dropped while waiting; old_writer is dropped, the target locks
       taken so far were forgotten *)
    | TLock c a o i lo hi n true, CCancel => Some (set_pc t (gave_up c a o true) (emit (Cxl t) (release t o i s)))
    | TBack c a o i m n, CGo =>
      if m <? n then Some (set_pc t (TBack c a o i (m + 1) n) (release t a m s))
      else Some (set_pc t (TDrop c a o i) s)
    | TDrop c a o i, CGo => Some (set_pc t (gave_up c a o false) (release t o i s))
    | TMove c a o i lo hi, CGo => Some (set_pc t (TUnlock c a o i lo hi) (set_bks (move s a o i lo) s))
    | TUnlock c a o i m hi, CGo =>
      if m <? hi then Some (set_pc t (TUnlock c a o i (m + 1) hi) (release t a m s))
      else Some (set_pc t (TKill c a o i) s)
    | TKill c a o i, CGo => Some (set_pc t (relocated s c a o i) (kill o i s))
    | Access j a idx, CGo =>
      if shared j then lock_shared t s a idx (Crit j a idx) (Load j)
      else lock_excl t s a idx (Crit j a idx) (Load j)
    | Access j a idx, CResize => Some (set_pc t (RzCheck (KAccess j a idx) a) s)
    | Access j a idx, CBusy => Some (set_pc t (Done j RBusy) s)
    | Access j a idx, CCancel => Some (set_pc t Idle (emit (Cxl t) s))
    | Crit j a idx, CGo =>
      let b := bks s a idx in
      match j with
      | JOp o => Some (set_pc t (Out j a idx (crit o (es b)).2) (set_bk a idx (Bk (crit o (es b)).1 (lk b)) s))
      | JScan f start prev seen =>
        Some (set_pc t (Out (JScan f start prev (seen ++ es b)) a idx RUnit)
          (set_bk a idx (Bk (visit f (es b)) (lk b)) s))
      | JResize => Some (set_pc t Crash s)
      end
    | Out j a idx r, CGo => Some (set_pc t (unlocked s j a r) (release t a idx s))
    | Out (JScan f start prev seen) a idx r, CStop =>
      Some (set_pc t (Done (JScan f start prev seen) (RStopped seen)) (release t a idx s))
    | Done j r, CGo => Some (set_pc t Idle (emit (Ret t r) s))
    | Done j r, CResize =>
      match cur s with Some a => Some (set_pc t (RzCheck (KRet j r) a) s) | None => None end
    | RzCheck k x, CGo =>
      match cur s with
      | Some c => if decide (c = x) then Some (set_pc t (RzLink k x) s) else Some (set_pc t (resume k) s)
      | None => Some (set_pc t (resume k) s)
      end
    | RzLink k x, CGo =>
      match link (arr s x) with
      | None => Some (set_pc t (RzLock k x) s)
      | Some _ => Some (set_pc t (resume k) s)
      end
    | RzLock k x, CGo => if rsz s then Some (set_pc t (resume k) s) else Some (set_pc t (RzIn k x) (set_rsz true s))
    | RzIn k x, CGo => if decide (cur s = Some x) then Some (set_pc t (RzDo k x) s) else Some (set_pc t (RzOut k) s)
    | RzDo k x, CGo => Some (set_pc t (RzOut k) s)
    | RzDo k x, CCap n =>
      match CapModel.arr_new n with
      | Some z => Some (set_pc t (RzOut k) (push z (cur s) s))
      | None => Some (set_pc t Crash s)
      end
    | RzDo k x, CDropTable => Some (set_pc t (DLock k x 0) s)
    | DLock k x n, CGo =>
      if n <? alen s x then
        match lk (bks s x n), es (bks s x n) with
        | LFree, [] => Some (set_pc t (DLock k x (n + 1)) (set_bk x n (Bk [] (LExcl t)) s))
        | _, _ => Some (set_pc t (DUnlock k x 0 n false) s)
        end
      else Some (set_pc t (DSwap k x n) s)
    | DSwap k x n, CGo => Some (set_pc t (DUnlock k x 0 n true) (set_cur None s))
    | DUnlock k x n hi ok, CGo =>
      if n <? hi then
        Some (set_pc t (DUnlock k x (n + 1) hi ok) (if ok then kill x n s else release t x n s))
      else Some (set_pc t (RzOut k) s)
    | RzOut k, CGo => Some (set_pc t (resume k) (set_rsz false s))
    | _, _ => None
    end
  end.

(** A schedule: which thread steps, and how. *)
Fixpoint run (l : list (nat * choice)) (s : state) : option state :=
  match l with
  | [] => Some s
  | (t, c) :: l => match step t c s with Some s => run l s | None => None end
  end.

(** [n] threads and an empty container without a table. *)
Definition start (n : nat) : state :=
  St (fun _ => Meta (CapModel.Build_arr 0 0 0) None 0) 0 (fun _ _ => Bk [] LFree) None false (replicate n Idle) [].
End conc.

Arguments op : clear implicits.
Arguments call : clear implicits.
Arguments res : clear implicits.
Arguments event : clear implicits.
Arguments bk : clear implicits.
Arguments job : clear implicits.
Arguments pc : clear implicits.
Arguments state : clear implicits.
Arguments choice : clear implicits.
Arguments cont : clear implicits.
Arguments kont : clear implicits.
