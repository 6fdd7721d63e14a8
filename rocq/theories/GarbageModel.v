(** The life of the bucket arrays of a HashIndex: publication, detachment, the garbage chain and its
    epoch check, one shared memory access per step, any number of threads.
    Modelled: hash_index.rs L1184-1218 ([reclaim_memory], [dealloc_garbage]), L1375-1389
    ([defer_reclaim]); of hash_table.rs the array pointers of [get_or_create_bucket_array] L125-148,
    [peek_entry] L224-261, [start_incremental_rehash] and [end_incremental_rehash] L1095-1152,
    [incremental_rehash_sync] L1215-1256, [try_resize] L1307-1429.
    Not modelled: the entries.  Whether a table is empty, or is to be resized, is a choice of the
    thread; moving the buckets of an array is one step.
    The epochs of the crate sdd are an unbounded number; a guard announces the epoch in which it was
    created and the epoch advances only if all announced epochs are the current one. *)
From Coq Require Import NArith.
From stdpp Require Import prelude list numbers.
Local Open Scope N_scope.

(** An array is identified by its address, an index in [heap]; memory that was freed may be used
    again for a new array, as by any allocator. *)
Definition addr := nat.
(** [BucketArray], bucket_array.rs L14-23; [meta] is [num_cleared_buckets], [killed] says that the
    locks of all the buckets are poisoned, [locked] that they are held to drop the table. *)
Record arr := Arr { live : bool; len : N; linked : option addr; meta : N; locked : bool; killed : bool }.

(** The next accesses of a thread. *)
Inductive instr :=
| IPin | IUnpin                                (* creation and end of a [Guard] *)
| IReclaim                                     (* [reclaim_memory] *)
| ILoadHead | ILoadEpoch (h : addr) | ICheck (h : addr) (e : N) | ICas (h : addr) | IFree (h : option addr)
| IPeek | ILinked (a : addr) | IRehash (a o : addr) | ISearch (a : addr) | IReload (a : addr)
| IMove (a o : addr) (prev : N) | IEnd (a o : addr) (prev : N) (ok : bool) | IUnlink (a : addr)
| IDefer (x : addr) | IEpoch (x : addr) | IStore (x : addr) (e : N) | IPush (x : addr) | ILink (x p : addr)
| ICreate (n : addr) (l : N) | IResize (n : addr) (l : N) | IDrop | IKill (x : addr).
(** [refs]: the arrays a reference to which was obtained under the guard. *)
Record thread := Thread { code : list instr; depth : nat; pin : N; refs : list addr }.
Record state := State { heap : list arr; cur : option addr; chain : option addr; gepoch : option N;
  epoch : N; threads : list thread }.

Definition with_heap st h := State h (cur st) (chain st) (gepoch st) (epoch st) (threads st).
Definition with_cur st c := State (heap st) c (chain st) (gepoch st) (epoch st) (threads st).
Definition with_chain st c := State (heap st) (cur st) c (gepoch st) (epoch st) (threads st).
Definition with_gepoch st e := State (heap st) (cur st) (chain st) e (epoch st) (threads st).
Definition with_epoch st e := State (heap st) (cur st) (chain st) (gepoch st) e (threads st).
Definition with_threads st l := State (heap st) (cur st) (chain st) (gepoch st) (epoch st) l.
Definition upd_arr st (a : addr) (f : arr -> arr) : option state :=
  x ← heap st !! a; if live x then Some (with_heap st (<[a := f x]> (heap st))) else None.
Definition set_linked l x := Arr (live x) (len x) l (meta x) (locked x) (killed x).
Definition set_meta m x := Arr (live x) (len x) (linked x) m (locked x) (killed x).
Definition set_locked b x := Arr (live x) (len x) (linked x) (meta x) b (killed x).
Definition set_killed x := Arr (live x) (len x) (linked x) (meta x) false true.
Definition set_freed x := Arr false (len x) (linked x) (meta x) (locked x) (killed x).
(** An allocation: an address that was never used or the address of freed memory. *)
Definition alloc st (n : addr) (x : arr) : option state :=
  match heap st !! n with
  | None => if (n =? length (heap st))%nat then Some (with_heap st (heap st ++ [x])) else None
  | Some y => if live y then None else Some (with_heap st (<[n := x]> (heap st)))
  end.

(** The epoch of sdd is a byte below 64; [e.in_same_generation(c)]. *)
Definition byte (e : N) : N := e mod 64.
Definition same_generation (e c : N) : bool := (byte c + 64 - byte e) mod 64 <? 4.

(** [start_incremental_rehash] L1095-1121: the index the range starts at. *)
Definition start_rehash (x : arr) : option N :=
  if (len x <=? meta x) || (N.land (meta x) 31 =? 31) then None else Some (N.land (meta x) (N.lnot 31 64)).
(** [end_incremental_rehash] L1125-1152: the new value of [num_cleared_buckets], and whether the
    array is done. *)
Definition end_rehash (x : arr) (prev : N) (ok : bool) : N * bool :=
  if ok then let m := meta x - 1 in (m, (N.land m 31 =? 0) && (len x <=? m))
  else if meta x <=? prev then (meta x - 1, false)
       else (N.lor prev (N.land (meta x) 31 - 1), false).

(** [drop_in_place] on a chain element frees the memory unless the thread running [defer_reclaim] for it
    still has its own reference. *)
Definition defers (x : addr) (i : instr) : bool :=
  match i with
  | IDefer y | IEpoch y | IStore y _ | IPush y | ILink y _ => (x =? y)%nat
  | _ => false
  end.
Definition shared st (x : addr) : bool := existsb (fun t => existsb (defers x) (code t)) (threads st).

(** One access of a thread: the state, the instructions to do before the rest, and a reference that
    was obtained.  [choice] stands for whether the locks of buckets can be acquired. *)
Definition exec st (th : thread) (choice : bool) (i : instr) : option (state * list instr * option addr) :=
  match i with
  | IPin | IUnpin => Some (st, [], None)
  (* hash_index.rs L1184-1188 *)
  | IReclaim => Some (st, match chain st with None => [] | Some _ => [IPin; ILoadHead; IUnpin] end, None)
  (* L1193-1196 *)
  | ILoadHead => Some (st, match chain st with None => [] | Some h => [ILoadEpoch h] end, None)
  (* L1197 *)
  | ILoadEpoch h => Some (st, match gepoch st with None => [] | Some e => [ICheck h e] end, None)
  (* L1198 *)
  | ICheck h e => Some (st, if same_generation e (epoch st) then [] else [ICas h], None)
  (* L1199-1205 *)
  | ICas h => Some (if decide (chain st = Some h) then (with_chain st None, [IFree (Some h)], None) else (st, [], None))
  (* L1206-1213 *)
  | IFree None => Some (st, [], None)
  | IFree (Some a) =>
    x ← heap st !! a;
    s1 ← upd_arr st a (set_linked None);
    s2 ← (if shared st a then Some s1 else upd_arr s1 a set_freed);
    Some (s2, [IFree (linked x)], None)
  (* hash_table.rs L231-232: also the start of the other operations *)
  | IPeek => Some (st, match cur st with None => [] | Some a => [ILinked a] end, cur st)
  (* L233-234 *)
  | ILinked a =>
    x ← heap st !! a;
    if live x then
      Some (st, match linked x with None => [ISearch a; IReload a] | Some o => [IRehash a o; ISearch o; ISearch a; IReload a] end,
            linked x)
    else None
  (* L1216-1217 *)
  | IRehash a o =>
    x ← heap st !! o;
    match start_rehash x with
    | None => Some (st, [], None)
    | Some prev => s ← upd_arr st o (set_meta (meta x + 33)); Some (s, [IMove a o prev], None)
    end
  (* L1222-1244: the buckets of a dropped table are poisoned; those of another array are moved, if
     the locks are available *)
  | IMove a o prev =>
    x ← heap st !! o; if live x then Some (st, [IEnd a o prev (killed x || (choice && negb (locked x)))], None) else None
  (* L1246 *)
  | IEnd a o prev ok =>
    x ← heap st !! o;
    let r := end_rehash x prev ok in
    s ← upd_arr st o (set_meta r.1);
    Some (s, if r.2 then [IUnlink a] else [], None)
  (* L1247-1252 *)
  | IUnlink a =>
    x ← heap st !! a;
    s ← upd_arr st a (set_linked None);
    Some (s, match linked x with None => [] | Some o => [IDefer o] end, None)
  (* L235-252: the buckets are read *)
  | ISearch a => x ← heap st !! a; if live x then Some (st, [], None) else None
  (* L254-258 *)
  | IReload a => Some (st, match cur st with None => [] | Some b => if (a =? b)%nat then [] else [ILinked b] end, cur st)
  (* hash_index.rs L1375-1389 *)
  | IDefer x => Some (st, [IReclaim; IEpoch x], None)
  | IEpoch x => Some (st, [IStore x (epoch st)], None)
  | IStore x e => Some (with_gepoch st (Some e), [IPush x], None)
  | IPush x => Some (with_chain st (Some x), match chain st with None => [] | Some p => [ILink x p] end, None)
  | ILink x p => s ← upd_arr st x (set_linked (Some p)); Some (s, [], None)
  (* hash_table.rs L125-148 *)
  | ICreate n l =>
    match cur st with
    | Some a => Some (st, [], Some a)
    | None => s ← alloc st n (Arr true l None 0 false false); Some (with_cur s (Some n), [], Some n)
    end
  (* L1419-1427, if the table is not being resized *)
  | IResize n l =>
    match cur st with
    | Some a =>
      x ← heap st !! a;
      match linked x with
      | Some _ => Some (st, [], None)
      | None => s ← alloc st n (Arr true l (Some a) 0 false false); Some (with_cur s (Some n), [], None)
      end
    | None => Some (st, [], None)
    end
  (* L1391-1418: the buckets are empty and locked, and are killed at the end *)
  | IDrop =>
    match cur st with
    | Some a =>
      x ← heap st !! a;
      match linked x with
      | Some _ => Some (st, [], None)
      | None => s ← upd_arr st a (set_locked true); Some (with_cur s None, [IDefer a; IKill a], None)
      end
    | None => Some (st, [], None)
    end
  | IKill x => s ← upd_arr st x set_killed; Some (s, [], None)
  end.

(** The operations of the users. *)
Inductive op :=
| OGuard | OEnd                       (* a guard of the user *)
| OPeek                               (* [peek], hash_index.rs L782-788, with the guard of the caller *)
| OInsert (n : addr) (l : N)          (* an operation that needs a table *)
| OGrow (n : addr) (l : N)            (* an operation that decides to resize *)
| ORemove.                            (* an operation that empties the table *)
Definition prog (o : op) : list instr :=
  match o with
  | OGuard => [IPin]
  | OEnd => [IUnpin]
  | OPeek => [IReclaim; IPeek]
  | OInsert n l => [IReclaim; IPin; ICreate n l; IPeek; IUnpin]
  | OGrow n l => [IReclaim; IPin; IPeek; IResize n l; IUnpin]
  | ORemove => [IReclaim; IPin; IPeek; IDrop; IUnpin]
  end.

(** Guards are counted per thread. *)
Definition pinned (th : thread) : bool := negb (depth th =? 0)%nat.
Definition after st (th : thread) (i : instr) (rest : list instr) (r : option addr) : thread :=
  match i with
  | IPin => Thread rest (S (depth th)) (if pinned th then pin th else epoch st) (refs th)
  | IUnpin => Thread rest (pred (depth th)) (pin th) (if (pred (depth th) =? 0)%nat then [] else refs th)
  | _ => Thread rest (depth th) (pin th) (match r with Some a => a :: refs th | None => refs th end)
  end.
Inductive action := AStart (t : nat) (o : op) | AStep (t : nat) (choice : bool) | AEpoch.
Definition step st (a : action) : option state :=
  match a with
  | AStart t o =>
    th ← threads st !! t;
    match code th with
    | [] => (* a guard is needed to peek, and only an existing guard is dropped *)
      if match o with OPeek | OEnd => pinned th | _ => true end
      then Some (with_threads st (<[t := Thread (prog o) (depth th) (pin th) (refs th)]> (threads st))) else None
    | _ => None
    end
  | AStep t choice =>
    th ← threads st !! t;
    match code th with
    | [] => None
    | i :: rest =>
      r ← exec st th choice i;
      Some (with_threads r.1.1 (<[t := after st th i (r.1.2 ++ rest) r.2]> (threads st)))
    end
  | AEpoch =>
    if forallb (fun th => negb (pinned th) || (pin th =? epoch st)) (threads st)
    then Some (with_epoch st (epoch st + 1)) else None
  end.
Definition init (n : nat) : state := State [] None None None 0 (replicate n (Thread [] 0 0 [])).
Fixpoint run st (l : list action) : option state :=
  match l with [] => Some st | a :: l' => s ← step st a; run s l' end.
