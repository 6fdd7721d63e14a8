(** Lock-free reads of a HashIndex against writers, relocation and reclamation, one shared memory access
    per step, any number of threads.
    Modelled: hash_table.rs L224-261 ([peek_entry]); bucket.rs L614-719 ([search_entry],
    [search_data_block]), and the stores, in their order, of [insert] L144-177 with [insert_entry]
    L438-460 and [insert_overflow] L391-435, [mark_removed] L222-250, [clear_unreachable_entries]
    L463-495 with [drop_unreachable_entries] L498-534, [reserve_slots] L302-327, [extract_from]
    L331-368 and [kill] L788-819.

    Simplifications.
    - Sequential consistency.
    - A critical section of the code is cut into operations, each with the lock of its buckets held: one
      insertion, one removal, the clean-up of one block, one additional link, the transfer of one entry.
      A thread that does several of them under one lock is a schedule in which no other thread uses the
      bucket in between: an [insert] into a full bucket is clean-ups and then an insertion, an [update]
      (hash_index.rs L1887-1899) is an insertion and then a removal.  What an operation loads from its
      own, locked buckets is loaded when it starts.
    - A bucket whose relocation has begun is [frozen]: nothing but the transfer of its entries happens to
      it.  With no reachable entry left it is as after [kill].
    - Which entries are inserted, removed, cleaned up or moved and when is arbitrary, also whether the
      table is resized or dropped, within the limits that CtModel establishes: a resize starts if the
      previous one has ended; it ends if all old buckets are done; a table is dropped if it is empty.
    - [incremental_rehash] as called by [peek_entry] is run by another thread.
    - Arrays are not freed (see GarbageModel) and their addresses are not used again; links that were
      unlinked are not freed while guards exist (they are released through sdd).
    - The epochs of sdd are as in GarbageModel.  An operation holds a guard from start to end.
    - [prev_link] is not represented: it is the predecessor in the chain. *)
From Coq Require Import NArith.
From stdpp Require Import prelude list numbers.
From Verif Require BucketModel.
Notation bit := BucketModel.bit.
Notation trailing_ones := BucketModel.trailing_ones.
Notation trailing_zeros := BucketModel.trailing_zeros.
Notation partial_hash := BucketModel.partial_hash.
Notation gen_mask := BucketModel.gen_mask.

Section peek.
Context {K V : Type} `{EqDecision K} (hash : K -> N).

(** An entry with the number of the insertion that made it; a transfer keeps the number. *)
Definition obj : Type := nat * (K * V).
Definition okey (x : obj) : K := x.2.1.

(** [Metadata] L92-103 with its data block; [LinkedBucket] L110-118.  A bucket is the list of its blocks,
    also of those unlinked; the first is the main block; [next] is a position in the list. *)
Record node := Node { occ : N; rem : N; cells : list N; data : list (option obj); next : option nat }.
Record bucket := Bkt { blen : nat; nodes : list node; frozen : bool }.
(** [BucketArray], bucket_array.rs L14-23, with [2 ^ bits] buckets. *)
Record array := Arr { bits : nat; bks : list bucket; linked : option nat }.

Definition new_node (l : nat) : node := Node 0 0 (replicate l 0%N) (replicate l None) None.
Definition new_bucket : bucket := Bkt 0 [new_node 32] false.
Definition new_array (b : nat) (l : option nat) : array := Arr b (replicate (2 ^ b) new_bucket) l.
(** [bucket_index], bucket_array.rs L114-118. *)
Definition place (a : array) (k : K) : nat := N.to_nat (N.shiftr (hash k) (64 - N.of_nat (bits a))).

(** ** Stores *)
(** [WStamp] stores the epoch, read at that time, in the place of the partial hash, L229-231. *)
Inductive write :=
| WData (n j : nat) (x : obj) | WCell (n j : nat) (c : N) | WStamp (n j : nat) | WOcc (n : nat) (m : N) | WRem (n : nat) (m : N)
| WLen (l : nat) | WNext (n : nat) (q : option nat) | WNew (nd : node) | WDrop (n j : nat).
Definition put (b : bucket) (n : nat) (f : node -> node) : option bucket :=
  nd ← nodes b !! n; Some (Bkt (blen b) (<[n := f nd]> (nodes b)) (frozen b)).
Definition byte (e : N) : N := (e mod 64)%N.
Definition store (e : N) (b : bucket) (w : write) : option bucket :=
  match w with
  | WData n j x => put b n (fun d => Node (occ d) (rem d) (cells d) (<[j := Some x]> (data d)) (next d))
  | WCell n j c => put b n (fun d => Node (occ d) (rem d) (<[j := c]> (cells d)) (data d) (next d))
  | WStamp n j => put b n (fun d => Node (occ d) (rem d) (<[j := byte e]> (cells d)) (data d) (next d))
  | WOcc n m => put b n (fun d => Node m (rem d) (cells d) (data d) (next d))
  | WRem n m => put b n (fun d => Node (occ d) m (cells d) (data d) (next d))
  | WLen l => Some (Bkt l (nodes b) (frozen b))
  | WNext n q => put b n (fun d => Node (occ d) (rem d) (cells d) (data d) q)
  | WNew nd => Some (Bkt (blen b) (nodes b ++ [nd]) (frozen b))
  | WDrop n j => put b n (fun d => Node (occ d) (rem d) (cells d) (<[j := None]> (data d)) (next d))
  end.
(** The entry whose destructor is run. *)
Definition drops (b : bucket) (w : write) : option nat :=
  match w with WDrop n j => nd ← nodes b !! n; s ← data nd !! j; x ← s; Some x.1 | _ => None end.

(** ** The stores of the operations *)
(** The positions of the links, in order. *)
Fixpoint chain_from (fuel : nat) (ns : list node) (n : nat) : list nat :=
  match fuel with
  | O => []
  | S f => match ns !! n ≫= next with Some q => q :: chain_from f ns q | None => [] end
  end.
Definition chain (b : bucket) : list nat := chain_from (length (nodes b)) (nodes b) 0.

(** [insert_entry] and the update of [len], L165-173, L402-411. *)
Definition slot_writes (b : bucket) (n : nat) (nd : node) (x : obj) (c : N) : list write :=
  let j := trailing_ones (occ nd) in
  [WData n j x; WCell n j c; WOcc n (N.lor (occ nd) (bit j)); WLen (S (blen b))].
Definition room (b : bucket) (n : nat) : bool :=
  match nodes b !! n with Some nd => negb (trailing_ones (occ nd) =? 8)%nat | None => false end.
(** L159-176; [insert_overflow] L391-435. *)
Definition insert_writes (b : bucket) (x : obj) (c : N) : option (list write) :=
  m ← nodes b !! 0%nat;
  if (trailing_ones (occ m) =? 32)%nat then
    match list_find (fun n => room b n = true) (chain b) with
    | Some (_, n) => nd ← nodes b !! n; Some (slot_writes b n nd x c)
    | None =>
      Some [WNew (Node 1 0 (c :: replicate 7 0%N) (Some x :: replicate 7 None) (next m));
            WNext 0 (Some (length (nodes b))); WLen (S (blen b))]
    end
  else Some (slot_writes b 0 m x c).
(** [mark_removed] L222-250. *)
Definition mark_writes (b : bucket) (n j : nat) : option (list write) :=
  nd ← nodes b !! n; Some [WLen (pred (blen b)); WStamp n j; WRem n (N.lor (rem nd) (bit j))].
(** [Epoch::try_from(c).is_ok_and(|c| c.in_same_generation(e))]. *)
Definition same_gen (e c : N) : bool := ((c <? 64) && ((byte e + 64 - c) mod 64 <? 4))%N.
Definition doomed (nd : node) (e : N) : N := gen_mask (same_gen e) (cells nd) 0 (rem nd).
Fixpoint pred_in (l : list nat) (p n : nat) : nat :=
  match l with [] => p | q :: l' => if (q =? n)%nat then p else pred_in l' q n end.
(** One round of [clear_unreachable_entries] L474-488, or L494. *)
Definition clear_writes (b : bucket) (n : nat) (e : N) : option (list write) :=
  nd ← nodes b !! n;
  let d := doomed nd e in
  let o := N.ldiff (occ nd) d in
  Some ([WOcc n o; WRem n (N.ldiff (rem nd) d)]
        ++ map (WDrop n) (filter (fun j => N.testbit d (N.of_nat j) = true) (seq 0 (length (cells nd))))
        ++ (if negb (n =? 0)%nat && (o =? 0)%N && bool_decide (next nd = None)
            then [WNext (pred_in (chain b) 0 n) None] else [])).
(** The new link of [reserve_slots], L315-322. *)
Definition reserve_writes (b : bucket) : option (list write) :=
  n ← list.last (chain b);
  Some [WNew (new_node 8); WNext n (Some (length (nodes b)))].
(** [extract_from] after [insert], L347-367. *)
Definition out_writes (b : bucket) (n j : nat) : option (list write) :=
  nd ← nodes b !! n; Some [WOcc n (N.ldiff (occ nd) (bit j)); WLen (pred (blen b))].

(** ** Reachable entries *)
(** Bit by bit as in L694-696. *)
Definition live_in (nd : node) (j : nat) : bool := N.testbit (occ nd) (N.of_nat j) && negb (N.testbit (rem nd) (N.of_nat j)).
Definition live_at (b : bucket) (n j : nat) : option obj :=
  nd ← nodes b !! n; if live_in nd j then s ← data nd !! j; s else None.
Definition no_live (b : bucket) : bool :=
  forallb (fun nd => forallb (fun j => negb (live_in nd j)) (seq 0 (length (data nd)))) (nodes b).

(** ** Threads *)
(** A read: [a] is the array loaded as the current one, [s] the one that is searched, [n] the block. *)
Inductive peek :=
| PCur | PLinked (a : nat) | PLen (a s : nat) | PRem (a s n : nat) | POcc (a s n : nat) (r : N)
| PCells (a s n c : nat) (bm : N) | PProbe (a s n : nat) (bm : N) | PNext (a s n : nat) | PReload (a : nat)
| PDone (r : option obj).
Inductive op :=
| OInsert (a : nat) (k : K) (v : V)      (* into array [a] *)
| OMark (a i n j : nat)                  (* the entry in bucket [i], block [n], slot [j] *)
| OClear (a i n : nat)
| OReserve (a i : nat)
| OMove (i n j : nat).                   (* from the old array to the current one *)
(** A writer: the entries it inserts or removes, the buckets it has locked, the stores to come; a store goes to one of the locked buckets. *)
Record writer := Writer { mine : list nat; held : list (nat * nat); todo : list (nat * write) }.
Inductive task := Idle | Peek (k : K) (p : peek) | Write (w : writer).
Record thread := Thread { depth : nat; pin : N; work : task }.
Record state := State { mem : list array; cur : option nat; epoch : N; ids : nat; gone : list nat; threads : list thread }.

Definition pinned (th : thread) : bool := negb (depth th =? 0)%nat.
Definition enter (e : N) (th : thread) (w : task) : thread :=
  Thread (S (depth th)) (if pinned th then pin th else e) w.
Definition leave (th : thread) (w : task) : thread := Thread (pred (depth th)) (pin th) w.
Definition with_thread (st : state) (t : nat) (th : thread) : state :=
  State (mem st) (cur st) (epoch st) (ids st) (gone st) (<[t := th]> (threads st)).
Definition with_mem (st : state) (m : list array) (c : option nat) : state :=
  State m c (epoch st) (ids st) (gone st) (threads st).

Definition bucket_at (m : list array) (p : nat * nat) : option bucket := a ← m !! p.1; bks a !! p.2.
Definition set_bucket (m : list array) (p : nat * nat) (b : bucket) : list array :=
  alter (fun a => Arr (bits a) (<[p.2 := b]> (bks a)) (linked a)) p.1 m.
Definition set_link (m : list array) (a : nat) (l : option nat) : list array :=
  alter (fun x => Arr (bits x) (bks x) l) a m.

(** ** Reading *)
(** After a block: L622-637; after a bucket: hash_table.rs L244-259. *)
Definition read (st : state) (k : K) (p : peek) : option peek :=
  let block a s n (f : node -> peek) :=
    ar ← mem st !! s; b ← bks ar !! place ar k; nd ← nodes b !! n; Some (f nd) in
  let fail a s := if (s =? a)%nat then PReload a else PLen a a in
  match p with
  (* hash_table.rs L231-232 *)
  | PCur => Some (match cur st with None => PDone None | Some a => PLinked a end)
  (* L233 *)
  | PLinked a => ar ← mem st !! a; Some (match linked ar with None => PLen a a | Some o => PLen a o end)
  (* bucket.rs L623 *)
  | PLen a s => ar ← mem st !! s; b ← bks ar !! place ar k; Some (if (blen b =? 0)%nat then fail a s else PRem a s 0)
  (* L696 *)
  | PRem a s n => block a s n (fun nd => POcc a s n (rem nd))
  | POcc a s n r => block a s n (fun nd => PCells a s n 0 (N.ldiff (occ nd) r))
  (* L702-706 *)
  | PCells a s n c bm =>
    block a s n (fun nd => match cells nd !! c with
                           | None => PProbe a s n bm
                           | Some x => PCells a s n (S c) (if (x =? partial_hash (hash k))%N then bm else N.ldiff bm (bit c))
                           end)
  (* L708-716: reading an entry that is not there is an error *)
  | PProbe a s n bm =>
    let j := trailing_zeros bm in
    if (j =? 32)%nat then Some (PNext a s n) else
    ar ← mem st !! s; b ← bks ar !! place ar k; nd ← nodes b !! n; d ← data nd !! j; x ← d;
    Some (if decide (k = okey x) then PDone (Some x) else PProbe a s n (N.ldiff bm (bit j)))
  (* L630, L637 *)
  | PNext a s n => block a s n (fun nd => match next nd with Some q => PRem a s q | None => fail a s end)
  (* hash_table.rs L254-258 *)
  | PReload a => Some (match cur st with None => PDone None | Some b => if (a =? b)%nat then PDone None else PLinked b end)
  | PDone _ => None
  end.

(** ** Writing *)
Definition is_held (st : state) (p : nat * nat) : bool :=
  existsb (fun th => match work th with Write w => bool_decide (p ∈ held w) | _ => false end) (threads st).
Definition open_bucket (st : state) (p : nat * nat) (f : bool) : option bucket :=
  b ← bucket_at (mem st) p; if negb (is_held st p) && Bool.eqb (frozen b) f then Some b else None.
Definition start (st : state) (o : op) : option writer :=
  match o with
  | OInsert a k v =>
    ar ← mem st !! a;
    b ← open_bucket st (a, place ar k) false;
    l ← insert_writes b (ids st, (k, v)) (partial_hash (hash k));
    Some (Writer [ids st] [(a, place ar k)] (map (pair 0%nat) l))
  | OMark a i n j =>
    b ← open_bucket st (a, i) false;
    x ← live_at b n j;
    l ← mark_writes b n j;
    Some (Writer [x.1] [(a, i)] (map (pair 0%nat) l))
  | OClear a i n =>
    b ← open_bucket st (a, i) false;
    if bool_decide (n ∈ 0%nat :: chain b) then l ← clear_writes b n (epoch st); Some (Writer [] [(a, i)] (map (pair 0%nat) l)) else None
  | OReserve a i =>
    b ← open_bucket st (a, i) false;
    l ← reserve_writes b;
    Some (Writer [] [(a, i)] (map (pair 0%nat) l))
  | OMove i n j =>
    a ← cur st; ar ← mem st !! a; o ← linked ar;
    b ← open_bucket st (o, i) true;
    x ← live_at b n j;
    nd ← nodes b !! n; c ← cells nd !! j;
    t ← open_bucket st (a, place ar (okey x)) false;
    l ← insert_writes t x c;
    q ← out_writes b n j;
    Some (Writer [] [(o, i); (a, place ar (okey x))] (map (pair 1%nat) l ++ map (pair 0%nat) q))
  end.

(** ** Steps *)
Inductive action :=
| AGuard (t : nat) | ARelease (t : nat)        (* a guard of the user *)
| APeek (t : nat) (k : K) | AFinish (t : nat)  (* a read is called, and returns *)
| AOp (t : nat) (o : op)
| AStep (t : nat)
| ACreate (b : nat) | AResize (b : nat) | ADropTable
| AFreeze (i : nat)                            (* the relocation of an old bucket begins *)
| AUnlink                                      (* the old array is detached *)
| AChain (o : nat) (x : option nat)            (* a detached array is put in, or taken from, the garbage chain *)
| AStrip (a i n : nat)                         (* [kill] L800-815 if nothing needs to be dropped *)
| AEpoch.
Definition old_of (st : state) : option nat := a ← cur st; ar ← mem st !! a; linked ar.
Definition detached (st : state) (x : nat) : bool :=
  (x <? length (mem st))%nat && negb (bool_decide (cur st = Some x)) && negb (bool_decide (old_of st = Some x)).
Definition done_bucket (st : state) (p : nat * nat) : bool :=
  match bucket_at (mem st) p with Some b => frozen b && no_live b && negb (is_held st p) | None => false end.
Definition step (st : state) (c : action) : option state :=
  match c with
  | AGuard t =>
    th ← threads st !! t;
    match work th with Idle => Some (with_thread st t (enter (epoch st) th Idle)) | _ => None end
  | ARelease t =>
    th ← threads st !! t;
    match work th with Idle => if pinned th then Some (with_thread st t (leave th Idle)) else None | _ => None end
  | APeek t k =>
    th ← threads st !! t;
    match work th with Idle => if pinned th then Some (with_thread st t (Thread (depth th) (pin th) (Peek k PCur))) else None | _ => None end
  | AFinish t =>
    th ← threads st !! t;
    match work th with Peek k (PDone r) => Some (with_thread st t (Thread (depth th) (pin th) Idle)) | _ => None end
  | AOp t o =>
    th ← threads st !! t;
    match work th with
    | Idle =>
      w ← start st o;
      Some (State (mem st) (cur st) (epoch st) (match o with OInsert _ _ _ => S (ids st) | _ => ids st end) (gone st)
                  (<[t := enter (epoch st) th (Write w)]> (threads st)))
    | _ => None
    end
  | AStep t =>
    th ← threads st !! t;
    match work th with
    | Idle => None
    | Peek k p => p' ← read st k p; Some (with_thread st t (Thread (depth th) (pin th) (Peek k p')))
    | Write w =>
      match todo w with
      | [] => Some (with_thread st t (leave th Idle))
      | (h, x) :: l =>
        p ← held w !! h;
        b ← bucket_at (mem st) p;
        b' ← store (epoch st) b x;
        Some (State (set_bucket (mem st) p b') (cur st) (epoch st) (ids st)
                    (match drops b x with Some g => g :: gone st | None => gone st end)
                    (<[t := Thread (depth th) (pin th) (Write (Writer (mine w) (held w) l))]> (threads st)))
      end
    end
  (* hash_table.rs L125-148 *)
  | ACreate b => match cur st with
                 | None => if (b <=? 64)%nat then Some (with_mem st (mem st ++ [new_array b None]) (Some (length (mem st)))) else None
                 | Some _ => None end
  (* L1419-1427 *)
  | AResize b =>
    a ← cur st;
    match old_of st with
    | None => if (b <=? 64)%nat then Some (with_mem st (mem st ++ [new_array b (Some a)]) (Some (length (mem st)))) else None
    | Some _ => None end
  (* L1391-1418 *)
  | ADropTable =>
    a ← cur st; ar ← mem st !! a;
    match linked ar with
    | None =>
      if forallb (fun i => match bks ar !! i with Some b => (blen b =? 0)%nat && negb (is_held st (a, i)) | None => false end) (seq 0 (length (bks ar)))
      then Some (with_mem st (<[a := Arr (bits ar) (map (fun b => Bkt (blen b) (nodes b) true) (bks ar)) None]> (mem st)) None)
      else None
    | Some _ => None
    end
  (* L1222-1244 *)
  | AFreeze i =>
    o ← old_of st;
    b ← open_bucket st (o, i) false;
    Some (with_mem st (set_bucket (mem st) (o, i) (Bkt (blen b) (nodes b) true)) (cur st))
  (* L1246-1252 *)
  | AUnlink =>
    a ← cur st; o ← old_of st; ao ← mem st !! o;
    if forallb (fun i => done_bucket st (o, i)) (seq 0 (length (bks ao)))
    then Some (with_mem st (set_link (mem st) a None) (cur st)) else None
  (* hash_index.rs L1184-1218, L1375-1389 *)
  | AChain o x =>
    if detached st o && match x with Some y => detached st y | None => true end
    then Some (with_mem st (set_link (mem st) o x) (cur st)) else None
  | AStrip a i n =>
    b ← bucket_at (mem st) (a, i);
    if done_bucket st (a, i) then b' ← store (epoch st) b (WNext n None); Some (with_mem st (set_bucket (mem st) (a, i) b') (cur st)) else None
  | AEpoch =>
    if forallb (fun th => negb (pinned th) || (pin th =? epoch st)%N) (threads st)
    then Some (State (mem st) (cur st) (epoch st + 1) (ids st) (gone st) (threads st)) else None
  end.
Definition init (n : nat) : state := State [] None 0 0 [] (replicate n (Thread 0 0 Idle)).
Fixpoint run (st : state) (l : list action) : option state :=
  match l with [] => Some st | c :: l' => s ← step st c; run s l' end.

End peek.
Arguments obj : clear implicits.
Arguments node : clear implicits.
Arguments bucket : clear implicits.
Arguments array : clear implicits.
Arguments write : clear implicits.
Arguments peek : clear implicits.
Arguments op : clear implicits.
Arguments writer : clear implicits.
Arguments task : clear implicits.
Arguments thread : clear implicits.
Arguments state : clear implicits.
Arguments action : clear implicits.
