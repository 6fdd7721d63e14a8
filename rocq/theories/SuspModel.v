(** * Suspended operations: what an asynchronous operation may still touch

    Model of the asynchronous operations of the hash containers while the bucket array they work on
    is being replaced.  A task protects the arrays it refers to with an [AsyncGuard]; the guard is
    given up whenever the task has to wait for a bucket lock, and an array that nobody refers to any
    more may be reclaimed once every guard that existed when it was retired is gone.

    Modelled: /repo/src/async_helper.rs L31-75 (AsyncGuard); /repo/src/hash_table.rs L265-300
    (reader_async; writer_async L334-377 and optional_writer_async L418-452 have the same skeleton),
    L513-566 (for_each_reader_async), L618-690 (for_each_writer_async), L812-855
    (dedup_bucket_async), L893-943 (relocate_bucket_async), L1097-1205 (start/end of incremental
    rehashing, incremental_rehash_async), L1307-1427 (try_resize, only its effect), L1666-1679
    (from_index_to_range); /repo/src/hash_table/bucket.rs L743-755 (Writer::lock_async).

    Simplifications, everywhere in this file:
    - one step is one access to shared memory or one call of a lock function;
    - shared bucket locks are treated as exclusive ones, and a lock may be taken by any waiter;
    - a task that finds a lock held may either wait asynchronously (its guard is reset) or just not
      move (which is what a synchronous call does: its guard is kept);
    - the entries are not modelled: whether a bucket to be relocated is empty is a free choice;
    - the counter of the tasks that are rehashing is represented by the list of these tasks;
    - reclamation follows the contract of epoch-based reclamation, see [free_step];
    - HashIndex (TYPE = INDEX), which keeps retired arrays in a chain of its own, is not covered. *)

Require Import List Arith Bool PeanoNat.
Import ListNotations.
Set Implicit Arguments.

(** BUCKET_LEN, /repo/src/hash_table/bucket.rs L41. *)
Definition chunk : nat := 32.

(** /repo/src/hash_table.rs L1666-1679. *)
Definition index_range (from_len to_len from_index : nat) : nat * nat :=
  if from_len <? to_len
  then let ratio := to_len / from_len in (from_index * ratio, from_index * ratio + ratio)
  else let ratio := from_len / to_len in (from_index / ratio, from_index / ratio + 1).

(** A bucket array: /repo/src/hash_table/bucket_array.rs L14-23.  [ad] is its address; [par] is a ghost
    field that remembers which array it was linked to; [rt] is the time at which it was handed over
    for reclamation, [fr] tells that it has been reclaimed. *)
Record arr := mkA {
  ln : nat; ad : nat; lnk : option nat; pos : nat; refs : list nat;
  kl : nat -> bool; lk : nat -> option nat;
  par : option nat; rt : option nat; fr : bool }.

(** The asynchronous operations: a keyed one (with the hash of its key), an iteration under shared
    locks (for_each_reader_async), an iteration under exclusive locks (for_each_writer_async). *)
Inductive kind := Key (h : nat) | ScanR | ScanW.

(** Who called relocate_bucket_async: incremental_rehash_async, with the range [p..e), or
    dedup_bucket_async, with the end of its range. *)
Inductive cont := KR (p e : nat) | KD (hi : nat).

(** Program points.  The first argument [w] of a point that takes a lock tells whether the task is
    already waiting for it. *)
Inductive pc :=
| PDone
| PLoad                                       (* load the current array *)
| PHas                                        (* has_linked_array *)
| PRh                                         (* load the linked array, start rehashing *)
| PRb (w : bool) (p e i : nat)                (* lock old bucket [i] of [p..e) *)
| PRel (k : cont) (i : nat)                   (* relocate_bucket_async: old bucket [i] is locked *)
| PTgt (w : bool) (k : cont) (i lo hi j : nat)(* lock target bucket [j] of [lo..hi) *)
| PEnd (p : nat)                              (* end_incremental_rehash: the decrement *)
| PEnd2 (q : nat)                             (* ... then the length of the old array is read *)
| PUnl                                        (* unlink the old array *)
| PUnl2                                       (* hand it over for reclamation *)
| PIdx                                        (* argument of dedup_bucket_async *)
| PChk (ix : nat)                             (* check_ref, load the linked array *)
| PDd (w : bool) (i hi : nat)                 (* lock old bucket [i] of [i..hi) *)
| PDc (i hi : nat)                            (* is the old array still linked? *)
| PLock                                       (* locate the bucket *)
| PLk (w : bool) (i : nat)                    (* lock it *)
| PGot (i : nat)                              (* the bucket is locked *)
| PNext                                       (* iteration: is this the end of the array? *)
| PBrk.                                       (* iteration: after [break] *)

(** A task: its guard (with its time of creation), its references to the current and to the old
    array, the operation, and for iterations the index and the previous length. *)
Record task := mkT {
  gd : option nat; rf : nat; old : nat; kd : kind; ix : nat; pl : nat; at_ : pc }.

Inductive error := EUaf (t a : nat) | EOob (t a i : nat) | EUnwrap (t a i : nat).

Record state := mkS {
  cur : option nat; arrs : nat -> arr; na : nat;
  tks : nat -> task; nt : nat; clk : nat; err : option error }.

Definition upd {A} (f : nat -> A) (x : nat) (v : A) : nat -> A :=
  fun y => if y =? x then v else f y.

(** Setters. *)
Definition set_task (s : state) (t : nat) (k : task) : state :=
  mkS (cur s) (arrs s) (na s) (upd (tks s) t k) (nt s) (clk s) (err s).
Definition set_arr (s : state) (a : nat) (x : arr) : state :=
  mkS (cur s) (upd (arrs s) a x) (na s) (tks s) (nt s) (clk s) (err s).
Definition fail (s : state) (e : error) : state :=
  mkS (cur s) (arrs s) (na s) (tks s) (nt s) (clk s) (Some e).
Definition tick (s : state) : state :=
  mkS (cur s) (arrs s) (na s) (tks s) (nt s) (S (clk s)) (err s).

Definition with_pc (k : task) (p : pc) : task :=
  mkT (gd k) (rf k) (old k) (kd k) (ix k) (pl k) p.
Definition with_gd (k : task) (g : option nat) : task :=
  mkT g (rf k) (old k) (kd k) (ix k) (pl k) (at_ k).
Definition goto (s : state) (t : nat) (p : pc) : state := set_task s t (with_pc (tks s t) p).

Definition set_lk (s : state) (a i : nat) (o : option nat) : state :=
  let x := arrs s a in
  set_arr s a (mkA (ln x) (ad x) (lnk x) (pos x) (refs x) (kl x) (upd (lk x) i o) (par x) (rt x) (fr x)).
Definition set_rh (s : state) (a q : nat) (l : list nat) : state :=
  let x := arrs s a in
  set_arr s a (mkA (ln x) (ad x) (lnk x) q l (kl x) (lk x) (par x) (rt x) (fr x)).
Definition set_lnk (s : state) (a : nat) (o : option nat) : state :=
  let x := arrs s a in
  set_arr s a (mkA (ln x) (ad x) o (pos x) (refs x) (kl x) (lk x) (par x) (rt x) (fr x)).

(** Writer::kill, /repo/src/hash_table/bucket.rs L790-: the lock is poisoned and released. *)
Definition kill (s : state) (a i : nat) : state :=
  let x := arrs s a in
  set_arr s a (mkA (ln x) (ad x) (lnk x) (pos x) (refs x) (upd (kl x) i true) (upd (lk x) i None)
                   (par x) (rt x) (fr x)).

(** AsyncGuard::guard, /repo/src/async_helper.rs L46-48: keep the guard, or create one now. *)
Definition guard (s : state) (t : nat) : state :=
  match gd (tks s t) with
  | Some _ => s
  | None => tick (set_task s t (with_gd (tks s t) (Some (clk s))))
  end.

(** AsyncGuard::reset, /repo/src/async_helper.rs L52-56. *)
Definition reset (s : state) (t : nat) : state :=
  set_task s t (with_gd (tks s t) None).

(** The array is dropped for good: /repo/src/hash_table.rs L56-58 (defer_reclaim). *)
Definition retire (s : state) (a : nat) : state :=
  let x := arrs s a in
  tick (set_arr s a (mkA (ln x) (ad x) (lnk x) (pos x) (refs x) (kl x) (lk x) (par x)
                         (Some (clk s)) (fr x))).

(** Every use of a reference to array [a] goes through [deref]. *)
Definition deref (s : state) (t a : nat) (r : option state) : option state :=
  if fr (arrs s a) then Some (fail s (EUaf t a)) else r.

(** Writer::lock_async, /repo/src/hash_table/bucket.rs L743-755, on bucket [i] of array [a].  [w]: the
    task is already waiting; [b]: if the lock is held, wait for it asynchronously. *)
Definition lock (s : state) (t a i : nat) (w b : bool)
    (killed : option state) (got wait : pc) : option state :=
  if negb w && fr (arrs s a) then Some (fail s (EUaf t a)) else
  if negb w && (ln (arrs s a) <=? i) then Some (fail s (EOob t a i)) else
  if kl (arrs s a) i then killed else
  match lk (arrs s a) i with
  | None => if fr (arrs s a) then Some (fail s (EUaf t a))
            else Some (goto (set_lk s a i (Some t)) t got)
  | Some _ => if w then None else if b then Some (goto (reset s t) t wait) else None
  end.

(** Releases the target buckets [lo..lo+n): /repo/src/hash_table.rs L924-932. *)
Fixpoint unlock_from (s : state) (a lo n : nat) : state :=
  match n with
  | 0 => s
  | S n => unlock_from (set_lk s a lo None) a (S lo) n
  end.

(** start_incremental_rehash, L1097-1122. *)
Definition start_rehash (s : state) (t o : nat) : option (state * nat) :=
  let x := arrs s o in
  if (ln x <=? pos x + length (refs x)) || (length (refs x) =? chunk - 1) then None
  else Some (set_rh s o (pos x + chunk) (t :: refs x), pos x).

Definition drop_ref (t : nat) (l : list nat) : list nat := remove Nat.eq_dec t l.

(** What follows the relocation of bucket [i]. *)
Definition next (k : cont) (i : nat) : pc :=
  match k with
  | KR p e => PRb false p e (S i)
  | KD hi => PDc (S i) hi
  end.

(** After [dedup_bucket_async] returned [false] or the bucket was found killed: a keyed operation
    loops (L286, L298), an iteration leaves its inner loop (L539, L555). *)
Definition retry (k : kind) : pc :=
  match k with Key _ => PLoad | _ => PBrk end.

Section Step.

(** BucketArray::bucket_index, /repo/src/hash_table/bucket_array.rs L111-116: hash, length -> index. *)
Variable bidx : nat -> nat -> nat.

(** The loop head of the operations: L272, L521-531, L632-644. *)
Definition load (s : state) (t : nat) : option state :=
  let s := guard s t in
  let k := tks s t in
  match cur s with
  | None => Some (set_task s t (mkT None (rf k) (old k) (kd k) (ix k) (pl k) PDone))
  | Some c =>
      deref s t c
        (let n := ln (arrs s c) in
         let i := match kd k with
                  | Key _ => ix k
                  | _ => if (pl k =? 0) || (pl k =? n) then ix k
                         else fst (index_range (pl k) n (ix k))
                  end in
         Some (set_task s t (mkT (gd k) c (old k) (kd k) i n
                 (match kd k with Key _ => PHas | _ => PNext end))))
  end.

(** One step of task [t]; [b] is a free choice. *)
Definition task_step (s : state) (t : nat) (b : bool) : option state :=
  let k := tks s t in
  let a := rf k in
  let o := old k in
  match at_ k with
  | PDone => None
  | PLoad => load s t
  | PHas =>                                                        (* L274, L534, L648 *)
      deref s t a (Some (goto s t (if lnk (arrs s a) then PRh else PLock)))
  | PRh =>                                                         (* L1166-1169 *)
      deref s t a
        (match lnk (arrs s a) with
         | None => Some (goto s t PIdx)
         | Some o' =>
             deref s t o'
               (match start_rehash s t o' with
                | None => Some (goto s t PIdx)
                | Some (s', p) =>
                    Some (set_task s' t (mkT (gd k) a o' (kd k) (ix k) (pl k)
                            (PRb false p (Nat.min (p + chunk) (ln (arrs s o'))) p)))
                end)
         end)
  | PRb w p e i =>                                                 (* L1174-1189 *)
      if i <? e
      then lock s t o i w b (Some (goto s t (PRb false p e (S i)))) (PRel (KR p e) i) (PRb true p e i)
      else Some (goto s t (PEnd p))
  | PRel c i =>                                                    (* L901-912 *)
      deref s t o
        (if b then Some (goto (kill (guard s t) o i) t (next c i))
         else deref s t a
                (let '(lo, hi) := index_range (ln (arrs s o)) (ln (arrs s a)) i in
                 Some (goto s t (PTgt false c i lo hi lo))))
  | PTgt w c i lo hi j =>                                          (* L912-942 *)
      if j <? hi
      then lock s t a j w b (Some (fail s (EUnwrap t a j)))
                (PTgt false c i lo hi (S j)) (PTgt true c i lo hi j)
      else
        let s := guard s t in
        deref s t a
          (match lnk (arrs s a) with
           | None => Some (goto (set_lk s o i None) t (next c i))
           | Some o' =>
               deref s t o'
                 (Some (goto (kill (unlock_from s a lo (hi - lo)) o i) t (next c i)))
           end)
  | PEnd p =>                                                      (* L1135, L1136 first operand *)
      deref s t o
        (let l := drop_ref t (refs (arrs s o)) in
         Some (goto (set_rh s o (pos (arrs s o)) l) t
                 (match l with [] => PEnd2 (pos (arrs s o)) | _ => PIdx end)))
  | PEnd2 q =>                                                     (* L1136 second operand *)
      deref s t o (Some (goto s t (if ln (arrs s o) <=? q then PUnl else PIdx)))
  | PUnl =>                                                        (* L1193-1196 *)
      deref s t a
        (match lnk (arrs s a) with
         | None => Some (goto s t PIdx)
         | Some o' => Some (set_task (set_lnk s a None) t
                              (mkT (gd k) a o' (kd k) (ix k) (pl k) PUnl2))
         end)
  | PUnl2 => Some (goto (retire (guard s t) o) t PIdx)             (* L1198 *)
  | PIdx =>                                                        (* L280, L348, L431; L537, L652 *)
      match kd k with
      | Key h => deref s t a (Some (goto s t (PChk (bidx h (ln (arrs s a))))))
      | _ => Some (goto s t (PChk (ix k)))
      end
  | PChk j =>                                                      (* L818-827 *)
      let s := guard s t in
      match cur s with
      | None => Some (goto s t (retry (kd k)))
      | Some c =>
          if ad (arrs s c) =? ad (arrs s a)
          then
            deref s t c
              (match lnk (arrs s c) with
               | None => Some (set_task s t (mkT (gd (tks s t)) c o (kd k) (ix k) (pl k) PLock))
               | Some o' =>
                   deref s t o'
                     (let '(lo, hi) := index_range (ln (arrs s c)) (ln (arrs s o')) j in
                      Some (set_task s t (mkT (gd (tks s t)) c o' (kd k) (ix k) (pl k)
                              (PDd false lo hi))))
               end)
          else Some (goto s t (retry (kd k)))
      end
  | PDd w i hi =>                                                  (* L828-846 *)
      if i <? hi
      then lock s t o i w b
             (Some (goto s t (if gd k then PDc (S i) hi else retry (kd k))))
             (PRel (KD hi) i) (PDd true i hi)
      else Some (goto s t PLock)
  | PDc i hi =>                                                    (* L849 *)
      deref s t a (Some (goto s t (if lnk (arrs s a) then PDd false i hi else PLock)))
  | PLock =>                                                       (* L290-291, L545 *)
      deref s t a
        (Some (goto s t (PLk false (match kd k with
                                    | Key h => bidx h (ln (arrs s a))
                                    | _ => ix k end))))
  | PLk w i =>                                                     (* L292, L546, L663 *)
      lock s t a i w b (Some (goto s t (retry (kd k)))) (PGot i) (PLk true i)
  | PGot i =>                                                      (* L293-298; L547-560 *)
      match kd k with
      | Key _ =>
          deref s t a
            (let s := set_lk s a i None in
             Some (set_task s t (mkT None a o (kd k) (ix k) (pl k) PDone)))
      | _ =>
          let s := guard s t in
          match cur s with
          | None => Some (goto (set_lk s a i None) t PBrk)
          | Some c =>
              if ad (arrs s c) =? ad (arrs s a)
              then deref s t a
                     (let s := set_lk s a i None in
                      Some (set_task s t (mkT (gd (tks s t)) a o (kd k) (S (ix k)) (pl k) PNext)))
              else Some (goto (set_lk s a i None) t PBrk)
          end
      end
  | PNext =>                                                       (* L533, L562; L646, L684 *)
      match kd k with
      | ScanR => deref s t a
                   (Some (if ix k <? ln (arrs s a) then goto s t PHas
                          else set_task s t (mkT None a o (kd k) (ix k) (pl k) PDone)))
      | _ => Some (if ix k <? pl k then goto s t PHas
                   else set_task s t (mkT None a o (kd k) (ix k) (pl k) PDone))
      end
  | PBrk =>                                                        (* L562; L684 *)
      match kd k with
      | ScanR => deref s t a
                   (Some (if ix k =? ln (arrs s a)
                          then set_task s t (mkT None a o (kd k) (ix k) (pl k) PDone)
                          else goto s t PLoad))
      | _ => Some (if ix k =? pl k
                   then set_task s t (mkT None a o (kd k) (ix k) (pl k) PDone)
                   else goto s t PLoad)
      end
  end.

(** A waiting task is dropped.  A rehashing task gives its range back
    (end_incremental_rehash with [success = false], L1137-1151: the position becomes the smaller one of
    the present position and [p]; both are multiples of BUCKET_LEN and the counter below them is less
    than BUCKET_LEN, so that comparing the packed words is comparing the positions); the lock on the old bucket is
    released, the locks on target buckets are not (see C45). *)
Definition give_back (s : state) (t o p : nat) : state :=
  let x := arrs s o in
  let l := drop_ref t (refs x) in
  set_rh s o (Nat.min (pos x) p) l.

Definition cancel_step (s : state) (t : nat) : option state :=
  let k := tks s t in
  let o := old k in
  let quit s := set_task s t (mkT None (rf k) o (kd k) (ix k) (pl k) PDone) in
  match at_ k with
  | PRb true p _ _ => deref s t o (Some (quit (give_back s t o p)))
  | PTgt true (KR p _) i _ _ _ => deref s t o (Some (quit (give_back (set_lk s o i None) t o p)))
  | PTgt true (KD _) i _ _ _ => deref s t o (Some (quit (set_lk s o i None)))
  | PDd true _ _ => Some (quit s)
  | PLk true _ => Some (quit s)
  | _ => None
  end.

(** An idle task starts an operation: L269-271, L517-520, L627-630. *)
Definition start_step (s : state) (t : nat) (k : kind) : option state :=
  match at_ (tks s t) with
  | PDone => if t <? nt s then Some (set_task s t (mkT None 0 0 k 0 0 PLoad)) else None
  | _ => None
  end.

(** The address of a new array differs from those of all arrays that have not been reclaimed. *)
Definition addr_ok (s : state) (d : nat) : bool :=
  forallb (fun a => fr (arrs s a) || negb (ad (arrs s a) =? d)) (seq 0 (na s)).

Definition fresh_arr (n d : nat) (o : option nat) : arr :=
  mkA n d o 0 [] (fun _ => false) (fun _ => None) None None false.

(** The first array of a container (allocate_bucket_array, L134-149), with [2^e] buckets. *)
Definition new_step (s : state) (e d : nat) : option state :=
  match cur s with
  | Some _ => None
  | None => if addr_ok s d
            then Some (mkS (Some (na s)) (upd (arrs s) (na s) (fresh_arr (2 ^ e) d None))
                           (S (na s)) (tks s) (nt s) (clk s) (err s))
            else None
  end.

(** try_resize, L1307-1327, L1416-1426: only if the current array has no linked one; the new array links it. *)
Definition resize_step (s : state) (e d : nat) : option state :=
  match cur s with
  | None => None
  | Some c =>
      if lnk (arrs s c) then None else
      if addr_ok s d
      then
        let x := arrs s c in
        Some (mkS (Some (na s))
               (upd (upd (arrs s) c
                      (mkA (ln x) (ad x) (lnk x) (pos x) (refs x) (kl x) (lk x) (Some (na s))
                           (rt x) (fr x)))
                    (na s) (fresh_arr (2 ^ e) d (Some c)))
               (S (na s)) (tks s) (nt s) (clk s) (err s))
      else None
  end.

(** try_resize on an empty container (try_drop_table, L1384-1415): every bucket is locked and killed,
    the array is unlinked and dropped. *)
Definition drop_step (s : state) : option state :=
  match cur s with
  | None => None
  | Some c =>
      let x := arrs s c in
      if lnk x then None else
      if forallb (fun i => match lk x i with None => true | Some _ => false end) (seq 0 (ln x))
      then
        let s := retire (set_arr s c (mkA (ln x) (ad x) (lnk x) (pos x) (refs x) (fun _ => true)
                                          (lk x) (par x) (rt x) (fr x))) c in
        Some (mkS None (arrs s) (na s) (tks s) (nt s) (clk s) (err s))
      else None
  end.

(** Reclamation (crate sdd): an array that was dropped may be reclaimed once every guard that existed
    when it was dropped is gone. *)
Definition free_step (s : state) (a : nat) : option state :=
  let x := arrs s a in
  match rt x with
  | None => None
  | Some r =>
      if (a <? na s) &&
         forallb (fun t => match gd (tks s t) with None => true | Some g => r <? g end) (seq 0 (nt s))
      then Some (set_arr s a (mkA (ln x) (ad x) (lnk x) (pos x) (refs x) (kl x) (lk x) (par x)
                                  (rt x) true))
      else None
  end.

Inductive action :=
| AStart (t : nat) (k : kind)
| AStep (t : nat) (b : bool)
| ACancel (t : nat)
| ANew (e d : nat)
| AResize (e d : nat)
| ADrop
| AFree (a : nat).

Definition step (s : state) (x : action) : option state :=
  match err s with
  | Some _ => None
  | None =>
      match x with
      | AStart t k => start_step s t k
      | AStep t b => task_step s t b
      | ACancel t => cancel_step s t
      | ANew e d => new_step s e d
      | AResize e d => resize_step s e d
      | ADrop => drop_step s
      | AFree a => free_step s a
      end
  end.

Fixpoint run (s : state) (l : list action) : option state :=
  match l with
  | [] => Some s
  | x :: l => match step s x with None => None | Some s => run s l end
  end.

End Step.

(** An empty container and [n] idle tasks. *)
Definition init (n : nat) : state :=
  mkS None (fun _ => fresh_arr 0 0 None) 0
      (fun _ => mkT None 0 0 ScanR 0 0 PDone) n 0 None.
