(** TreeIndex with any number of threads: lock-free descents, leaf splits, node splits with commit
    and rollback, coalescing, and changes of the root, arbitrarily interleaved.

    Models /repo/src/tree_index.rs (insert_sync, remove_if_sync, peek and its variants) and
    /repo/src/tree_index/{node,internal_node,leaf_node}.rs: search_value/search_entry, insert,
    remove_if, split_leaf, split_leaf_node, split_node, finish_split, commit, rollback, coalesce,
    split_root, cleanup_root.  Conventions and simplifications:
    - Leaves and nodes are objects of one heap, named by numbers; level 0 is a leaf, level 1 a leaf
      node, higher levels internal nodes.  A [LeafNode] and an [InternalNode] have the same fields
      [children], [unbounded_child], [split_op] and [lock].
    - One step is one access to shared memory, or a few of which at most one is visible to threads
      that do not hold the lock of the node; new objects are private until a pointer to them is
      stored.  Memory is sequentially consistent.
    - Operations on a leaf are atomic: that their compare-and-swap steps are is C27 (LeafLin), except
      that an insertion may report a duplicate for no reason when a split is rolled back meanwhile.
      Here it may always do so ([ASpur]).
      A leaf may answer [Full] at any time, and [children.insert] too; where a leaf or node is cut in
      two is arbitrary.  So the number of slots and [optimal_boundary] play no role.
    - [children] is the list of its live slots in key order, each with its key, its number and the
      child pointer.  Slots are never reused, so the numbers of the live slots and the count of slots
      used are what the ranks in the metadata tell: [validate] compares these.  A slot whose key has
      been removed is set to null a step later; a reader that loads it before or after that repeats
      its loop, because the metadata has changed; here it just repeats.
    - [lock] and [split_op] are the field [jb]: what the thread that holds the lock of the node is
      doing.  Such a thread proceeds alone, so its steps need no thread name.  Which thread takes up a
      job that returned [Full] is left open: its parent may take it up, or it may be rolled back.
      Threads lock nodes that they have visited, or the root.
    - A thread that has to retry continues at the root or at any node it has visited.
    - The linked list of leaves, iterators, [remove_range], [clear], unwinding and the reclamation of
      memory are left out.
    - [wlo], [over], [own] and the arguments of [fz] are ghosts: no step depends on them.  [err] is
      set by a step that would panic or be undefined in the code. *)
From Coq Require Import List Arith Bool Lia.
Import ListNotations.

Section tc.
Context {K V : Type} (leb : K -> K -> bool).

(** Key comparison: [Ord::cmp]. *)
Definition keqb (a b : K) : bool := leb a b && leb b a.
Definition ltb (a b : K) : bool := negb (leb b a).

(** ** Leaves and nodes *)
(** [AtomicShared] of the unbounded child: null, null with the tag [RETIRED], or a child.
    leaf_node.rs L18-31, internal_node.rs L22-31 *)
Inductive uptr := UNull | URet | UTo (c : nat).
(** A pointer field of a node: a slot of [children], or [unbounded_child]. *)
Inductive lpos := PSlot (j : nat) | PUb.

(** Whether a leaf is frozen (leaf.rs L210), and the node whose split froze it: as the leaf being
    split, as one of the two halves, or as a half of a split that has been rolled back. *)
Inductive fzs := Open | Orig (x : nat) | Hold (x : nat) | Gone.

(** What the holder of the lock of a node has done so far.
    [Split o c m low high]: the child [c] at [o] is to be replaced by [low] (keys up to [m]) and
    [high] (leaf_node.rs L806-846, internal_node.rs L583-824).  [Ins]: [low] is in [children]
    (L851-856 resp. L827-840).  [Full]: [children] was full, the node waits for its parent (L857-863
    resp. L841-846); the parent that works on it, and the leaf nodes made by [split_leaf_node]
    (L530-537), are noted.  [Commit]: commit has been called (L626 resp. L891).  [Swap0]: split
    without a high leaf (L884-904).  [CUb]: the unbounded child of an internal node has been replaced
    by the child in a slot whose key is still there (internal_node.rs L966-980).  [NewLk]: a new leaf
    node, locked until commit (leaf_node.rs L527-528). *)
Inductive job :=
| Idle | Poison | Locked | NewLk
| Swap0 (o : lpos) (c low : nat)
| Split (o : lpos) (c : nat) (m : K) (low high : nat)
| Ins (o : lpos) (c : nat) (m : K) (low high : nat) (thawed : bool)
| Full (o : lpos) (c : nat) (m : K) (low high : nat) (tk : option nat) (lns : option (nat * nat))
| Commit (c low high : nat) (lns : option (nat * nat)) (stage : nat)
| CUb (j : nat).

(** A live slot of [children]: key, number of the slot, child. *)
Definition cell := (K * (nat * nat))%type.
Definition ckey (e : cell) : K := fst e.
Definition cslot (e : cell) : nat := fst (snd e).
Definition cchild (e : cell) : nat := snd (snd e).

Record obj := Obj {
  lvl : nat;
  ents : list (K * V);        (* leaf: entries *)
  ret : bool;                 (* leaf: retired *)
  fz : fzs;                   (* leaf: frozen *)
  cells : list cell;          (* node: children *)
  nsl : nat;                  (* node: slots of children used so far *)
  ub : uptr;                  (* node: unbounded_child *)
  jb : job;                   (* node: lock and split_op *)
  over : bool;                (* ghost: replaced, never to be changed again *)
  wlo : option K;             (* ghost: keys up to this one are served by the replacement *)
  own : nat                   (* ghost: the node whose job created the object *)
}.

Definition leaf0 (es : list (K * V)) (f : fzs) (w : nat) : obj :=
  Obj 0 es false f [] 0 UNull Idle false None w.
Definition node0 (h : nat) (cs : list cell) (n : nat) (u : uptr) (j : job) (w : nat) : obj :=
  Obj h [] false Open cs n u j false None w.
Definition blank : obj := leaf0 [] Open 0.

Definition set_ents (x : obj) (es : list (K * V)) (r : bool) : obj :=
  Obj (lvl x) es r (fz x) (cells x) (nsl x) (ub x) (jb x) (over x) (wlo x) (own x).
Definition set_fz (f : fzs) (x : obj) : obj :=
  Obj (lvl x) (ents x) (ret x) f (cells x) (nsl x) (ub x) (jb x) (over x) (wlo x) (own x).
Definition set_cells (x : obj) (cs : list cell) (n : nat) : obj :=
  Obj (lvl x) (ents x) (ret x) (fz x) cs n (ub x) (jb x) (over x) (wlo x) (own x).
Definition set_ub (x : obj) (u : uptr) : obj :=
  Obj (lvl x) (ents x) (ret x) (fz x) (cells x) (nsl x) u (jb x) (over x) (wlo x) (own x).
Definition set_jb (j : job) (x : obj) : obj :=
  Obj (lvl x) (ents x) (ret x) (fz x) (cells x) (nsl x) (ub x) j (over x) (wlo x) (own x).
Definition set_over (w : option K) (x : obj) : obj :=
  Obj (lvl x) (ents x) (ret x) (fz x) (cells x) (nsl x) (ub x) (jb x) true w (own x).

(** Entries of a leaf as a map.  leaf.rs L342-372, L383-467, L514-519 *)
Fixpoint get (es : list (K * V)) (k : K) : option V :=
  match es with [] => None | (k', v) :: r => if keqb k k' then Some v else get r k end.
Definition del (es : list (K * V)) (k : K) : list (K * V) :=
  filter (fun e => negb (keqb k (fst e))) es.
Definition upto (m : K) (es : list (K * V)) := filter (fun e => leb (fst e) m) es.
Definition above (m : K) (es : list (K * V)) := filter (fun e => ltb m (fst e)) es.

Definition is_open (x : obj) : bool := match fz x with Open => true | _ => false end.
(** [Leaf::is_retired] leaf.rs L137, [Node::retired] node.rs L53-58 *)
Definition retired (x : obj) : bool :=
  match lvl x with
  | 0 => ret x
  | S _ => match ub x with URet => true | _ => false end
  end.

(** [try_lock] fails. *)
Definition locked (x : obj) : bool := match jb x with Idle => false | _ => true end.

(** ** Routing *)
(** The metadata that a reader loads and validates.  leaf.rs L564-607, L201-204 *)
Definition meta := (list (K * nat) * nat)%type.
Definition meta_of (x : obj) : meta := (map (fun e => (ckey e, cslot e)) (cells x), nsl x).
Fixpoint ks_eqb (a b : list (K * nat)) : bool :=
  match a, b with
  | [], [] => true
  | (k, i) :: a', (k', j) :: b' => keqb k k' && (i =? j) && ks_eqb a' b'
  | _, _ => false
  end.
Definition meta_eqb (a b : meta) : bool := ks_eqb (fst a) (fst b) && (snd a =? snd b).

(** [min_greater_equal] leaf.rs L564-607: the slot with the smallest key not below [k]. *)
Fixpoint route (ks : list (K * nat)) (k : K) : lpos :=
  match ks with
  | [] => PUb
  | (s, j) :: r => if leb k s then PSlot j else route r k
  end.
Definition pos (x : obj) (k : K) : lpos := route (fst (meta_of x)) k.
(** The child at a pointer field. *)
Fixpoint slot_child (cs : list cell) (j : nat) : option nat :=
  match cs with [] => None | e :: r => if cslot e =? j then Some (cchild e) else slot_child r j end.
Definition uto (u : uptr) : option nat := match u with UTo c => Some c | _ => None end.
Definition ptr (x : obj) (o : lpos) : option nat :=
  match o with PSlot j => slot_child (cells x) j | PUb => uto (ub x) end.

(** [children.insert] of a new key: the slot is the next unused one.  leaf.rs L342-372 *)
Fixpoint ins_cell (e : cell) (cs : list cell) : list cell :=
  match cs with
  | [] => [e]
  | a :: r => if leb (ckey e) (ckey a) then e :: cs else a :: ins_cell e r
  end.
Definition has_key (m : K) (cs : list cell) : bool := existsb (fun e => keqb m (ckey e)) cs.
(** [children.remove_if] of the key in a slot. *)
Definition del_slot (j : nat) (cs : list cell) : list cell :=
  filter (fun e => negb (cslot e =? j)) cs.
(** Store a child pointer. *)
Definition set_ptr (x : obj) (o : lpos) (c : nat) : obj :=
  match o with
  | PSlot j =>
      set_cells x (map (fun e => if cslot e =? j then (ckey e, (cslot e, c)) else e) (cells x)) (nsl x)
  | PUb => set_ub x (UTo c)
  end.

(** ** Operations and events *)
Inductive opk := OPeek (k : K) | OIns (k : K) (v : V) | ORem (k : K) (cond : V -> bool).
Definition okey (q : opk) : K := match q with OPeek k | OIns k _ | ORem k _ => k end.
(** [RSpur]: an insertion reports a duplicate for no reason; the caller cannot tell it from
    [RIns false]. *)
Inductive res := RVal (r : option V) | RIns (b : bool) | RSpur | RRem (b : bool).
(** Where a call is: not begun, about to load the root, at a node, after loading the metadata, after
    loading the child pointer, at a leaf, about to clean up the root after a removal that has emptied a
    leaf, returned (with the number of events by then). *)
Inductive pcs :=
| PNone | PStart | PNode (x : nat) | PMeta (x : nat) (M : meta) | PLoad (x : nat) (M : meta) (c : nat)
| PLeaf (l : nat) | PClean | PDone (r : res) (t1 : nat).
(** [t0]: the number of events when the call began.  [vis]: nodes visited.  [rmd]: the variable
    [removed] of tree_index.rs L446. *)
Record op := Op { kind : opk; pc : pcs; t0 : nat; vis : list nat; rmd : bool }.

(** The updates of leaves, newest first, with the call that made them. *)
Inductive ev := EIns (t : nat) (k : K) (v : V) | ERem (t : nat) (k : K).

Record st := St {
  hp : nat -> obj; fresh : nat; root : option nat; log : list ev; ops : nat -> option op; err : bool }.

Definition init : st := St (fun _ => blank) 0 None [] (fun _ => None) false.

Definition upd {A} (f : nat -> A) (x : nat) (a : A) : nat -> A :=
  fun y => if y =? x then a else f y.
Definition with_hp (s : st) (h : nat -> obj) : st := St h (fresh s) (root s) (log s) (ops s) (err s).
Definition put (s : st) (x : nat) (o : obj) : st := with_hp s (upd (hp s) x o).
Definition modi (s : st) (x : nat) (f : obj -> obj) : st := put s x (f (hp s x)).
Definition alloc (s : st) (o : obj) : st :=
  St (upd (hp s) (fresh s) o) (S (fresh s)) (root s) (log s) (ops s) (err s).
Definition with_root (s : st) (r : option nat) : st := St (hp s) (fresh s) r (log s) (ops s) (err s).
Definition with_log (s : st) (l : list ev) : st := St (hp s) (fresh s) (root s) l (ops s) (err s).
Definition with_op (s : st) (t : nat) (p : op) : st :=
  St (hp s) (fresh s) (root s) (log s) (upd (ops s) t (Some p)) (err s).
Definition crash (s : st) : st := St (hp s) (fresh s) (root s) (log s) (ops s) true.

Definition at_pc (p : op) (c : pcs) : op := Op (kind p) c (t0 p) (vis p) (rmd p).
Definition visit (p : op) (x : nat) : op := Op (kind p) (PNode x) (t0 p) (x :: vis p) (rmd p).
Definition goto (s : st) (t : nat) (p : op) (c : pcs) : option st := Some (with_op s t (at_pc p c)).
(** The call returns. *)
Definition fin (s : st) (t : nat) (p : op) (r : res) : option st :=
  goto s t p (PDone r (length (log s))).

(** ** Splits *)
(** Mark a child that is replaced, and the children being split below it (ghost). *)
Fixpoint inch (h : nat -> obj) (d x y : nat) : bool :=
  (x =? y) ||
  match d with
  | 0 => false
  | S d' => match jb (h x) with Full _ c _ _ _ _ _ => inch h d' c y | _ => false end
  end.
Definition mark (s : st) (x : nat) (w : option K) : st :=
  with_hp s (fun y => if inch (hp s) (lvl (hp s x)) x y then set_over w (hp s y) else hp s y).

(** The children of a node whose child at [o] is being replaced, with the replacements.
    leaf_node.rs L546-594, internal_node.rs L626-718 *)
Definition repl (x : obj) (o : lpos) (m : K) (low high : nat) : list (K * nat) * uptr :=
  let old e := (ckey e, cchild e) in
  match o with
  | PSlot j =>
      (flat_map (fun e => if cslot e =? j then [(m, low); (ckey e, high)] else [old e]) (cells x), ub x)
  | PUb => (map old (cells x) ++ [(m, low)], UTo high)
  end.
(** A new node with the given children.  [insert_unchecked] leaf.rs L191-197 *)
Fixpoint number (i : nat) (es : list (K * nat)) : list cell :=
  match es with [] => [] | (k, c) :: r => (k, (i, c)) :: number (S i) r end.
Definition mk_node (h : nat) (es : list (K * nat)) (u : uptr) (j : job) (w : nat) : obj :=
  node0 h (number 0 es) (length es) u j w.

(** The two new nodes that replace the node [x], whose job is [Full o c m low high], cut after [b]
    children, and the key between them.  leaf_node.rs L517-622, internal_node.rs L614-770 *)
Definition build (x : obj) (o : lpos) (m : K) (low high b w : nat) : option (K * obj * obj) :=
  let '(es, u) := repl x o m low high in
  let j := match lvl x with 1 => NewLk | _ => Idle end in
  match b with
  | 0 => None
  | S b' =>
      match nth_error es b' with
      | None => None
      | Some (mid, c) =>
          Some (mid, mk_node (lvl x) (firstn b' es) (UTo c) j w, mk_node (lvl x) (skipn b es) u j w)
      end
  end.

(** [split_node] on the locked node [n] for the child at [o], up to the insertion of the low node:
    internal_node.rs L567-824 (from L577), leaf_node.rs L517-622. *)
Definition take (s : st) (n : nat) (o : lpos) (b : nat) : option st :=
  match jb (hp s n), ptr (hp s n) o with
  | Locked, Some c =>
      let x := hp s c in
      match lvl x, jb x with
      | S _, Full o' c' m' low' high' None _ =>
          match build x o' m' low' high' b n with
          | None => None
          | Some (mid, xl, xh) =>
              let a := fresh s in
              let lns := match lvl x with 1 => Some (a, S a) | _ => None end in
              let s := modi s c (set_jb (Full o' c' m' low' high' (Some n) lns)) in
              let s := alloc (alloc s xl) xh in
              Some (modi s n (set_jb (Split o c mid a (S a))))
          end
      | _, _ => None
      end
  | _, _ => None
  end.

(** [self.children.insert(low_key.max, low)] succeeds.  leaf_node.rs L848-856, internal_node.rs
    L827-840.  [Duplicate] is [unreachable!()]. *)
Definition ins_low (s : st) (n : nat) : option st :=
  match jb (hp s n) with
  | Split o c m low high =>
      let x := hp s n in
      if has_key m (cells x) then Some (crash s)
      else
        let s := mark s c (Some m) in
        let s := modi s n (fun x => set_cells x (ins_cell (m, (nsl x, low)) (cells x)) (S (nsl x))) in
        Some (modi s n (set_jb (Ins o c m low high (negb (lvl x =? 1)))))
  | _ => None
  end.

(** The full child is replaced: leaf_node.rs L873-881, L896-904, internal_node.rs L849-857.  Then a
    replaced node is to be committed: L864-873. *)
Definition commit_child (s : st) (c : nat) : st :=
  match jb (hp s c) with
  | Full _ d _ low high _ lns => modi s c (set_jb (Commit d low high lns 0))
  | _ => s
  end.
Definition swap_high (s : st) (n : nat) : option st :=
  match jb (hp s n) with
  | Swap0 o c low =>
      let s := modi s c (set_over None) in
      Some (modi s n (fun x => set_jb Locked (set_ptr x o low)))
  | Ins o c _ _ high true =>
      let s := commit_child s c in
      Some (modi s n (fun x => set_jb Locked (set_ptr x o high)))
  | _ => None
  end.

Definition bind {A B} (x : option A) (f : A -> option B) : option B :=
  match x with Some a => f a | None => None end.

(** ** Steps *)
Inductive act :=
| AInv (t : nat) (q : opk) | ARoot (t : nat) | AInst (t : nat) | AMeta (t : nat) | ALoad (t : nat)
| AVal (t : nat) | ALeaf (t : nat) (full : bool) | ASpur (t : nat) | ABack (t x : nat) | AFin (t : nat) | ARetry (t : nat)
| SLock (t n : nat) | SUnlock (n : nat)
| SFrz (n : nat) (o : lpos) (m : option K) | SIns (n : nat) | SFull (n : nat) | SThaw (n : nat)
| SSwap (n : nat) | STake (n : nat) (o : lpos) (b : nat) | SCommit (n : nat) | SRoll (n : nat)
| SRem (n j : nat) | SUb (n : nat) | SUbRem (n : nat) | SRet (n : nat)
| SRSplit (b : nat) | SRPop | SRNone.

(** One step of call [t]. *)
Definition step_op (a : act) (s : st) (t : nat) (p : op) : option st :=
  let k := okey (kind p) in
  match a, pc p with
  (* self.root.load: tree_index.rs L263-265, L449, L480, L616-625.  Without a root, peek and remove
     return; insert goes on to install one. *)
  | ARoot _, PStart =>
      match root s with
      | Some r => Some (with_op s t (visit p r))
      | None =>
          match kind p with
          | OPeek _ => fin s t p (RVal None)
          | OIns _ _ => None
          | ORem _ _ => fin s t p (RRem (rmd p))
          end
      end
  (* self.root.compare_exchange(null, new leaf node): tree_index.rs L292-303 *)
  | AInst _, PStart =>
      match kind p, root s with
      | OIns _ _, None => Some (with_root (alloc s (node0 1 [] 0 UNull Idle 0)) (Some (fresh s)))
      | _, _ => None
      end
  (* A call that has to retry goes on at a node it has visited: leaf_node.rs L296-301, L350-355,
     internal_node.rs L270-276, L283-291. *)
  | ABack _ x, PStart => if existsb (Nat.eqb x) (vis p) then goto s t p (PNode x) else None
  (* remove_if_sync returns after a leaf was emptied: coalesce returned Success, or cleanup_root true.
     tree_index.rs L459-462, L467, node.rs L266-349 *)
  | AFin _, PClean => fin s t p (RRem true)
  (* cleanup_root returns false: the root has to go, and another thread holds its lock.  remove_if_sync
     starts over.  tree_index.rs L461-465, node.rs L278-303 *)
  | ARetry _, PClean =>
      match root s with
      | Some r =>
          let x := hp s r in
          let gone := retired x || match lvl x, cells x with S (S _), [] => true | _, _ => false end in
          if gone && locked x then goto s t p PStart else None
      | None => None
      end
  (* self.children.min_greater_equal(key): leaf_node.rs L120, L153, L258, L371, internal_node.rs
     L105, L129, L253, L372 *)
  | AMeta _, PNode x => goto s t p (PMeta x (meta_of (hp s x)))
  (* child.load, unbounded_child.load: leaf_node.rs L122, L137-144, L155, L163-170, L260, L309-335,
     L373, L391-411, and the same in internal_node.rs *)
  | ALoad _, PMeta x M =>
      match route (fst M) k with
      | PSlot j =>
          match slot_child (cells (hp s x)) j with
          | Some c => goto s t p (PLoad x M c)
          | None => goto s t p (PNode x)
          end
      | PUb =>
          match ub (hp s x), kind p with
          | UTo c, _ => goto s t p (PLoad x M c)
          | _, OPeek _ => fin s t p (RVal None)
          | _, ORem _ _ => fin s t p (RRem (rmd p))
          | URet, OIns _ _ => goto s t p PStart
          | UNull, OIns _ _ =>
              if lvl (hp s x) =? 1 then
                let l := fresh s in
                let s := alloc s (leaf0 [] Open 0) in
                goto (modi s x (fun o => set_ub o (UTo l))) t p (PLoad x M l)
              else goto s t p PStart
          end
      end
  (* self.children.validate(metadata) *)
  | AVal _, PLoad x M c =>
      if meta_eqb M (meta_of (hp s x)) then
        if lvl (hp s x) =? 1 then goto s t p (PLeaf c) else Some (with_op s t (visit p c))
      else goto s t p (PNode x)
  (* The operation on the leaf: leaf.rs L514, L342, L383.  A call that finds the leaf frozen, retired
     or full retries. *)
  | ALeaf _ full, PLeaf l =>
      let x := hp s l in
      match kind p with
      | OPeek _ => fin s t p (RVal (get (ents x) k))
      | OIns _ v =>
          if ret x || negb (is_open x) then goto s t p PStart
          else match get (ents x) k with
               | Some _ => fin s t p (RIns false)
               | None =>
                   if full then goto s t p PStart
                   else
                     let s := put s l (set_ents x ((k, v) :: ents x) false) in
                     let s := with_log s (EIns t k v :: log s) in
                     fin s t p (RIns true)
               end
      | ORem _ cond =>
          if negb (is_open x) then goto s t p PStart
          else match get (ents x) k with
               | None => fin s t p (RRem (rmd p))
               | Some v =>
                   if cond v then
                     let es := del (ents x) k in
                     let s := put s l (set_ents x es (match es with [] => true | _ => false end)) in
                     let s := with_log s (ERem t k :: log s) in
                     match es with
                     | [] => Some (with_op s t (Op (kind p) PClean (t0 p) (vis p) true))
                     | _ => fin s t p (RRem true)
                     end
                   else fin s t p (RRem (rmd p))
               end
      end
  | ASpur _, PLeaf _ => match kind p with OIns _ _ => fin s t p RSpur | _ => None end
  | _, _ => None
  end.

(** One step of the holder of a lock. *)
Definition step_sys (a : act) (s : st) : option st :=
  match a with
  (* lock.try_lock() succeeds *)
  | SLock t n =>
      let seen := match ops s t with Some p => existsb (Nat.eqb n) (vis p) | None => false end in
      let isroot := match root s with Some r => r =? n | None => false end in
      match lvl (hp s n), jb (hp s n) with
      | S _, Idle => if seen || isroot then Some (modi s n (set_jb Locked)) else None
      | _, _ => None
      end
  | SUnlock n => match jb (hp s n) with Locked => Some (modi s n (set_jb Idle)) | _ => None end
  (* split_leaf from the checks under the lock to freeze_and_distribute: leaf_node.rs L766-846,
     leaf.rs L610-640.  The low leaf is frozen before it is published: leaf_node.rs L845. *)
  | SFrz n o m =>
      let x := hp s n in
      match jb x, lvl x, ub x, ptr x o with
      | _, _, URet, _ => None
      | Locked, 1, _, Some l =>
          let y := hp s l in
          if negb (is_open y) then Some (crash s)
          else
            let a := fresh s in
            match m with
            | None =>
                let s := modi s l (set_fz (Orig n)) in
                let s := alloc s (leaf0 (ents y) Open n) in
                Some (modi s n (set_jb (Swap0 o l a)))
            | Some m =>
                match get (ents y) m, above m (ents y) with
                | Some _, _ :: _ =>
                    let s := modi s l (set_fz (Orig n)) in
                    let s := alloc s (leaf0 (upto m (ents y)) (Hold n) n) in
                    let s := alloc s (leaf0 (above m (ents y)) Open n) in
                    Some (modi s n (set_jb (Split o l m a (S a))))
                | _, _ => None
                end
            end
      | _, _, _, _ => None
      end
  | SIns n => ins_low s n
  (* children.insert fails: leaf_node.rs L857-863, internal_node.rs L841-846 *)
  | SFull n =>
      match jb (hp s n) with
      | Split o c m low high =>
          let s := if lvl (hp s n) =? 1 then modi s high (set_fz (Hold n)) else s in
          Some (modi s n (set_jb (Full o c m low high None None)))
      | _ => None
      end
  (* low_key_leaf.thaw(): leaf_node.rs L875-876 *)
  | SThaw n =>
      match jb (hp s n) with
      | Ins o c m low high false =>
          let s := modi s low (set_fz Open) in
          Some (modi s n (set_jb (Ins o c m low high true)))
      | _ => None
      end
  | SSwap n => swap_high s n
  | STake n o b => take s n o b
  (* commit: leaf_node.rs L626-681, internal_node.rs L891-900 *)
  | SCommit n =>
      match jb (hp s n) with
      | Commit c low high lns i =>
          if lvl (hp s n) =? 1 then
            match i, lns with
            | 0, _ => Some (modi (modi s low (set_fz Open)) n (set_jb (Commit c low high lns 1)))
            | 1, _ => Some (modi (modi s high (set_fz Open)) n (set_jb (Commit c low high lns 2)))
            | 2, Some (a, _) => Some (modi (modi s a (set_jb Idle)) n (set_jb (Commit c low high lns 3)))
            | 3, Some (_, b) => Some (modi (modi s b (set_jb Idle)) n (set_jb (Commit c low high lns 4)))
            | _, _ => Some (modi s n (set_jb Poison))
            end
          else Some (commit_child (modi s n (set_jb Poison)) c)
      | _ => None
      end
  (* rollback: leaf_node.rs L685-726, internal_node.rs L904-912 *)
  | SRoll n =>
      match jb (hp s n) with
      | Full _ c _ low high None _ =>
          let s := modi s n (set_jb Locked) in
          if lvl (hp s n) =? 1 then
            Some (modi (modi (modi s c (set_fz Open)) low (set_fz Gone)) high (set_fz Gone))
          else
            match jb (hp s c) with
            | Full o' c' m' low' high' _ lns' =>
                Some (modi s c (set_jb (Full o' c' m' low' high' None lns')))
            | _ => Some s
            end
      | _ => None
      end
  (* coalesce: a retired child in a slot.  leaf_node.rs L923-946, internal_node.rs L945-958 *)
  | SRem n j =>
      let x := hp s n in
      match jb x, slot_child (cells x) j with
      | Locked, Some c =>
          if retired (hp s c) then Some (put s n (set_cells x (del_slot j (cells x)) (nsl x))) else None
      | _, _ => None
      end
  (* coalesce: the unbounded child of an internal node has retired and is replaced by the child with
     the largest key.  internal_node.rs L963-980 *)
  | SUb n =>
      let x := hp s n in
      match jb x, lvl x, ub x, rev (cells x) with
      | Locked, S (S _), UTo c, (_, (j, d)) :: _ =>
          if retired (hp s c) then Some (put s n (set_jb (CUb j) (set_ub x (UTo d)))) else None
      | _, _, _, _ => None
      end
  | SUbRem n =>
      let x := hp s n in
      match jb x with
      | CUb j => Some (put s n (set_jb Locked (set_cells x (del_slot j (cells x)) (nsl x))))
      | _ => None
      end
  (* coalesce: no child is left.  leaf_node.rs L949-974, internal_node.rs L985-994 *)
  | SRet n =>
      let x := hp s n in
      match jb x, cells x, ub x with
      | Locked, [], UTo c => if retired (hp s c) then Some (put s n (set_ub x URet)) else None
      | _, _, _ => None
      end
  (* split_root: node.rs L199-257.  The new root is private until it is stored; the old root is
     locked, hence stays the root. *)
  | SRSplit b =>
      match root s with
      | Some r =>
          match jb (hp s r) with
          | Full _ _ _ _ _ None _ =>
              let n := fresh s in
              let s := alloc s (node0 (S (lvl (hp s r))) [] 0 (UTo r) Locked 0) in
              let s := with_root s (Some n) in
              bind (take s n PUb b) (fun s => bind (ins_low s n) (fun s =>
                if err s then Some s else swap_high s n))
          | _ => None
          end
      | None => None
      end
  (* cleanup_root: node.rs L266-349.  The root has one child, or none. *)
  | SRPop =>
      match root s with
      | Some n =>
          let x := hp s n in
          match jb x, lvl x, cells x, ub x with
          | Locked, S (S _), [], UTo c =>
              Some (with_root (put s n (set_jb Poison (set_over None x))) (Some c))
          | _, _, _, _ => None
          end
      | None => None
      end
  | SRNone =>
      match root s with
      | Some n =>
          let x := hp s n in
          match jb x, ub x with
          | Locked, URet =>
              Some (with_root (put s n (set_jb (match lvl x with 1 => Locked | _ => Poison end) x)) None)
          | _, _ => None
          end
      | None => None
      end
  | _ => None
  end.

Definition actor (a : act) : option nat :=
  match a with
  | ARoot t | AInst t | AMeta t | ALoad t | AVal t | ALeaf t _ | ASpur t | ABack t _ | AFin t | ARetry t => Some t
  | _ => None
  end.

Definition step (a : act) (s : st) : option st :=
  if err s then None
  else
    match a with
    | AInv t q =>
        match ops s t with
        | None => Some (with_op s t (Op q PStart (length (log s)) [] false))
        | Some _ => None
        end
    | _ =>
        match actor a with
        | Some t => match ops s t with Some p => step_op a s t p | None => None end
        | None => step_sys a s
        end
    end.

Fixpoint run (l : list act) (s : st) : option st :=
  match l with
  | [] => Some s
  | a :: r => match step a s with Some s' => run r s' | None => None end
  end.
End tc.
Global Arguments obj : clear implicits.
Global Arguments st : clear implicits.
Global Arguments op : clear implicits.
Global Arguments ev : clear implicits.
Global Arguments act : clear implicits.
Global Arguments opk : clear implicits.
Global Arguments job : clear implicits.
Global Arguments cell : clear implicits.
Global Arguments res : clear implicits.
