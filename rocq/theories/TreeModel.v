(** TreeIndex: a B+ tree of leaf nodes and internal nodes over a linked list of leaves.

    Models /repo/src/tree_index.rs and /repo/src/tree_index/{node,internal_node,leaf_node}.rs, and
    the part of leaf.rs that crosses leaves ([Scanner::jump]).  Conventions and simplifications:
    - One operation runs at a time: locks are always acquired, pointers and metadata never change
      between two reads ([validate] succeeds), allocation succeeds, user code does not panic.  Paths
      for the other cases ([rollback], [try_wait]) are left out.  An [Iter] or [Range] is a value
      that outlives the operations run between two [next] calls.
    - Leaves live in a heap and are named by their index; nodes own their children.  [AtomicShared]
      children are kept by value; the pointer of a child that has been removed is set to null in the
      code after its slot is dead, and is not touched here.
    - A [LeafNode] and an [InternalNode] have the same two fields [children] and [unbounded_child];
      [tree d] is a node [d] levels above the leaf nodes.  All leaf nodes have the same depth because
      nodes are only created by splitting, and the root by adding a level ([split_root]).
    - [split_op] is only read by the parent, right after the child returned [Full]; it is the
      payload of [NFull].
    - The linked list of leaves is [sdd::LinkedList] (not in /repo): one link with a tag, [push_back]
      refuses a deleted entry, [next_ptr] skips deleted entries.  Unlinking them for good, which is
      all [cleanup_link] is for, changes no [next_ptr] and is left out; [cleanup_link] keeps its
      result.
    - [unreachable!()], [unwrap] on [None]: [NPanic].  Fuel that runs out: [NFuel].  TreeThms.v shows
      that neither is ever returned. *)
From stdpp Require Import prelude list.
From Verif Require Import LeafModel.

Section tree.
Context {K V : Type} (cmp : K -> K -> comparison).

(** ** The heap of leaves *)
(** Tags of a link: [First] = marked (new leaves with smaller keys may follow), [Second] = deleted. *)
Inductive tag := TNone | TFirst | TSecond.
Record cell := Cell { c_leaf : leaf K V; c_next : option nat; c_tag : tag }.
Definition heap := list cell.

Definition set_leaf (h : heap) (i : nat) (l : leaf K V) : heap :=
  match h !! i with Some c => <[i := Cell l (c_next c) (c_tag c)]> h | None => h end.
Definition set_link (h : heap) (i : nat) (n : option nat) (t : tag) : heap :=
  match h !! i with Some c => <[i := Cell (c_leaf c) n t]> h | None => h end.
Definition leaf_at (h : heap) (i : nat) : leaf K V :=
  match h !! i with Some c => c_leaf c | None => new_leaf end.
(** [Shared::new(leaf)]: the new leaf is [length h]. *)
Definition alloc (h : heap) (l : leaf K V) : heap := h ++ [Cell l None TNone].

(** [LinkedList::push_back(entry, true)]. *)
Definition push_back (h : heap) (i j : nat) : heap :=
  match h !! i with
  | Some c =>
    match c_tag c with
    | TSecond => h
    | _ => set_link (set_link h j (c_next c) TNone) i (Some j) TFirst
    end
  | None => h
  end.
(** [LinkedList::delete_self]. *)
Definition delete_self (h : heap) (i : nat) : heap :=
  match h !! i with Some c => set_link h i (c_next c) TSecond | None => h end.
(** [LinkedList::is_clear]. *)
Definition is_clear (h : heap) (i : nat) : bool :=
  match h !! i with Some c => match c_tag c with TNone => true | _ => false end | None => true end.
(** [LinkedList::next_ptr]: the first entry after [i] that is not deleted. *)
Fixpoint skip_deleted (fuel : nat) (h : heap) (p : option nat) : option nat :=
  match fuel, p with
  | S f, Some i =>
    match h !! i with
    | Some c => match c_tag c with TSecond => skip_deleted f h (c_next c) | _ => Some i end
    | None => None
    end
  | _, _ => None
  end.
Definition next_ptr (h : heap) (i : nat) : option nat :=
  match h !! i with Some c => skip_deleted (S (length h)) h (c_next c) | None => None end.

(** ** Nodes *)
(** [unbounded_child]: null, null with the [RETIRED] tag (leaf_node.rs L20), or a child. *)
Inductive uptr (C : Type) := Null | Gone | To (c : C).
Arguments Null {C}. Arguments Gone {C}. Arguments To {C} _.
(** [LeafNode] leaf_node.rs L25-36, [InternalNode] internal_node.rs L22-34. *)
Record inode (C : Type) := INode { ch : leaf K C; ub : uptr C }.
Arguments INode {C} _ _. Arguments ch {C} _. Arguments ub {C} _.

Fixpoint kid (d : nat) : Type := match d with O => nat | S d' => inode (kid d') end.
Definition tree (d : nat) : Type := inode (kid d).

(** [LeafNode::new] leaf_node.rs L74, [InternalNode::new] internal_node.rs L56. *)
Definition new_node {C} : inode C := INode new_leaf Null.
(** [retired] leaf_node.rs L104, internal_node.rs L90. *)
Definition node_retired {C} (n : inode C) : bool := match ub n with Gone => true | _ => false end.

(** Where a child pointer is: a slot of [children], with its key, or [unbounded_child]. *)
Inductive pos := AtSlot (i : nat) (k : K) | AtUb.
Definition pos_key (p : pos) : option K := match p with AtSlot _ k => Some k | AtUb => None end.
(** The child for a key: [min_greater_equal] on [children], else [unbounded_child]. *)
Definition pick {C} (n : inode C) (k : K) : pos * uptr C :=
  let i := min_greater_equal_slot cmp (ch n) k in
  if (i =? num_entries)%nat then (AtUb, ub n)
  else match entry_at (slots (ch n)) i with
       | Some e => (AtSlot i e.1, To e.2)
       | None => (AtUb, ub n)
       end.
(** Stores through the pointer at a position ([AtomicShared::swap]). *)
Definition put {C} (n : inode C) (p : pos) (c : C) : inode C :=
  match p with
  | AtSlot i k => INode (Leaf (md (ch n)) (<[i := Some (k, c)]> (slots (ch n)))) (ub n)
  | AtUb => INode (ch n) (To c)
  end.

(** ** Lookups *)
(** [search_value] / [search_entry] leaf_node.rs L113-181, internal_node.rs L105-159. *)
Fixpoint search (d : nat) (h : heap) : tree d -> K -> option (K * V) :=
  match d return tree d -> K -> option (K * V) with
  | O => fun n k => match (pick n k).2 with To id => search_entry cmp (leaf_at h id) k | _ => None end
  | S d' => fun n k => match (pick n k).2 with To c => search d' h c k | _ => None end
  end.

(** ** Insertion *)
(** A split a node could not finish: [StructuralChange] leaf_node.rs L62-69, internal_node.rs L46-52.
    [so_leaves] are the leaf that was split and its halves, for [commit]. *)
Record split_op (C : Type) := SplitOp {
  so_origin : option K; so_mid : K; so_low : C; so_high : C; so_leaves : nat * nat * nat }.
Arguments SplitOp {C} _ _ _ _ _. Arguments so_origin {C} _. Arguments so_mid {C} _.
Arguments so_low {C} _. Arguments so_high {C} _. Arguments so_leaves {C} _.
(** [Result<InsertResult<K, V>, (K, V)>] of a node; [NErr] is [Err]. *)
Inductive nres (C : Type) :=
  NSuccess | NDuplicate | NRetired | NErr | NFull (op : split_op C) | NRetry | NPanic | NFuel.
Arguments NSuccess {C}. Arguments NDuplicate {C}. Arguments NRetired {C}. Arguments NErr {C}.
Arguments NFull {C} _. Arguments NRetry {C}. Arguments NPanic {C}. Arguments NFuel {C}.

(** The new child [low] with the key [mid] goes in [children], the child at [p] becomes [high]; if
    there is no room the parent has to split this node: leaf_node.rs L852-897, internal_node.rs
    L802-837. *)
Definition push_split {C} (n : inode C) (p : pos) (mid : K) (low high : C) (ls : nat * nat * nat)
  : inode C * nres C :=
  match insert cmp (ch n) mid low with
  | (ch', ISuccess) => (put (INode ch' (ub n)) p high, NRetry)
  | (_, IFull) | (_, IRetired) => (n, NFull (SplitOp (pos_key p) mid low high ls))
  | _ => (n, NPanic)
  end.

(** [thaw] leaf.rs L226-233, [freeze] L215-222. *)
Definition thaw_leaf (h : heap) (i : nat) : heap :=
  set_leaf h i (Leaf (thaw (md (leaf_at h i))) (slots (leaf_at h i))).
Definition freeze_leaf (h : heap) (i : nat) : heap :=
  set_leaf h i (Leaf (freeze (md (leaf_at h i))) (slots (leaf_at h i))).

(** [split_leaf] leaf_node.rs L771-914. *)
Definition split_leaf (h : heap) (n : inode nat) (p : pos) (id : nat) : heap * inode nat * nres nat :=
  let '(frozen_leaf, lo, hi) := distribute (leaf_at h id) in
  let h1 := set_leaf h id frozen_leaf in
  let low := length h in
  match hi with
  | Some hl =>
    let high := S low in
    let h2 := alloc (alloc h1 lo) hl in
    let h3 := freeze_leaf (push_back (push_back h2 id high) id low) low in
    match max_entry lo with
    | None => (h3, n, NPanic)
    | Some e =>
      match push_split n p e.1 low high (id, low, high) with
      | (n', NRetry) => (thaw_leaf (delete_self h3 id) low, n', NRetry)
      | (n', NFull op) => (freeze_leaf h3 high, n', NFull op)
      | (n', r) => (h3, n', r)
      end
    end
  | None =>
    (delete_self (push_back (alloc h1 lo) id low) id, put n p low, NRetry)
  end.

(** [LeafNode::insert] leaf_node.rs L264-364. *)
Fixpoint ln_insert (fuel : nat) (h : heap) (n : inode nat) (k : K) (v : V) : heap * inode nat * nres nat :=
  match fuel with
  | O => (h, n, NFuel)
  | S f =>
    let pu := pick n k in
    (* L311-327: a null unbounded child is created *)
    let '(h0, n0, u) := match pu.2 with
                        | Null => (alloc h new_leaf, put n AtUb (length h), To (length h))
                        | u => (h, n, u)
                        end in
    match u with
    | To id =>
      let '(l', r) := insert cmp (leaf_at h0 id) k v in
      let h1 := set_leaf h0 id l' in
      match r with
      | ISuccess => (h1, n0, NSuccess)
      | IDuplicate => (h1, n0, NDuplicate)
      | IFrozen => (h1, n0, NErr)
      | IFull | IRetired =>
        match split_leaf h1 n0 pu.1 id with
        | (h2, n2, NRetry) => ln_insert f h2 n2 k v
        | z => z
        end
      end
    | _ => (h0, n0, NRetired)
    end
  end.

(** The list of children during the split of a node, leaf_node.rs L543-597, internal_node.rs
    L620-731: the bounded ones and the unbounded one. *)
Definition replaced {C} (eqk : K -> K -> bool) (op : split_op C) (e : K * C) : list (K * C) :=
  match so_origin op with
  | Some k => if eqk e.1 k then [(so_mid op, so_low op); (e.1, so_high op)] else [e]
  | None => [e]
  end.
Definition key_eqb (a b : K) : bool := match cmp a b with Eq => true | _ => false end.
Definition bounded_children {C} (n : inode C) (op : split_op C) : list (K * C) :=
  concat (map (replaced key_eqb op) (scan (ch n))) ++
  match so_origin op with None => [(so_mid op, so_low op)] | Some _ => [] end.
Definition last_child {C} (n : inode C) (op : split_op C) : uptr C :=
  match so_origin op with None => To (so_high op) | Some _ => ub n end.
(** leaf_node.rs L599-634, internal_node.rs L733-778: the two new nodes and the key of the first.
    [bs] and the unbounded child are [entry_array], so [num_entries - 1] is [length bs]. *)
Definition divide {C} (n : inode C) (op : split_op C) : option (K * inode C * inode C) :=
  let bs := bounded_children n op in
  let s := Nat.min (optimal_boundary (md (ch n))) (length bs) in
  match bs !! (s - 1) with
  | Some e => Some (e.1, INode (fill new_leaf (take (s - 1) bs) 0) (To e.2),
                    INode (fill new_leaf (drop s bs) 0) (last_child n op))
  | None => None
  end.

(** [commit] leaf_node.rs L641-688, internal_node.rs L896-906: at the bottom, the leaf that was split
    is deleted and its halves become updatable. *)
Definition commit (h : heap) (ls : nat * nat * nat) : heap :=
  thaw_leaf (thaw_leaf (delete_self h ls.1.1) ls.1.2) ls.2.

(** [split_node] internal_node.rs L571-878. *)
Definition split_node {C} (h : heap) (n : inode (inode C)) (p : pos) (child : inode C) (op : split_op C)
  : heap * inode (inode C) * nres (inode C) :=
  match divide child op with
  | None => (h, n, NPanic)
  | Some (mid, low, high) =>
    match push_split n p mid low high (so_leaves op) with
    | (n', NRetry) => (commit h (so_leaves op), n', NRetry)
    | (n', r) => (h, n', r)
    end
  end.

(** [InternalNode::coalesce] internal_node.rs L937-1016. *)
Inductive rem_out := OSuccess | OCleanup | ORetired | OFail | OErr.
Fixpoint in_coalesce_loop {C} (es : list (K * inode C)) (c : leaf K (inode C)) (last : option (K * inode C))
  (deleted : bool) : leaf K (inode C) * option (K * inode C) * bool :=
  match es with
  | [] => (c, last, deleted)
  | e :: es' =>
    if node_retired e.2 then in_coalesce_loop es' (remove_if cmp c e.1 (fun _ => true)).1 last true
    else in_coalesce_loop es' c (Some e) deleted
  end.
(** [has_retired_node] internal_node.rs L1019-1039. *)
Definition in_has_retired {C} (n : inode (inode C)) : bool :=
  let es := scan (ch n) in
  existsb (fun e => node_retired e.2) es ||
  (match es with [] => match ub n with To u => node_retired u | _ => false end | _ => false end).
Fixpoint in_coalesce {C} (fuel : nat) (n : inode (inode C)) (deleted : bool) : inode (inode C) * rem_out :=
  match fuel with
  | O => (n, OErr)
  | S f =>
    let '(c, last, del) := in_coalesce_loop (scan (ch n)) (ch n) None deleted in
    let '(n', empty, del') :=
      match ub n with
      | To u =>
        if node_retired u then
          match last with
          | Some e => (INode (remove_if cmp c e.1 (fun _ => true)).1 (To e.2), false, true)
          | None => (INode c Gone, true, true)
          end
        else (INode c (ub n), false, del)
      | _ => (INode c (ub n), true, del)
      end in
    if empty then (n', ORetired)
    else if in_has_retired n' then in_coalesce f n' del'
    else (n', if del' then OCleanup else OSuccess)
  end.

(** [InternalNode::insert] internal_node.rs L246-355, around the insertion in the child; [cleanup_link]
    L289 is only reached when the child answers [Retry], which it does not. *)
Fixpoint in_insert {C} (ins : heap -> inode C -> heap * inode C * nres C) (fuel : nat)
  (h : heap) (n : inode (inode C)) (k : K) : heap * inode (inode C) * nres (inode C) :=
  match fuel with
  | O => (h, n, NFuel)
  | S f =>
    let pu := pick n k in
    match pu.2 with
    | To c =>
      match ins h c with
      | (h1, c', r) =>
        let n1 := put n pu.1 c' in
        match r with
        | NSuccess => (h1, n1, NSuccess)
        | NDuplicate => (h1, n1, NDuplicate)
        | NErr => (h1, n1, NErr)
        | NFull op =>
          match split_node h1 n1 pu.1 c' op with
          | (h2, n2, NRetry) => in_insert ins f h2 n2 k
          | z => z
          end
        | NRetired =>
          match in_coalesce 3 n1 false with
          | (n2, ORetired) => (h1, n2, NRetired)
          | (n2, _) => (h1, n2, NErr)
          end
        | NRetry => in_insert ins f h1 n1 k
        | NPanic => (h1, n1, NPanic)
        | NFuel => (h1, n1, NFuel)
        end
      end
    | _ => (h, n, NRetired)
    end
  end.

(** [Node::insert] node.rs L121-134.  Two rounds suffice at every level; three are given. *)
Fixpoint node_insert (d : nat) (k : K) (v : V) : heap -> tree d -> heap * tree d * nres (kid d) :=
  match d return heap -> tree d -> heap * tree d * nres (kid d) with
  | O => fun h n => ln_insert 3 h n k v
  | S d' => fun h n => in_insert (node_insert d' k v) 3 h n k
  end.

(** ** The tree *)
Record treeindex := Tree { hp : heap; root : option {d : nat & tree d} }.
(** [TreeIndex::new] tree_index.rs L93. *)
Definition new_tree : treeindex := Tree [] None.

(** [split_root] node.rs L197-270. *)
Definition split_root (t : treeindex) (d : nat) (n : tree d) (op : split_op (kid d)) : treeindex * bool :=
  match split_node (hp t) (INode new_leaf (To n)) AtUb n op with
  | (h, n', NRetry) => (Tree h (Some (existT (S d) n')), true)
  | (h, _, _) => (Tree h (Some (existT d n)), false)
  end.

(** [cleanup_root] node.rs L279-355. *)
Fixpoint cleanup_root (d : nat) : tree d -> option {d : nat & tree d} :=
  match d return tree d -> option {d : nat & tree d} with
  | O => fun n => if node_retired n then None else Some (existT 0 n)
  | S d' => fun n =>
    if node_retired n then None
    else if is_empty (ch n) then match ub n with To c => cleanup_root d' c | _ => None end
    else Some (existT (S d') n)
  end.
Definition clean (t : treeindex) : treeindex :=
  match root t with
  | Some (existT d n) => Tree (hp t) (cleanup_root d n)
  | None => t
  end.
(** tree_index.rs L293-305: a new leaf node becomes the root if there is none. *)
Definition ensure_root (t : treeindex) : treeindex :=
  match root t with Some _ => t | None => Tree (hp t) (Some (existT 0 new_node)) end.

(** [insert_sync] tree_index.rs L259-308; [true] = [Ok]. *)
Inductive ires := IOk | IErr | IBroken.
Fixpoint insert_loop (fuel : nat) (t : treeindex) (k : K) (v : V) : treeindex * ires :=
  match fuel with
  | O => (t, IBroken)
  | S f =>
    match root t with
    | None => insert_loop f (ensure_root t) k v
    | Some (existT d n) =>
      match node_insert d k v (hp t) n with
      | (h, n', r) =>
        let t' := Tree h (Some (existT d n')) in
        match r with
        | NSuccess => (t', IOk)
        | NDuplicate => (t', IErr)
        | NFull op =>
          match split_root t' d n' op with
          | (t'', true) => insert_loop f t'' k v
          | (t'', false) => (t'', IBroken)
          end
        | NRetired => insert_loop f (ensure_root (clean t')) k v
        | NErr | NRetry => insert_loop f (ensure_root t') k v
        | NPanic | NFuel => (t', IBroken)
        end
      end
    end
  end.
Definition insert_sync (t : treeindex) (k : K) (v : V) : treeindex * ires := insert_loop 4 t k v.

(** [peek], [peek_with], [peek_entry], [contains] tree_index.rs L616-712. *)
Definition peek_entry (t : treeindex) (k : K) : option (K * V) :=
  match root t with Some (existT d n) => search d (hp t) n k | None => None end.
Definition peek (t : treeindex) (k : K) : option V := snd <$> peek_entry t k.

(** ** Removal *)
(** [LeafNode::coalesce] leaf_node.rs L917-990: the loop over the children, the rest; [prev] =
    [prev_valid_leaf.is_some()]. *)
Fixpoint ln_coalesce_loop (es : list (K * nat)) (h : heap) (c : leaf K nat) (prev uncleaned : bool)
  : heap * leaf K nat * bool * bool :=
  match es with
  | [] => (h, c, prev, uncleaned)
  | e :: es' =>
    if retired (md (leaf_at h e.2)) then
      ln_coalesce_loop es' (delete_self h e.2) (remove_if cmp c e.1 (fun _ => true)).1 prev
        (uncleaned || negb prev)
    else ln_coalesce_loop es' h c true uncleaned
  end.
(** [has_retired_leaf] leaf_node.rs L993-1012. *)
Definition ln_has_retired (h : heap) (n : inode nat) : bool :=
  let es := scan (ch n) in
  existsb (fun e => retired (md (leaf_at h e.2))) es ||
  (match es with [] => match ub n with To u => retired (md (leaf_at h u)) | _ => false end | _ => false end).
Fixpoint ln_coalesce (fuel : nat) (h : heap) (n : inode nat) (uncleaned : bool) : heap * inode nat * rem_out :=
  match fuel with
  | O => (h, n, OErr)
  | S f =>
    let '(h1, c, prev, unc) := ln_coalesce_loop (scan (ch n)) h (ch n) false uncleaned in
    let '(h2, n', empty, unc') :=
      if prev then (h1, INode c (ub n), false, unc)
      else match ub n with
           | To u =>
             if retired (md (leaf_at h1 u)) then (delete_self h1 u, INode c Gone, true, true)
             else (h1, INode c (ub n), false, unc)
           | _ => (h1, INode c (ub n), true, unc)
           end in
    if empty then (h2, n', ORetired)
    else if ln_has_retired h2 n' then ln_coalesce f h2 n' unc'
    else (h2, n', if unc' then OCleanup else OSuccess)
  end.

(** [cleanup_link] leaf_node.rs L734-762, internal_node.rs L919-934: only whether the place is found. *)
Definition before {C} (n : inode C) (k : K) : uptr C :=
  let i := max_less cmp (ch n) k in
  if (i =? num_entries)%nat then Null
  else match entry_at (slots (ch n)) i with Some e => To e.2 | None => Null end.
Fixpoint cleanup_link (d : nat) (k : K) (traverse_max : bool) : tree d -> bool :=
  match d return tree d -> bool with
  | O => fun n => match (if traverse_max then ub n else before n k) with To _ => true | _ => false end
  | S d' => fun n => match (if traverse_max then ub n else before n k) with
                     | To c => cleanup_link d' k true c
                     | _ => false
                     end
  end.

(** [LeafNode::remove_if] leaf_node.rs L372-422, [InternalNode::remove_if] internal_node.rs L363-419. *)
Fixpoint node_remove (d : nat) (k : K) (cond : V -> bool) : heap -> tree d -> heap * tree d * rem_out :=
  match d return heap -> tree d -> heap * tree d * rem_out with
  | O => fun h n =>
    match (pick n k).2 with
    | To id =>
      let '(l', r) := remove_if cmp (leaf_at h id) k cond in
      let h1 := set_leaf h id l' in
      match r with
      | RSuccess => (h1, n, OSuccess)
      | RFail => (h1, n, OFail)
      | RFrozen => (h1, n, OErr)
      | RRetired => ln_coalesce 3 h1 n false
      end
    | _ => (h, n, OFail)
    end
  | S d' => fun h n =>
    let pu := pick n k in
    match pu.2 with
    | To c =>
      match node_remove d' k cond h c with
      | (h1, c', r) =>
        let n1 := put n pu.1 c' in
        match r with
        | OCleanup => (h1, n1, if cleanup_link (S d') k false n1 then OSuccess else OCleanup)
        | ORetired => let z := in_coalesce 3 n1 false in (h1, z.1, z.2)
        | _ => (h1, n1, r)
        end
      end
    | _ => (h, n, OFail)
    end
  end.

(** [remove_if_sync] tree_index.rs L442-480.  The root is never locked by another thread, so
    [cleanup_root] succeeds; [OErr] cannot occur and would repeat the loop. *)
Definition remove_if_sync (t : treeindex) (k : K) (cond : V -> bool) : treeindex * bool :=
  match root t with
  | None => (t, false)
  | Some (existT d n) =>
    match node_remove d k cond (hp t) n with
    | (h, n', r) =>
      let t' := Tree h (Some (existT d n')) in
      match r with
      | OSuccess => (t', true)
      | OCleanup | ORetired => (clean t', true)
      | OFail | OErr => (t', false)
      end
    end
  end.

(** ** Removal of a range *)
(** [RemoveRangeState] leaf_node.rs L45-57, [next] L1035-1080.  [None] = [unreachable!()]. *)
Inductive rr_state := Below | MaybeBelow | FullyContained | MaybeAbove.
Definition rr_next (s : rr_state) (k : K) (r : bound K * bound K) (start_unbounded : bool) : option rr_state :=
  if range_contains cmp r k then
    match s with
    | Below => Some (if start_unbounded then FullyContained else MaybeBelow)
    | MaybeBelow | FullyContained => Some FullyContained
    | MaybeAbove => None
    end
  else
    match s with
    | Below =>
      match r.1 with
      | Included a => Some (match cmp a k with Lt | Eq => MaybeAbove | Gt => Below end)
      | Excluded a => Some (match cmp a k with Lt => MaybeAbove | Gt | Eq => Below end)
      | Unbounded => Some MaybeAbove
      end
    | MaybeBelow | FullyContained => Some MaybeAbove
    | MaybeAbove => None
    end.

(** What the caller passes: nothing, [valid_upper_min_node], or [valid_lower_max_leaf].  The leaf node
    at the end of the lower border calls [remove_range] on [valid_upper_min_node] as its very last
    action (L497-508); here it returns the leaf it would pass ([Reached]) and the node that chose the
    two borders makes the call. *)
Inductive rr_mode := Plain | WithUpper | WithLower (leaf : nat).
Inductive rr_out := NotReached | Reached (leaf : option nat).

Definition leaf_remove_range (h : heap) (id : nat) (r : bound K * bound K) : heap :=
  set_leaf h id (remove_range cmp (leaf_at h id) r).

(** [LeafNode::remove_range] leaf_node.rs L428-514: the loop over the children; [first] is
    [first_valid_leaf]. *)
Fixpoint ln_rr_loop (es : list (K * nat)) (r : bound K * bound K) (su : bool) (s : rr_state)
  (h : heap) (c : leaf K nat) (count : nat) (first : option nat)
  : option (heap * leaf K nat * nat * option nat) :=
  match es with
  | [] => Some (h, c, count, first)
  | e :: es' =>
    s' ← rr_next s e.1 r su;
    let first' := match first with None => Some e.2 | Some _ => first end in
    match s' with
    | Below | MaybeBelow => ln_rr_loop es' r su s' (leaf_remove_range h e.2 r) c (S count) first'
    | FullyContained => ln_rr_loop es' r su s' (delete_self h e.2) (remove_if cmp c e.1 (fun _ => true)).1 count first
    | MaybeAbove => Some (leaf_remove_range h e.2 r, c, S count, first')
    end
  end.
Definition ln_remove_range (r : bound K * bound K) (h : heap) (n : inode nat) (su : bool) (mode : rr_mode)
  : option (heap * inode nat * nat * rr_out) :=
  z ← ln_rr_loop (scan (ch n)) r su Below h (ch n) 1 None;
  let '(h1, c, count, first) := z in
  let n' := INode c (ub n) in
  let h2 := match ub n with To u => leaf_remove_range h1 u r | _ => h1 end in
  let ubid := match ub n with To u => Some u | _ => None end in
  match mode with
  | Plain => Some (h2, n', count, NotReached)
  | WithLower leaf =>
    Some (set_link h2 leaf (match first with Some i => Some i | None => ubid end) TNone, n', count, NotReached)
  | WithUpper => Some (h2, n', count, Reached ubid)
  end.

(** [InternalNode::remove_range] internal_node.rs L426-563: the loop over the children. *)
Fixpoint in_rr_loop {C} (es : list (K * C)) (r : bound K * bound K) (su upper : bool) (s : rr_state)
  (c : leaf K C) (count : nat) (lo hi : option (K * C))
  : option (rr_state * leaf K C * nat * option (K * C) * option (K * C)) :=
  match es with
  | [] => Some (s, c, count, lo, hi)
  | e :: es' =>
    s' ← rr_next s e.1 r su;
    match s' with
    | Below => in_rr_loop es' r su upper s' c (S count) lo hi
    | MaybeBelow => in_rr_loop es' r su upper s' c (S count) (Some e) hi
    | FullyContained => in_rr_loop es' r su upper s' (remove_if cmp c e.1 (fun _ => true)).1 count lo hi
    | MaybeAbove =>
      if upper then Some (s', (remove_if cmp c e.1 (fun _ => true)).1, count, lo, hi)
      else Some (s', c, S count, lo, Some e)
    end
  end.
(** Stores a child back in the slot of its key. *)
Definition put_key {C} (n : inode C) (k : K) (c : C) : inode C :=
  match search_slot cmp (slots (ch n)) k (md (ch n)) with
  | Some i => put n (AtSlot i k) c
  | None => n
  end.
Definition put_border {C} (n : inode C) (b : option (K * C)) (c : C) : inode C :=
  match b with Some e => put_key n e.1 c | None => put n AtUb c end.

Section internal.
Context {C : Type} (rr : heap -> inode C -> bool -> rr_mode -> option (heap * inode C * nat * rr_out)).
(** L480-560.  [upper_border]: a child with a key, or [unbounded_child] (L480-503). *)
Definition in_remove_range (r : bound K * bound K) (h : heap) (n : inode (inode C)) (su : bool) (mode : rr_mode)
  : option (heap * inode (inode C) * nat * rr_out) :=
  let with_upper := match mode with WithUpper => true | _ => false end in
  z ← in_rr_loop (scan (ch n)) r su with_upper Below (ch n) 1 None None;
  let '(s, c, count, lo, hi) := z in
  let n1 := INode c (ub n) in
  match mode with
  | WithLower leaf =>
    match (match hi with Some e => To e.2 | None => ub n end) with
    | To u =>
      y ← rr h u true (WithLower leaf);
      let '(h', u', _, _) := y in Some (h', put_border n1 hi u', count, NotReached)
    | _ => Some (h, n1, count, NotReached)
    end
  | WithUpper =>
    (* L523-530: the lower border becomes the unbounded child *)
    let n2 := match lo with
              | Some e => INode (remove_if cmp c e.1 (fun _ => true)).1 (To e.2)
              | None => n1
              end in
    match ub n2 with
    | To l =>
      y ← rr h l su WithUpper;
      let '(h', l', _, o) := y in Some (h', put n2 AtUb l', count, o)
    | _ => Some (h, n2, count, NotReached)
    end
  | Plain =>
    match (match hi with Some e => To e.2 | None => ub n end) with
    | To u =>
      match lo with
      | None =>
        y ← rr h u su Plain;
        let '(h', u', _, _) := y in Some (h', put_border n1 hi u', count, NotReached)
      | Some e =>
        y ← rr h e.2 su WithUpper;
        let '(h', l', _, o) := y in
        let n2 := put_key n1 e.1 l' in
        match o with
        | Reached leaf =>
          x ← rr h' u true (match leaf with Some i => WithLower i | None => Plain end);
          let '(h'', u', _, _) := x in Some (h'', put_border n2 hi u', count, NotReached)
        | NotReached => Some (h', n2, count, NotReached)
        end
      end
    | _ => Some (h, n1, count, NotReached)
    end
  end.
End internal.

Fixpoint node_remove_range (d : nat) (r : bound K * bound K)
  : heap -> tree d -> bool -> rr_mode -> option (heap * tree d * nat * rr_out) :=
  match d return heap -> tree d -> bool -> rr_mode -> option (heap * tree d * nat * rr_out) with
  | O => fun h n su mode => ln_remove_range r h n su mode
  | S d' => fun h n su mode => in_remove_range (node_remove_range d' r) r h n su mode
  end.
(** [remove_range_sync] tree_index.rs L572-592; [false] = panic. *)
Definition remove_range_sync (t : treeindex) (r : bound K * bound K) : treeindex * bool :=
  match root t with
  | None => (t, true)
  | Some (existT d n) =>
    match node_remove_range d r (hp t) n (match r.1 with Unbounded => true | _ => false end) Plain with
    | Some (h, n', count, _) =>
      let t' := Tree h (Some (existT d n')) in
      (if (count <? 2)%nat then clean t' else t', true)
    | None => (t, false)
    end
  end.

(** [clear] tree_index.rs L132-136, leaf_node.rs L90-101, internal_node.rs L68-80. *)
Fixpoint clear_links (d : nat) : heap -> tree d -> heap :=
  match d return heap -> tree d -> heap with
  | O => fun h n =>
    let h1 := foldl (fun h e => set_link h e.2 None TNone) h (scan (ch n)) in
    match ub n with To u => set_link h1 u None TNone | _ => h1 end
  | S d' => fun h n =>
    let h1 := foldl (fun h e => clear_links d' h e.2) h (scan (ch n)) in
    match ub n with To u => clear_links d' h1 u | _ => h1 end
  end.
Definition clear (t : treeindex) : treeindex :=
  match root t with
  | Some (existT d n) => Tree (clear_links d (hp t) n) None
  | None => t
  end.

(** ** Iterators *)
(** [Scanner] leaf.rs L865-1000: the leaf, the metadata when it was created, and the current slot
    ([SDone] = [usize::MAX]). *)
Inductive spos := SStart | SAt (i : nat) | SDone.
Record scanner := Scanner { sc_leaf : nat; sc_meta : meta; sc_pos : spos }.
Definition sc_new (h : heap) (i : nat) : scanner := Scanner i (md (leaf_at h i)) SStart.
Definition sc_get (h : heap) (s : scanner) : option (K * V) :=
  match sc_pos s with SAt i => entry_at (slots (leaf_at h (sc_leaf s))) i | _ => None end.
(** [proceed] L942-953, [next] L991-995. *)
Definition proceed (s : scanner) : scanner :=
  let go i := let j := next i (sc_meta s) in
              Scanner (sc_leaf s) (sc_meta s) (if (j =? num_entries)%nat then SDone else SAt j) in
  match sc_pos s with
  | SStart => go num_entries
  | SAt i => go i
  | SDone => s
  end.
(** [max_key] L904. *)
Definition sc_max_key (h : heap) (s : scanner) : option K := fst <$> max_entry (leaf_at h (sc_leaf s)).
(** [Scanner::max_less] L964-982. *)
Definition sc_max_less (h : heap) (i : nat) (k : K) : option scanner :=
  let j := max_less cmp (leaf_at h i) k in
  if (j =? num_entries)%nat then None else Some (Scanner i (md (leaf_at h i)) (SAt j)).

(** [jump] L908-939: [fuel] bounds the entries of a leaf, then the leaves. *)
Fixpoint skip_keys (fuel : nat) (h : heap) (s : scanner) (k : K) : option scanner :=
  match fuel with
  | O => None
  | S f =>
    let s' := proceed s in
    match sc_get h s' with
    | None => None
    | Some e => match cmp k e.1 with Lt => Some s' | _ => skip_keys f h s' k end
    end
  end.
Fixpoint jump_loop (fuel : nat) (h : heap) (bound : option K) (p : option nat) : option scanner :=
  match fuel, p with
  | S f, Some i =>
    match bound with
    | Some k => match skip_keys (S num_entries) h (sc_new h i) k with
                | Some s => Some s
                | None => jump_loop f h bound (next_ptr h i)
                end
    | None => let s := proceed (sc_new h i) in
              match sc_get h s with
              | Some _ => Some s
              | None => jump_loop f h bound (next_ptr h i)
              end
    end
  | _, _ => None
  end.
(** [is_clear] is asked again at every leaf in the code; it is the same leaf every time. *)
Definition jump (h : heap) (s : scanner) (min_allowed : option K) : option scanner :=
  jump_loop (S (length h)) h (if is_clear h (sc_leaf s) then None else min_allowed)
    (next_ptr h (sc_leaf s)).

(** [min] leaf_node.rs L185-212, internal_node.rs L163-195. *)
Fixpoint node_min (d : nat) (h : heap) : tree d -> option scanner :=
  match d return tree d -> option scanner with
  | O => fun n => match scan (ch n) with
                  | e :: _ => Some (sc_new h e.2)
                  | [] => match ub n with To u => Some (sc_new h u) | _ => None end
                  end
  | S d' => fun n =>
    let fix go es := match es with
                     | [] => match ub n with To u => node_min d' h u | _ => None end
                     | e :: es' => match node_min d' h e.2 with Some s => Some s | None => go es' end
                     end in
    go (scan (ch n))
  end.

(** The part of [max_le_appr] after the labels "Fallback", leaf_node.rs L240-255, internal_node.rs
    L224-239. *)
Fixpoint from_min (fuel : nat) (h : heap) (s : scanner) (k : K) : option scanner :=
  match fuel with
  | O => None
  | S f =>
    match sc_get h s with
    | Some e => match cmp k e.1 with Lt => None | _ => Some s end
    | None => s' ← jump h s None; from_min f h s' k
    end
  end.
(** [max_le_appr] leaf_node.rs L216-256, internal_node.rs L202-240. *)
Fixpoint max_le_appr (d : nat) (h : heap) (k : K) : tree d -> option scanner :=
  match d return tree d -> option scanner with
  | O => fun n =>
    match (match before n k with To id => sc_max_less h id k | _ => None end) with
    | Some s => Some s
    | None => s ← node_min 0 h n; from_min (S (S (length h))) h (proceed s) k
    end
  | S d' => fun n =>
    match (match before n k with To c => max_le_appr d' h k c | _ => None end) with
    | Some s => Some s
    | None => s ← node_min (S d') h n; from_min (S (S (length h))) h (proceed s) k
    end
  end.

(** [Iter] tree_index.rs L72-76; its state is [leaf_scanner]. *)
Definition iter := option scanner.
(** [Iter::next] L897-927. *)
Definition iter_next (t : treeindex) (it : iter) : iter * option (K * V) :=
  let h := hp t in
  let it1 := match it with
             | Some s => Some s
             | None => match root t with Some (existT d n) => node_min d h n | None => None end
             end in
  match it1 with
  | None => (None, None)
  | Some s =>
    let s' := proceed s in
    match sc_get h s' with
    | Some e => (Some s', Some e)
    | None =>
      match jump h s' (fst <$> sc_get h s) with
      | Some s2 => match sc_get h s2 with Some e => (Some s2, Some e) | None => (None, None) end
      | None => (None, None)
      end
    end
  end.
(** Calls [next] until it answers [None]. *)
Fixpoint iter_loop (fuel : nat) (t : treeindex) (it : iter) : list (K * V) :=
  match fuel with
  | O => []
  | S f => match iter_next t it with
           | (it', Some e) => e :: iter_loop f t it'
           | (_, None) => []
           end
  end.
(** Enough for every entry of every leaf and one more call. *)
Definition iter_all (t : treeindex) : list (K * V) := iter_loop (S (num_entries * length (hp t))) t None.
(** [len] L726, [is_empty] L744. *)
Definition len (t : treeindex) : nat := length (iter_all t).
Definition tree_is_empty (t : treeindex) : bool :=
  match iter_next t None with (_, Some _) => false | _ => true end.

(** [Range] tree_index.rs L79-87, without the constant fields. *)
Record range := Range { rg_scanner : option scanner; check_lower : bool; check_upper : bool }.
(** [Range::new] L937-952. *)
Definition new_range : range := Range None true false.
(** [set_check_upper_bound] L1022-1033. *)
Definition upper_check (h : heap) (r : bound K * bound K) (s : scanner) : bool :=
  match r.2 with
  | Excluded b => match sc_max_key h s with
                  | Some m => match cmp b m with Gt => false | _ => true end
                  | None => false
                  end
  | Included b => match sc_max_key h s with
                  | Some m => match cmp b m with Lt => true | _ => false end
                  | None => false
                  end
  | Unbounded => false
  end.
(** L988-995: past empty leaves. *)
Fixpoint first_entry (fuel : nat) (h : heap) (s : scanner) : option scanner :=
  match fuel with
  | O => None
  | S f => match sc_get h s with Some _ => Some s | None => s' ← jump h s None; first_entry f h s' end
  end.
(** [next_unbounded] L965-1019.  [henv] is the heap when the maximum key of the leaf is read
    ([set_check_upper_bound]); it is [hp t] unless another thread intervenes (C30). *)
Definition next_unbounded (t : treeindex) (henv : heap) (r : bound K * bound K) (g : range)
  : range * option (K * V) :=
  let h := hp t in
  let lower := match r.1 with Included a | Excluded a => Some a | Unbounded => None end in
  match rg_scanner g with
  | Some s =>
    let s' := proceed s in
    match sc_get h s' with
    | Some e => (Range (Some s') (check_lower g) (check_upper g), Some e)
    | None =>
      match jump h s' (fst <$> sc_get h s) with
      | Some s2 => match sc_get h s2 with
                   | Some e => (Range (Some s2) (check_lower g) (upper_check henv r s2), Some e)
                   | None => (Range None (check_lower g) (check_upper g), None)
                   end
      | None => (Range None (check_lower g) (check_upper g), None)
      end
    end
  | None =>
    match root t with
    | None => (g, None)
    | Some (existT d n) =>
      let cl := match lower with None => false | Some _ => check_lower g end in
      let s0 := match lower with Some a => max_le_appr d h a n | None => None end in
      let s1 := match s0 with
                | Some s => Some s
                | None => s ← node_min d h n; first_entry (S (S (length h))) h (proceed s)
                end in
      match s1 with
      | Some s => match sc_get h s with
                  | Some e => (Range (Some s) cl (upper_check henv r s), Some e)
                  | None => (Range None cl (check_upper g), None)
                  end
      | None => (Range None cl (check_upper g), None)
      end
    end
  end.
(** [Range::next] L1057-1096: the loop skips entries below the lower bound. *)
Definition below (r : bound K * bound K) (k : K) : bool :=
  match r.1 with
  | Excluded a => match cmp a k with Lt => false | _ => true end
  | Included a => match cmp a k with Gt => true | _ => false end
  | Unbounded => false
  end.
Definition within_upper (r : bound K * bound K) (k : K) : bool :=
  match r.2 with
  | Excluded b => match cmp b k with Gt => true | _ => false end
  | Included b => match cmp b k with Lt => false | _ => true end
  | Unbounded => true
  end.
Fixpoint range_next (fuel : nat) (t : treeindex) (henv : heap) (r : bound K * bound K) (g : range)
  : range * option (K * V) :=
  match fuel with
  | O => (g, None)
  | S f =>
    match next_unbounded t henv r g with
    | (g1, None) => (g1, None)
    | (g1, Some e) =>
      if check_lower g1 && below r e.1 then range_next f t henv r g1
      else
        let g2 := Range (rg_scanner g1) false (check_upper g1) in
        if check_upper g2 then (g2, if within_upper r e.1 then Some e else None)
        else (g2, Some e)
    end
  end.
Definition range_fuel (t : treeindex) : nat := S (num_entries * length (hp t)).
Fixpoint range_loop (fuel : nat) (t : treeindex) (r : bound K * bound K) (g : range) : list (K * V) :=
  match fuel with
  | O => []
  | S f => match range_next (range_fuel t) t (hp t) r g with
           | (g', Some e) => e :: range_loop f t r g'
           | (_, None) => []
           end
  end.
Definition range_all (t : treeindex) (r : bound K * bound K) : list (K * V) :=
  range_loop (range_fuel t) t r new_range.

(** [Clone] tree_index.rs L804-816, [FromIterator], [Extend]: repeated [insert_sync]. *)
Definition insert_each (t : treeindex) (es : list (K * V)) : treeindex :=
  foldl (fun t e => (insert_sync t e.1 e.2).1) t es.
Definition clone (t : treeindex) : treeindex := insert_each new_tree (iter_all t).
(** [PartialEq] L854-866. *)
Fixpoint same_entries (eqv : V -> V -> bool) (a b : list (K * V)) : bool :=
  match a, b with
  | [], [] => true
  | x :: a', y :: b' => key_eqb x.1 y.1 && eqv x.2 y.2 && same_entries eqv a' b'
  | _, _ => false
  end.
Definition tree_eq (eqv : V -> V -> bool) (t t' : treeindex) : bool :=
  same_entries eqv (iter_all t) (iter_all t').

End tree.
Arguments cell : clear implicits.
Arguments heap : clear implicits.
Arguments inode : clear implicits.
Arguments INode {K C} _ _. Arguments ch {K C} _. Arguments ub {K C} _.
Arguments Null {C}. Arguments Gone {C}. Arguments To {C} _.
Arguments kid : clear implicits.
Arguments tree : clear implicits.
Arguments split_op : clear implicits.
Arguments SplitOp {K C} _ _ _ _ _. Arguments so_origin {K C} _. Arguments so_mid {K C} _.
Arguments so_low {K C} _. Arguments so_high {K C} _. Arguments so_leaves {K C} _.
Arguments nres : clear implicits.
Arguments NSuccess {K C}. Arguments NDuplicate {K C}. Arguments NRetired {K C}. Arguments NErr {K C}.
Arguments NFull {K C} _. Arguments NRetry {K C}. Arguments NPanic {K C}. Arguments NFuel {K C}.
Arguments treeindex : clear implicits.
Arguments new_tree {K V}.
Arguments pos : clear implicits.
