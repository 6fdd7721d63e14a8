(** Unwinding: [K::clone] or [K::cmp], which the user supplies, panics while [insert_sync] splits a leaf. *)
From stdpp Require Import prelude list sorting.
From Verif Require Import LeafModel TreeModel.

Section unwind.
Context {K V : Type} (cmp : K -> K -> comparison).

(** [split_leaf] leaf_node.rs L771-914 until the evaluation of the arguments of [children.insert]
    L852-855: the halves of the leaf are linked behind it (L832-840) and the lower one is frozen
    (L846).  There [max_key().unwrap().clone()] panics (a panic of [K::cmp] in [children.insert] has the
    same effects).  Unwinding runs the [ExitGuard] L807-811, which thaws the leaf, forgets the
    [split_op] and releases the lock, and nothing else.  [None]: that [clone] is not called. *)
Definition split_leaf_unwound (h : heap K V) (id : nat) : option (heap K V) :=
  match distribute (leaf_at h id) with
  | (frozen_leaf, lo, Some hl) =>
    let low := length h in
    let h2 := alloc (alloc (set_leaf h id frozen_leaf) lo) hl in
    let h3 := freeze_leaf (push_back (push_back h2 id (S low)) id low) low in
    Some (thaw_leaf h3 id)
  | (_, _, None) => None
  end.
(** The first descent of [insert], leaf_node.rs L264-364 and internal_node.rs L246-355; the nodes above
    the leaf hold no lock and are left as they are. *)
Fixpoint node_unwound (d : nat) (k : K) (v : V) : heap K V -> tree K d -> option (heap K V) :=
  match d return heap K V -> tree K d -> option (heap K V) with
  | O => fun h n =>
    match (pick cmp n k).2 with
    | To id => match (insert cmp (leaf_at h id) k v).2 with
               | IFull => split_leaf_unwound h id
               | _ => None
               end
    | _ => None
    end
  | S d' => fun h n => match (pick cmp n k).2 with To c => node_unwound d' k v h c | _ => None end
  end.
(** [insert_sync(k, v)] tree_index.rs L259-308 that unwinds at the first split of a leaf. *)
Definition insert_unwound (t : treeindex K V) (k : K) (v : V) : option (treeindex K V) :=
  match root t with
  | None => None
  | Some (existT d n) => match node_unwound d k v (hp t) n with
                         | Some h => Some (Tree h (root t))
                         | None => None
                         end
  end.
End unwind.
