(** The linked list of the leaves of a shared TreeIndex, and iterators that walk along it while other
    threads insert and remove entries, split, commit, roll back and coalesce.

    A layer over TcModel: the state holds a state of TcModel, the links between leaves, the stage of
    the list operations of every leaf node, and the iterators.  A step is a step of TcModel ([LT]),
    allowed when the list operations that precede it in the code are done, a list operation ([L..]), or
    a step of an iterator ([T..]).  Models /repo/src/tree_index.rs Iter (L896-926),
    /repo/src/tree_index/leaf.rs Scanner (L866-1003), [LeafNode::min], [InternalNode::min], and the
    list operations of split_leaf, commit, rollback and coalesce in leaf_node.rs.  Simplifications:
    - [push_back], [delete_self], [next_ptr], [mark], [unmark] and [is_clear] are those of the trait
      [LinkedList] of the crate [sdd], known from its documentation: [push_back] puts an entry behind
      another one, [delete_self] sets a tag of the entry's link, [next_ptr] follows links over deleted
      entries.  That [next_ptr] also unlinks deleted entries cannot be seen by anyone: nothing is ever
      put behind a deleted entry.  So links are only ever added here.
    - [LeafNode::min] and [InternalNode::min]: a descent that finds no leaf below a node other than the
      root starts over; in the code it goes on with the next child.  TmModel and LbModel do not simplify
      this; it matters for C57 and C62 (TmProps).
    - A [Scanner] is the list of the entries that are in the leaf when the metadata are loaded, in key
      order: slots are written once. *)
From Coq Require Import List Arith Bool.
From Verif Require Import TcModel.
Import ListNotations.

Section ti.
Context {K V : Type} (leb : K -> K -> bool).

(** How far the list operations of the job of a leaf node are: nothing done; the high leaf is linked;
    both are; the origin is deleted; the high leaf is deleted by a rollback; both are; the mark of the
    origin [c] is still to be removed; the retired leaf at [o] is deleted. *)
Inductive stg := G0 | GHi | GLo | GDel | GRb1 | GRb2 | GUm (c : nat) | GRet (o : lpos).

(** Where an iterator is: about to load the root; at a node ([top]: the root), with its metadata, with
    a child; at the first leaf; in a leaf with the entries to come and the last key; about to load the
    link of [y], having looked for an entry behind the leaf [x] so far; at the next leaf [z]; [z] has
    been found not to be deleted; its entries are known; finished (with the number of events then). *)
Inductive ipc :=
| IStart | INode (top : bool) (x : nat) | IMeta (top : bool) (x : nat) (M : @meta K)
| ILoad (top : bool) (x : nat) (M : @meta K) (c : nat)
| IFirst (y : nat) | IAt (x : nat) (rest : list (K * V)) (last : option K)
| ILink (x : nat) (last : option K) (y : nat) | IHop (x : nat) (last : option K) (z : nat)
| INext (x : nat) (last : option K) (z : nat) | ISnap (x : nat) (last : option K) (z : nat) (es : list (K * V))
| IEnd (e : nat).
(** An iterator: where it is, the number of events when it was created, what it has yielded. *)
Record iter := Iter { ipos : ipc; it0 : nat; out : list (K * V) }.

Record ls := Ls {
  tc : st K V;
  link : nat -> option nat;    (* the next leaf *)
  dl : nat -> bool;            (* deleted *)
  mk : nat -> bool;            (* marked *)
  sg : nat -> stg;
  its : nat -> option iter }.

Definition linit : ls := Ls init (fun _ => None) (fun _ => false) (fun _ => false) (fun _ => G0) (fun _ => None).

Definition with_tc (s : ls) (t : st K V) : ls := Ls t (link s) (dl s) (mk s) (sg s) (its s).
Definition with_sg (s : ls) (n : nat) (g : stg) : ls := Ls (tc s) (link s) (dl s) (mk s) (upd (sg s) n g) (its s).
Definition with_it (s : ls) (i : nat) (x : iter) : ls := Ls (tc s) (link s) (dl s) (mk s) (sg s) (upd (its s) i (Some x)).
Definition set_dl (s : ls) (y : nat) : ls := Ls (tc s) (link s) (upd (dl s) y true) (mk s) (sg s) (its s).
Definition set_mk (s : ls) (y : nat) (b : bool) : ls := Ls (tc s) (link s) (dl s) (upd (mk s) y b) (sg s) (its s).
(** [y.push_back(x)] *)
Definition push (s : ls) (y x : nat) : ls :=
  Ls (tc s) (upd (upd (link s) x (link s y)) y (Some x)) (dl s) (mk s) (sg s) (its s).

Definition nd (s : ls) (n : nat) : obj K V := hp (tc s) n.
Definition is1 (s : ls) (n : nat) : bool := lvl (nd s n) =? 1.

(** The stage at which a step of TcModel is allowed, and the stage after it. *)
Definition is_g (a b : stg) : bool :=
  match a, b with
  | G0, G0 | GHi, GHi | GLo, GLo | GDel, GDel | GRb1, GRb1 | GRb2, GRb2 => true
  | GUm c, GUm c' => c =? c'
  | GRet o, GRet o' => match o, o' with PSlot i, PSlot j => i =? j | PUb, PUb => true | _, _ => false end
  | _, _ => false
  end.
Definition need (s : ls) (n : nat) (g g' : stg) (t : st K V) : option ls :=
  if is1 s n then
    if is_g (sg s n) g then Some (with_sg (with_tc s t) n g') else None
  else Some (with_tc s t).
(** A leaf node that is taken up by its parent has linked both leaves and is not being rolled back. *)
Definition settled (s : ls) (c : nat) : bool := negb (is1 s c) || is_g (sg s c) GLo.

Definition tstep (a : act K V) (s : ls) : option ls :=
  match step leb a (tc s) with
  | None => None
  | Some t =>
      match a with
      (* leaf_node.rs L722: the lock is released last *)
      | SUnlock n => need s n G0 G0 t
      | SFrz n _ _ => need s n G0 G0 t
      (* leaf_node.rs L832-863: the leaves are linked before children.insert *)
      | SIns n | SFull n => need s n GLo GLo t
      (* L865-876: the origin is deleted before the low leaf is thawed *)
      | SThaw n => need s n GDel GDel t
      (* L878-905, L896-904 *)
      | SSwap n => need s n GDel G0 t
      | STake n o _ =>
          match ptr (nd s n) o with
          | Some c => if settled s c then need s n G0 G0 t else None
          | None => None
          end
      | SRSplit _ =>
          match root (tc s) with
          | Some r => if settled s r then Some (with_tc s t) else None
          | None => None
          end
      (* commit: L641-661 *)
      | SCommit n =>
          match jb (nd s n) with
          | Commit _ _ _ _ 0 => need s n GDel GDel t
          | _ => Some (with_tc s t)
          end
      (* rollback: L702-720 *)
      | SRoll n =>
          match jb (nd s n) with
          | Full _ c _ _ _ _ _ => need s n GRb2 (GUm c) t
          | _ => None
          end
      (* coalesce: L926-928, L952-961 *)
      | SRem n j => need s n (GRet (PSlot j)) G0 t
      | SRet n => need s n (GRet PUb) G0 t
      | SRNone =>
          match root (tc s) with
          | Some r => need s r G0 G0 t
          | None => None
          end
      | _ => Some (with_tc s t)
      end
  end.

(** ** List operations *)
Inductive lact := LPushHi (n : nat) | LPushLo (n : nat) | LDelO (n : nat) | LRbHi (n : nat) | LRbLo (n : nat)
| LUnm (n : nat) | LDelR (n : nat) (o : lpos).

Definition lstep (a : lact) (s : ls) : option ls :=
  match a with
  (* target.push_back(high, true): leaf_node.rs L827-833 *)
  | LPushHi n =>
      match is1 s n, jb (nd s n), sg s n with
      | true, Split _ c _ _ hi, G0 => Some (with_sg (set_mk (push s c hi) c true) n GHi)
      | _, _, _ => None
      end
  (* target.push_back(low, true): L834-836, L888-890 *)
  | LPushLo n =>
      match is1 s n, jb (nd s n), sg s n with
      | true, Split _ c _ lo _, GHi => Some (with_sg (set_mk (push s c lo) c true) n GLo)
      | true, Swap0 _ c lo, G0 => Some (with_sg (set_mk (push s c lo) c true) n GLo)
      | _, _, _ => None
      end
  (* target.delete_self(), origin_leaf.delete_self(): L870, L893, commit L643 *)
  | LDelO n =>
      match is1 s n, jb (nd s n), sg s n with
      | true, (Ins _ c _ _ _ false | Swap0 _ c _ | Commit c _ _ _ 0), GLo => Some (with_sg (set_dl s c) n GDel)
      | _, _, _ => None
      end
  (* rollback: high_key_leaf.delete_self(), low_key_leaf.delete_self(), L702-708 *)
  | LRbHi n =>
      match is1 s n, jb (nd s n), sg s n with
      | true, Full _ _ _ _ hi None _, GLo => Some (with_sg (set_dl s hi) n GRb1)
      | _, _, _ => None
      end
  | LRbLo n =>
      match is1 s n, jb (nd s n), sg s n with
      | true, Full _ _ _ lo _ None _, GRb1 => Some (with_sg (set_dl s lo) n GRb2)
      | _, _, _ => None
      end
  (* origin_leaf.unmark(): L719 *)
  | LUnm n => match sg s n with GUm c => Some (with_sg (set_mk s c false) n G0) | _ => None end
  (* coalesce: delete_self of a retired leaf, L927, L953 *)
  | LDelR n o =>
      match is1 s n, jb (nd s n), sg s n, ptr (nd s n) o with
      | true, Locked, G0, Some c =>
          if ret (nd s c) && match o, cells (nd s n) with PUb, _ :: _ => false | _, _ => true end
          then Some (with_sg (set_dl s c) n (GRet o)) else None
      | _, _, _, _ => None
      end
  end.

(** ** Iterators *)
(** The entries of a leaf in key order.  leaf.rs L303-335, L943-960 *)
Fixpoint insk (e : K * V) (l : list (K * V)) : list (K * V) :=
  match l with [] => [e] | a :: r => if leb (fst e) (fst a) then e :: l else a :: insk e r end.
Fixpoint sortk (l : list (K * V)) : list (K * V) :=
  match l with [] => [] | e :: r => insk e (sortk r) end.
(** [is_clear] *)
Definition clear (s : ls) (y : nat) : bool := negb (dl s y) && negb (mk s y).
(** The entries of the next leaf that [jump] looks at: leaf.rs L916-936 *)
Definition fresh_only (s : ls) (x : nat) (last : option K) (es : list (K * V)) : list (K * V) :=
  match last with
  | Some k => if clear s x then es else filter (fun e => ltb leb k (fst e)) es
  | None => es
  end.

Inductive iact := TNew (i : nat) | TStep (i : nat).
Definition istep (s : ls) (x : iter) : iter :=
  let go p := Iter p (it0 x) (out x) in
  match ipos x with
  (* tree_index.rs L898-908 *)
  | IStart =>
      match root (tc s) with
      | None => go (IEnd (length (log (tc s))))
      | Some r => go (INode true r)
      end
  (* leaf_node.rs L184-185, internal_node.rs L165-166 *)
  | INode top n => go (IMeta top n (meta_of (nd s n)))
  (* leaf_node.rs L186-188, L197-198, L203, internal_node.rs L167-169, L184-185, L191 *)
  | IMeta top n M =>
      match fst M with
      | (_, j) :: _ =>
          match slot_child (cells (nd s n)) j with
          | Some c => go (ILoad top n M c)
          | None => go (INode top n)
          end
      | [] =>
          match ub (nd s n) with
          | UTo c => go (ILoad top n M c)
          | _ => if top then go (IEnd (length (log (tc s)))) else go IStart
          end
      end
  (* validate: leaf_node.rs L189, L199, internal_node.rs L170, L186 *)
  | ILoad top n M c =>
      if meta_eqb leb M (meta_of (nd s n)) then
        if lvl (nd s n) =? 1 then go (IFirst c) else go (INode false c)
      else go (INode top n)
  (* Scanner::new: leaf.rs L874-880 *)
  | IFirst y => go (IAt y (sortk (ents (nd s y))) None)
  (* tree_index.rs L912-917 *)
  | IAt y (e :: r) _ => Iter (IAt y r (Some (fst e))) (it0 x) (out x ++ [e])
  | IAt y [] last => go (ILink y last y)
  (* next_ptr: leaf.rs L914, L929, L936 *)
  | ILink y last z =>
      match link s z with
      | None => go (IEnd (length (log (tc s))))
      | Some z' => go (IHop y last z')
      end
  | IHop y last z => if dl s z then go (ILink y last z) else go (INext y last z)
  (* Scanner::new: leaf.rs L916 *)
  | INext y last z => go (ISnap y last z (sortk (ents (nd s z))))
  (* leaf.rs L917-936, tree_index.rs L919-924 *)
  | ISnap y last z es =>
      match fresh_only s y last es with
      | e :: r => Iter (IAt z r (Some (fst e))) (it0 x) (out x ++ [e])
      | [] => go (ILink y last z)
      end
  | IEnd _ => x
  end.

Inductive lsact := LT (a : act K V) | LL (a : lact) | LI (a : iact).
Definition lsstep (a : lsact) (s : ls) : option ls :=
  match a with
  | LT a => tstep a s
  | LL a => lstep a s
  | LI (TNew i) =>
      match its s i with
      | None => Some (with_it s i (Iter IStart (length (log (tc s))) []))
      | Some _ => None
      end
  | LI (TStep i) => match its s i with Some x => Some (with_it s i (istep s x)) | None => None end
  end.

Fixpoint lsrun (l : list lsact) (s : ls) : option ls :=
  match l with
  | [] => Some s
  | a :: r => match lsstep a s with Some s' => lsrun r s' | None => None end
  end.
End ti.
Global Arguments ls : clear implicits.
Global Arguments lsact : clear implicits.
Global Arguments iter : clear implicits.
