(** Iterators over a shared TreeIndex that look for the first leaf as the code does.

    TiModel with one simplification less: when a descent finds no leaf below a child, it goes on with the
    next child, while TiModel starts over.  Models /repo/src/tree_index.rs Iter::next (L896-926),
    /repo/src/tree_index/node.rs min (L98-103), /repo/src/tree_index/internal_node.rs min (L163-195) and
    /repo/src/tree_index/leaf_node.rs min (L185-209).  From the first leaf on, an iterator is one of
    TiModel.  Simplifications: the others of TiModel; an iterator that has returned [None] is not asked
    again. *)
From Coq Require Import List Arith Bool.
From Verif Require Import TcModel TiModel.
Import ListNotations.

Section tm.
Context {K V : Type} (leb : K -> K -> bool).

(** A call of [InternalNode::min] that waits for that of a child: the node, its metadata, the slots to come.
    internal_node.rs L166-168, L173 *)
Definition wait := (nat * @meta K * list (K * nat))%type.
(** Where an iterator is: about to load the root; in [min] of the node [n], with the metadata and the slots to
    come, with a child ([u]: the unbounded one); beyond the descent.  [f]: the calls of [min] that wait. *)
Inductive mpos :=
| MStart
| MNode (f : list wait) (n : nat)
| MMeta (f : list wait) (n : nat) (M : @meta K) (r : list (K * nat))
| MLoad (f : list wait) (n : nat) (M : @meta K) (r : list (K * nat)) (u : bool) (c : nat)
| MGo (x : iter K V).
(** An iterator: where it is, the number of events when it was created; [on] is a ghost: it has gone on with
    the next child of a node at least once. *)
Record mit := Mit { mp : mpos; m0 : nat; on : bool }.
Definition mout (x : mit) : list (K * V) := match mp x with MGo y => out y | _ => [] end.

Definition mstep (s : ls K V) (x : mit) : mit :=
  let go p := Mit p (m0 x) (on x) in
  let none := go (MGo (Iter (IEnd (length (log (tc s)))) (m0 x) [])) in
  match mp x with
  (* tree_index.rs L900-908 *)
  | MStart => match root (tc s) with Some r => go (MNode [] r) | None => none end
  (* internal_node.rs L166-167, leaf_node.rs L187-188 *)
  | MNode f n => go (MMeta f n (meta_of (nd s n)) (fst (meta_of (nd s n))))
  (* internal_node.rs L168-170, L180-184, leaf_node.rs L189-191, L198 *)
  | MMeta f n M ((_, j) :: r) =>
      match slot_child (cells (nd s n)) j with
      | Some c => go (MLoad f n M r false c)
      | None => go (MNode f n)
      end
  (* internal_node.rs L186-187, L193, then L176; leaf_node.rs L200-201, L207 *)
  | MMeta f n M [] =>
      match ub (nd s n) with
      | UTo c => go (MLoad f n M [] true c)
      | _ => match f with
             | [] => none
             | (n', M', r') :: f' => Mit (MMeta f' n' M' r') (m0 x) true
             end
      end
  (* internal_node.rs L171-173, L188-191, leaf_node.rs L192-194, L202-205 *)
  | MLoad f n M r u c =>
      if meta_eqb leb M (meta_of (nd s n))
      then if lvl (nd s n) =? 1 then go (MGo (Iter (IFirst c) (m0 x) []))
           else go (MNode (if u then f else (n, M, r) :: f) c)
      else go (MNode f n)
  | MGo y => go (MGo (istep leb s y))
  end.

Record tms := Tm { ml : ls K V; mis : nat -> option mit }.
Definition minit : tms := Tm linit (fun _ => None).
Inductive mact := XL (a : lsact K V) | XNew (i : nat) | XStep (i : nat).
Definition msys (a : mact) (s : tms) : option tms :=
  match a with
  | XL a => match lsstep leb a (ml s) with Some s' => Some (Tm s' (mis s)) | None => None end
  (* TreeIndex::iter: tree_index.rs L811-817, Iter::new *)
  | XNew i =>
      match mis s i with
      | Some _ => None
      | None => Some (Tm (ml s) (upd (mis s) i (Some (Mit MStart (length (log (tc (ml s)))) false))))
      end
  | XStep i =>
      match mis s i with
      | Some x => Some (Tm (ml s) (upd (mis s) i (Some (mstep (ml s) x))))
      | None => None
      end
  end.
Fixpoint mrun (l : list mact) (s : tms) : option tms :=
  match l with
  | [] => Some s
  | a :: r => match msys a s with Some s' => mrun r s' | None => None end
  end.
End tm.
Global Arguments mit : clear implicits.
Global Arguments tms : clear implicits.
Global Arguments mact : clear implicits.
