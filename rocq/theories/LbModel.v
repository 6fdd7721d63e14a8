(** [TreeIndex::range] with a lower and an upper bound, beside other threads.

    A layer over TiModel, like RgModel, but the range first looks for the place to start at:
    [Node::max_le_appr] with all its fallbacks to [Node::min].  Models /repo/src/tree_index.rs Range
    (L938-953, L965-1095), /repo/src/tree_index/leaf_node.rs max_le_appr (L216-256) and min (L184-206),
    /repo/src/tree_index/internal_node.rs max_le_appr (L202-242) and min (L163-194),
    /repo/src/tree_index/leaf.rs Scanner::max_less (L964-979), Scanner::jump (L907-940).
    Simplifications: those of TiModel, except that [min] goes on with the next child as in the code; a
    range that has returned [None] is not asked again (see C29). *)
From Coq Require Import List Arith Bool.
From Verif Require Import TcModel TiModel RgModel.
Import ListNotations.

Section lb.
Context {K V : Type} (leb : K -> K -> bool).

(** [Bound] of the standard library, as a lower bound. *)
Inductive lbd := LIncl (k : K) | LExcl (k : K) | LNone.
(** The key is not above the bound.  tree_index.rs L1057-1071 *)
Definition below (b : lbd) (k : K) : bool :=
  match b with
  | LIncl l => ltb leb k l
  | LExcl l => leb k l
  | LNone => false
  end.
(** [min_allowed_key], L972-978. *)
Definition lkey (b : lbd) : option K := match b with LIncl k | LExcl k => Some k | LNone => None end.

(** What is done with the scanner that [min] returns: the fallback of [max_le_appr] in some node, with the
    nodes above it (leaf_node.rs L242-255, internal_node.rs L228-241); or the start of a range for which
    [max_le_appr] found nothing (tree_index.rs L981-991). *)
Inductive cont := CFall (st : list nat) | CTop.
(** A call of [InternalNode::min] that waits for that of a child: the node, the metadata, the cells to come. *)
Definition frame := (nat * @meta K * list (K * nat))%type.
(** Where the search for the start is.  [rt] is the root that was loaded. *)
Inductive dsc :=
| DRoot
| DNode (rt n : nat) (st : list nat)
| DMeta (rt n : nat) (M : @meta K) (st : list nat)
| DLoad (rt n : nat) (M : @meta K) (c : nat) (st : list nat)
| DLeaf (rt n c : nat) (st : list nat)
| MNode (rt : nat) (f : list frame) (n : nat) (k : cont)
| MMeta (rt : nat) (f : list frame) (n : nat) (M : @meta K) (r : list (K * nat)) (k : cont)
| MLoad (rt : nat) (f : list frame) (n : nat) (M : @meta K) (r : list (K * nat)) (ubd : bool) (c : nat) (k : cont)
| MScan (rt c : nat) (k : cont)
| MLink (rt c : nat) (k : cont)
| MHop (rt c : nat) (k : cont).

(** The outcome of a step of the search: it goes on; it has a scanner at an entry of a leaf, with the
    entries behind it; the range is over. *)
Inductive dres := RGo (d : dsc) | RAt (c : nat) (e : K * V) (rest : list (K * V)) | ROver.

(** [max_less] on the cells of a node: the slot of the largest key below [k].  leaf.rs L524-558 *)
Definition less_slot (M : @meta K) (k : K) : option nat :=
  match rev (filter (fun a => ltb leb (fst a) k) (fst M)) with a :: _ => Some (snd a) | [] => None end.
(** ... on the entries of a leaf: the entry and those behind it. *)
Fixpoint less_entry (es : list (K * V)) (k : K) : option ((K * V) * list (K * V)) :=
  match es with
  | [] => None
  | e :: r =>
      if ltb leb (fst e) k
      then match less_entry r k with Some p => Some p | None => Some (e, r) end
      else None
  end.
(** [max_le_appr] of the innermost node returns [None]. *)
Definition fall (rt : nat) (st : list nat) : dres :=
  match st with
  | [] => RGo (MNode rt [] rt CTop)
  | n :: st' => RGo (MNode rt [] n (CFall st'))
  end.
(** [min], or [jump] after it, returns [None]. *)
Definition no_min (rt : nat) (k : cont) : dres :=
  match k with CFall st => fall rt st | CTop => ROver end.

Definition dstep (b : lbd) (s : ls K V) (d : dsc) : dres :=
  match d with
  (* tree_index.rs L969-980 *)
  | DRoot =>
      match root (tc s) with
      | None => ROver
      | Some r => match lkey b with Some _ => RGo (DNode r r []) | None => RGo (MNode r [] r CTop) end
      end
  (* Scanner::max_less(&self.children, key): leaf_node.rs L222, internal_node.rs L208 *)
  | DNode rt n st => RGo (DMeta rt n (meta_of (nd s n)) st)
  | DMeta rt n M st =>
      match lkey b with
      | None => ROver
      | Some k =>
          match less_slot M k with
          (* the fallback of this node: leaf_node.rs L238-243, internal_node.rs L224-229 *)
          | None => RGo (MNode rt [] n (CFall st))
          | Some j =>
              match slot_child (cells (nd s n)) j with
              | Some c => RGo (DLoad rt n M c st)
              | None => RGo (DNode rt n st)
              end
          end
      end
  (* validate: leaf_node.rs L225, internal_node.rs L211 *)
  | DLoad rt n M c st =>
      if meta_eqb leb M (meta_of (nd s n))
      then if lvl (nd s n) =? 1 then RGo (DLeaf rt n c st) else RGo (DNode rt c (n :: st))
      else RGo (DNode rt n st)
  (* Scanner::max_less(child, key): leaf_node.rs L227-231 *)
  | DLeaf rt n c st =>
      match lkey b with
      | None => ROver
      | Some k =>
          match less_entry (sortk leb (ents (nd s c))) k with
          | Some (e, r) => RAt c e r
          | None => RGo (MNode rt [] n (CFall st))
          end
      end
  (* min: leaf_node.rs L184-206, internal_node.rs L163-194 *)
  | MNode rt f n k => RGo (MMeta rt f n (meta_of (nd s n)) (fst (meta_of (nd s n))) k)
  | MMeta rt f n M ((_, j) :: r) k =>
      match slot_child (cells (nd s n)) j with
      | Some c => RGo (MLoad rt f n M r false c k)
      | None => RGo (MNode rt f n k)
      end
  | MMeta rt f n M [] k =>
      match ub (nd s n) with
      | UTo c => RGo (MLoad rt f n M [] true c k)
      | _ => match f with
             | [] => no_min rt k
             | (n', M', r') :: f' => RGo (MMeta rt f' n' M' r' k)
             end
      end
  | MLoad rt f n M r u c k =>
      if meta_eqb leb M (meta_of (nd s n))
      then if lvl (nd s n) =? 1 then RGo (MScan rt c k)
           else RGo (MNode rt (if u then f else (n, M, r) :: f) c k)
      else RGo (MNode rt f n k)
  (* Scanner::new, next: leaf_node.rs L244-251, internal_node.rs L230-237, tree_index.rs L986-988 *)
  | MScan rt c k =>
      match sortk leb (ents (nd s c)) with
      | [] => RGo (MLink rt c k)
      | e :: r =>
          match k with
          | CTop => RAt c e r
          | CFall st =>
              match lkey b with
              | Some l => if leb (fst e) l then RAt c e r else fall rt st
              | None => ROver
              end
          end
      end
  (* jump(None): leaf.rs L914-915, L933-936 *)
  | MLink rt c k => match link s c with Some z => RGo (MHop rt z k) | None => no_min rt k end
  | MHop rt c k => if dl s c then RGo (MLink rt c k) else RGo (MScan rt c k)
  end.

(** A range: its bounds, [check_lower_bound], [check_upper_bound], the entry found in a new leaf for which
    the flag has not been set yet, what was yielded, whether it has returned [None]; and the search for its
    start or its iterator. *)
Inductive phase := PD (d : dsc) | PI (x : iter K V).
Record lr := Lr { llo : lbd; lup : ubd K; lchk : bool; uchk : bool; lpend : option (K * V); ly : list (K * V); lend : bool; ph : phase }.
Record lbs := Lb { bl : ls K V; lrs : nat -> option lr }.
Definition lbinit : lbs := Lb linit (fun _ => None).

(** tree_index.rs L1057-1093, with the flag [c]. *)
Definition judge (r : lr) (c : bool) (e : K * V) (x : iter K V) : lr :=
  if lchk r && below (llo r) (fst e) then Lr (llo r) (lup r) true c None (ly r) false (PI x) else
  if c && beyond leb (lup r) (fst e)
  then Lr (llo r) (lup r) false c None (ly r) true (PI x)
  else Lr (llo r) (lup r) false c None (ly r ++ [e]) false (PI x).

Definition lnext (s : lbs) (r : lr) : option lr :=
  if lend r then None else
  match ph r with
  | PD d =>
      match dstep (llo r) (bl s) d with
      | RGo d' => Some (Lr (llo r) (lup r) (lchk r) (uchk r) None (ly r) false (PD d'))
      | RAt c e rest => Some (Lr (llo r) (lup r) (lchk r) (uchk r) (Some e) (ly r) false
                                 (PI (Iter (IAt c rest (Some (fst e))) (length (log (tc (bl s)))) [e])))
      | ROver => Some (Lr (llo r) (lup r) (lchk r) (uchk r) None (ly r) true (PD d))
      end
  | PI x =>
      match lpend r with
      (* set_check_upper_bound: L1015-1026 *)
      | Some e =>
          match ipos x with
          | IAt z _ _ => Some (judge r (bound_flag leb (lup r) (ents (nd (bl s) z))) e x)
          | _ => None
          end
      | None =>
          let x' := istep leb (bl s) x in
          match emits leb (bl s) x with
          | Some e =>
              if same_leaf x then Some (judge r (uchk r) e x')
              else Some (Lr (llo r) (lup r) (lchk r) (uchk r) (Some e) (ly r) false (PI x'))
          | None => Some (Lr (llo r) (lup r) (lchk r) (uchk r) None (ly r) (over x') (PI x'))
          end
      end
  end.

Inductive lbact := BL (a : lsact K V) | BNew (i : nat) (l : lbd) (u : ubd K) | BNext (i : nat).
Definition lbstep (a : lbact) (s : lbs) : option lbs :=
  match a with
  | BL a => match lsstep leb a (bl s) with Some s' => Some (Lb s' (lrs s)) | None => None end
  (* Range::new, L940-953; check_lower_bound: L974-977 *)
  | BNew i l u =>
      match lrs s i with
      | Some _ => None
      | None => Some (Lb (bl s) (upd (lrs s) i (Some (Lr l u (match l with LNone => false | _ => true end) false None [] false (PD DRoot)))))
      end
  | BNext i =>
      match lrs s i with
      | None => None
      | Some r => match lnext s r with Some r' => Some (Lb (bl s) (upd (lrs s) i (Some r'))) | None => None end
      end
  end.
Fixpoint lbrun (l : list lbact) (s : lbs) : option lbs :=
  match l with
  | [] => Some s
  | a :: r => match lbstep a s with Some s' => lbrun r s' | None => None end
  end.
End lb.
Global Arguments lbd : clear implicits.
Global Arguments lr : clear implicits.
Global Arguments lbs : clear implicits.
Global Arguments lbact : clear implicits.
