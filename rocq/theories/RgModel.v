(** [TreeIndex::range] with an upper bound and without a lower one, beside other threads.

    A layer over TiModel: a range is an iterator of TiModel (in [Range::next_unbounded] the scanner is
    obtained and moved on exactly as in [Iter::next]: [LeafNode::min], [Scanner::next],
    [Scanner::jump]) and the flag [check_upper_bound].  Models /repo/src/tree_index.rs Range
    (L938-953, L965-1012 with the start bound [Unbounded], L1015-1026, L1057-1095).  Simplifications:
    those of TiModel; a range that has returned [None] is not asked again (see C29); lower bounds, which
    make the descent start at another leaf ([max_le_appr]), are left out. *)
From Coq Require Import List Arith Bool.
From Verif Require Import TcModel TiModel.
Import ListNotations.

Section rg.
Context {K V : Type} (leb : K -> K -> bool).

(** [Bound] of the standard library, as an upper bound. *)
Inductive ubd := UIncl (k : K) | UExcl (k : K) | UNone.
(** The key is not below the bound.  tree_index.rs L1017-1025, L1075-1087 *)
Definition beyond (b : ubd) (k : K) : bool :=
  match b with
  | UIncl h => ltb leb h k
  | UExcl h => leb h k
  | UNone => false
  end.

(** A range: its bound, [check_upper_bound], the entry found in a new leaf for which the flag has not
    been set yet, what was yielded, whether it has returned [None]. *)
Record rg := Rg { rb : ubd; chk : bool; pend : option (K * V); ry : list (K * V); rend : bool }.
Record rs := Rs { li : ls K V; rgs : nat -> option rg }.
Definition rinit : rs := Rs linit (fun _ => None).

(** [max_key] of the leaf, leaf.rs L159-184. *)
Definition max_key (es : list (K * V)) : option K :=
  match rev (sortk leb es) with e :: _ => Some (fst e) | [] => None end.
(** set_check_upper_bound, L1015-1026. *)
Definition bound_flag (b : ubd) (es : list (K * V)) : bool :=
  match max_key es with Some m => beyond b m | None => false end.

(** L1073-1091: the entry is yielded, or the range is over. *)
Definition decide (r : rg) (c : bool) (e : K * V) : rg :=
  if c && beyond (rb r) (fst e)
  then Rg (rb r) c None (ry r) true
  else Rg (rb r) c None (ry r ++ [e]) false.

(** The entry that the next step of the iterator comes to. *)
Definition emits (s : ls K V) (x : iter K V) : option (K * V) :=
  match ipos x with
  | IAt _ (e :: _) _ => Some e
  | ISnap y last _ es => match fresh_only leb s y last es with e :: _ => Some e | [] => None end
  | _ => None
  end.
(** It is in the leaf of the entry before it: L999-1003; otherwise the flag is set first: L989-993, L1004-1010. *)
Definition same_leaf (x : iter K V) : bool :=
  match ipos x with IAt _ _ (Some _) => true | _ => false end.
Definition over (x : iter K V) : bool := match ipos x with IEnd _ => true | _ => false end.

Definition set_rg (s : ls K V) (g : nat -> option rg) (i : nat) (r : rg) : rs := Rs s (upd g i (Some r)).

(** One step of the range [i]. *)
Definition rnext (s : rs) (i : nat) : option rs :=
  match rgs s i, its (li s) i with
  | Some r, Some x =>
      if rend r then None else
      match pend r with
      | Some e =>
          match ipos x with
          | IAt z _ _ => Some (set_rg (li s) (rgs s) i (decide r (bound_flag (rb r) (ents (nd (li s) z))) e))
          | _ => None
          end
      | None =>
          let x' := istep leb (li s) x in
          let s' := with_it (li s) i x' in
          Some (set_rg s' (rgs s) i
            match emits (li s) x with
            | Some e => if same_leaf x then decide r (chk r) e else Rg (rb r) (chk r) (Some e) (ry r) false
            | None => Rg (rb r) (chk r) None (ry r) (over x')
            end)
      end
  | _, _ => None
  end.

Inductive ract := RL (a : lsact K V) | RNew (i : nat) (b : ubd) | RNext (i : nat).
Definition rstep (a : ract) (s : rs) : option rs :=
  match a with
  | RL (LI (TNew i)) | RL (LI (TStep i)) =>
      match rgs s i with
      | Some _ => None
      | None => match a with RL a => match lsstep leb a (li s) with Some s' => Some (Rs s' (rgs s)) | None => None end | _ => None end
      end
  | RL a => match lsstep leb a (li s) with Some s' => Some (Rs s' (rgs s)) | None => None end
  (* Range::new, L940-953 *)
  | RNew i b =>
      match lsstep leb (LI (TNew i)) (li s) with
      | Some s' => Some (set_rg s' (rgs s) i (Rg b false None [] false))
      | None => None
      end
  | RNext i => rnext s i
  end.
Fixpoint rrun (l : list ract) (s : rs) : option rs :=
  match l with
  | [] => Some s
  | a :: r => match rstep a s with Some s' => rrun r s' | None => None end
  end.
End rg.
Global Arguments ubd : clear implicits.
Global Arguments rg : clear implicits.
Global Arguments rs : clear implicits.
Global Arguments ract : clear implicits.
