(** Histories of TreeIndex calls, on the model and on an ordered map given as an ascending list. *)
From stdpp Require Import prelude list.
From Verif Require Import LeafModel LeafSpec TreeModel.

Section run.
Context {K V : Type} (cmp : K -> K -> comparison).

Inductive top :=
| TInsert (k : K) (v : V) | TRemove (k : K) | TRemoveIf (k : K) (cond : V -> bool) | TRemoveRange (r : bound K * bound K)
| TPeek (k : K) | TPeekEntry (k : K) | TContains (k : K) | TLen | TIsEmpty | TClear
| TIter | TRange (r : bound K * bound K).
Inductive tout :=
| OUnit | OBool (b : bool) | OResult (e : option (K * V)) (* [Ok] or [Err((key, value))] *)
| OVal (v : option V) | OEnt (e : option (K * V)) | ONum (n : nat) | OList (es : list (K * V)) | OPanic.

(** tree_index.rs: insert_sync L284, remove_sync L425, remove_if_sync L490, remove_range_sync L572, peek L616, peek_entry L680,
    contains L702, len L726, is_empty L744, clear L132, iter L767, range L793. *)
Definition tstep (t : treeindex K V) (o : top) : treeindex K V * tout :=
  match o with
  | TInsert k v => let z := insert_sync cmp t k v in
                   (z.1, match z.2 with IOk => OResult None | IErr => OResult (Some (k, v)) | IBroken => OPanic end)
  | TRemove k => let z := remove_if_sync cmp t k (fun _ => true) in (z.1, OBool z.2)
  | TRemoveIf k cond => let z := remove_if_sync cmp t k cond in (z.1, OBool z.2)
  | TRemoveRange r => let z := remove_range_sync cmp t r in (z.1, if z.2 then OUnit else OPanic)
  | TPeek k => (t, OVal (peek cmp t k))
  | TPeekEntry k => (t, OEnt (peek_entry cmp t k))
  | TContains k => (t, OBool (match peek_entry cmp t k with Some _ => true | None => false end))
  | TLen => (t, ONum (len cmp t))
  | TIsEmpty => (t, OBool (tree_is_empty cmp t))
  | TClear => (clear t, OUnit)
  | TIter => (t, OList (iter_all cmp t))
  | TRange r => (t, OList (range_all cmp t r))
  end.
Fixpoint trun (t : treeindex K V) (os : list top) : treeindex K V * list tout :=
  match os with
  | [] => (t, [])
  | o :: os' => let z := tstep t o in let y := trun z.1 os' in (y.1, z.2 :: y.2)
  end.

(** The ordered map. *)
Definition inb (r : bound K * bound K) (k : K) : bool :=
  match r.1 with
  | Included a => match cmp a k with Gt => false | _ => true end
  | Excluded a => match cmp a k with Lt => true | _ => false end
  | Unbounded => true
  end &&
  match r.2 with
  | Included b => match cmp k b with Gt => false | _ => true end
  | Excluded b => match cmp k b with Lt => true | _ => false end
  | Unbounded => true
  end.
Definition rstep (m : list (K * V)) (o : top) : list (K * V) * tout :=
  match o with
  | TInsert k v => match oget cmp m k with
                   | None => (oput cmp m k v, OResult None)
                   | Some _ => (m, OResult (Some (k, v)))
                   end
  | TRemove k => match oget cmp m k with None => (m, OBool false) | Some _ => (odel cmp m k, OBool true) end
  | TRemoveIf k cond => match oget cmp m k with
                        | None => (m, OBool false)
                        | Some v => if cond v then (odel cmp m k, OBool true) else (m, OBool false)
                        end
  | TRemoveRange r => (List.filter (fun e => negb (inb r e.1)) m, OUnit)
  | TPeek k => (m, OVal (oget cmp m k))
  | TPeekEntry k => (m, OEnt (match oget cmp m k with Some v => Some (k, v) | None => None end))
  | TContains k => (m, OBool (match oget cmp m k with Some _ => true | None => false end))
  | TLen => (m, ONum (length m))
  | TIsEmpty => (m, OBool (match m with [] => true | _ => false end))
  | TClear => ([], OUnit)
  | TIter => (m, OList m)
  | TRange r => (m, OList (List.filter (fun e => inb r e.1) m))
  end.
Fixpoint rrun (m : list (K * V)) (os : list top) : list (K * V) * list tout :=
  match os with
  | [] => (m, [])
  | o :: os' => let z := rstep m o in let y := rrun z.1 os' in (y.1, z.2 :: y.2)
  end.

(** The index after a history. *)
Definition tafter (os : list top) : treeindex K V := (trun new_tree os).1.
(** The key an operation works on. *)
Definition tkey (o : top) : option K :=
  match o with
  | TInsert k _ | TRemove k | TRemoveIf k _ | TPeek k | TPeekEntry k | TContains k => Some k
  | _ => None
  end.

(** serde.rs L410-433 and L392-396: the announced length and the entries; inserting them one by one. *)
Definition tserialize (t : treeindex K V) : nat * list (K * V) := (len cmp t, iter_all cmp t).
Definition tdeserialize (es : list (K * V)) : treeindex K V := insert_each cmp new_tree es.
End run.
Arguments top : clear implicits.
Arguments tout : clear implicits.
