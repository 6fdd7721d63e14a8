(** A cell that holds a value or not, under the operations of an [Entry]. *)
From stdpp Require Import prelude list.
From Verif Require Import EnModel.

Section entry_spec.
Context {K V : Type}.
Definition ecell (k : K) (c : option V) (o : eop K V) : option V * eout K V :=
  match o, c with
  | EAndModify f, Some v => (Some (f v), UMod (Some v))
  | EAndModify f, None => (None, UMod None)
  | EOrInsert g, Some v => (Some v, UOr None v)
  | EOrInsert g, None => (Some (g k), UOr (Some k) (g k))
  | EInsert v, _ => (Some v, UIns v)
  | EGet, _ => (c, UGet (option_map (pair k) c))
  end.
Fixpoint ecells (k : K) (c : option V) (os : list (eop K V)) : option V * list (eout K V) :=
  match os with
  | [] => (c, [])
  | o :: os' => ((ecells k (ecell k c o).1 os').1, (ecell k c o).2 :: (ecells k (ecell k c o).1 os').2)
  end.
(** What [remove_entry] returns, and what remains. *)
Definition taken (k : K) (c : option V) (fin : efin) : option (K * V) :=
  match fin with EDrop => None | ERemove => option_map (pair k) c end.
Definition left (k : K) (c : option V) (fin : efin) (rest : list (K * V)) : list (K * V) :=
  match fin, c with EDrop, Some v => (k, v) :: rest | _, _ => rest end.
End entry_spec.
