(** The operations of an [Entry] of a HashIndex as operations on a cell. *)
From stdpp Require Import prelude list.
From Verif Require Import EnModel EnSpec EnxModel.
Definition on_cell {K V : Type} (o : xop K V) : eop K V :=
  match o with XOrInsert g => EOrInsert g | XPut v => EInsert v | XGet => EGet end.
