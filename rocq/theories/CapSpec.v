(** Vocabulary used in the statements of CapProps.v. *)
From Coq Require Import NArith.
From Verif Require Import CapModel.
Local Open Scope N_scope.

Definition power_of_two (n : N) : Prop := exists k, n = 2 ^ k.
Definition usize (n : N) : Prop := n < 2 ^ 64.
(** A table that can exist: built by [BucketArray::new] for some capacity (initial allocation
    and resizing both go through it). *)
Definition table (a : arr) : Prop := exists c, arr_new c = Some a.

