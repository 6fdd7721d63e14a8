(** Vocabulary: the answers to a sequence of [next] calls. *)
From stdpp Require Import prelude list.
From Verif Require Import LeafModel TreeModel.

Section calls.
Context {K V : Type} (cmp : K -> K -> comparison).

(** The answers of [n] calls of [Iter::next], and the iterator after them. *)
Fixpoint iter_calls (n : nat) (t : treeindex K V) (it : iter) : list (option (K * V)) * iter :=
  match n with
  | O => ([], it)
  | S n' => let z := iter_next cmp t it in let y := iter_calls n' t z.1 in (z.2 :: y.1, y.2)
  end.
(** The same for [Range::next]. *)
Fixpoint range_calls (n : nat) (t : treeindex K V) (r : bound K * bound K) (g : range)
  : list (option (K * V)) * range :=
  match n with
  | O => ([], g)
  | S n' => let z := range_next cmp (range_fuel t) t (hp t) r g in
            let y := range_calls n' t r z.1 in (z.2 :: y.1, y.2)
  end.
Definition inserts (ks : list K) (v : V) : treeindex K V :=
  foldl (fun t k => (insert_sync cmp t k v).1) new_tree ks.
End calls.
