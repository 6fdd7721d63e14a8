(** The theorems about TreeIndex. *)
From stdpp Require Import prelude list.
From Verif Require Import LeafModel LeafSpec TreeModel TreeRun TreeCalls TreeRace TreeWit TreeThms TreeUnwind TreeUnwindFacts.

(** For the examples: a history that splits leaves, leaf nodes and the root, and removes again. *)
Definition thist : list (top nat nat) :=
  map (fun k => TInsert (k * 7 mod 500) k) (seq 0 400) ++
  [TRemoveIf 35 (fun v => Nat.eqb v 6); TRemoveIf 42 (fun v => Nat.eqb v 6); TInsert 21 9; TRemove 1;
   TRemoveRange (Excluded 100, Included 399)].
Definition tdepth (t : treeindex nat nat) : option nat := match root t with Some (existT d _) => Some d | None => None end.

(** C24. *)
Theorem C24_ordered_map {K V : Type} : forall cmp : K -> K -> comparison, total_order cmp -> forall os : list (top K V),
  (trun cmp new_tree os).2 = (rrun cmp [] os).2.
Proof. exact lC24_ordered_map. Qed.
Theorem C24_range_spec {K V : Type} : forall cmp : K -> K -> comparison, total_order cmp ->
  forall r k, inb cmp r k = true <-> in_range cmp r k.
Proof. exact inb_spec. Qed.
Example C24_example : tdepth (tafter Nat.compare (take 400 thist)) = Some 1 /\
  drop 400 (trun Nat.compare new_tree (thist ++ [TPeek 21; TContains 100; TContains 101; TLen; TRange (Included 98, Excluded 402); TClear; TIsEmpty])).2 =
  [OBool false; OBool true; OResult (Some (21, 9)); OBool true; OUnit; OVal (Some 3); OBool true; OBool false; ONum 157;
   OList [(98, 14); (99, 157); (100, 300); (400, 200); (401, 343)]; OUnit; OBool true].
Proof. vm_compute. repeat split; reflexivity. Qed.
Print Assumptions C24_ordered_map.
Print Assumptions C24_range_spec.

(** C25. *)
Theorem C25_iter_complete {K V : Type} : forall cmp : K -> K -> comparison, total_order cmp ->
  forall os : list (top K V), let t := tafter cmp os in exists es,
  (iter_calls cmp (S (length es)) t None).1 = map Some es ++ [None] /\ ascending cmp es /\
  forall k v, (k, v) ∈ es <-> peek cmp t k = Some v.
Proof. exact lC25_iter. Qed.
Print Assumptions C25_iter_complete.
Theorem C25_range_complete {K V : Type} : forall cmp : K -> K -> comparison, total_order cmp ->
  forall (os : list (top K V)) r, let t := tafter cmp os in exists es,
  (range_calls cmp (S (length es)) t r new_range).1 = map Some es ++ [None] /\ ascending cmp es /\
  forall k v, (k, v) ∈ es <-> in_range cmp r k /\ peek cmp t k = Some v.
Proof. exact lC25_range. Qed.
Example C25_example : (iter_calls Nat.compare 158 (tafter Nat.compare thist) None).1 !! 156 = Some (Some (499, 357)) /\
  (iter_calls Nat.compare 158 (tafter Nat.compare thist) None).1 !! 157 = Some None /\
  (range_calls Nat.compare 6 (tafter Nat.compare thist) (Included 98, Excluded 402) new_range).1 =
  [Some (98, 14); Some (99, 157); Some (100, 300); Some (400, 200); Some (401, 343); None].
Proof. vm_compute. repeat split; reflexivity. Qed.
Print Assumptions C25_range_complete.

(** C26. *)
Theorem C26_remove_range_exact {K V : Type} : forall cmp : K -> K -> comparison, total_order cmp ->
  forall (os : list (top K V)) r, let z := tstep cmp (tafter cmp os) (TRemoveRange r) in z.2 = OUnit /\
  (forall k, in_range cmp r k -> peek cmp z.1 k = None) /\ (forall k, ~ in_range cmp r k -> peek cmp z.1 k = peek cmp (tafter cmp os) k) /\
  iter_all cmp z.1 = List.filter (fun e => negb (inb cmp r e.1)) (iter_all cmp (tafter cmp os)).
Proof. exact lC26_remove_range. Qed.
Example C26_example : let z := tstep Nat.compare (tafter Nat.compare (take 404 thist)) (TRemoveRange (Excluded 100, Included 399)) in
  in_range Nat.compare (Excluded 100, Included 399) 105 /\ ~ in_range Nat.compare (Excluded 100, Included 399) 100 /\
  peek Nat.compare (tafter Nat.compare (take 404 thist)) 105 = Some 15 /\
  peek Nat.compare z.1 105 = None /\ peek Nat.compare z.1 100 = Some 300 /\ len Nat.compare z.1 = 157.
Proof. unfold in_range. cbn [fst snd]. vm_compute. repeat split; try reflexivity; auto; intros [H _]; discriminate H. Qed.
Print Assumptions C26_remove_range_exact.

(** C34, C35, C40 for TreeIndex. *)
Theorem C34_tree_eq {K V : Type} : forall cmp : K -> K -> comparison, total_order cmp ->
  forall (eqv : V -> V -> bool) (os os' : list (top K V)), (forall a b, eqv a b = true <-> a = b) ->
  tree_eq cmp eqv (tafter cmp os) (tafter cmp os') = true <-> forall k, peek cmp (tafter cmp os) k = peek cmp (tafter cmp os') k.
Proof. exact lC34_tree_eq. Qed.
Print Assumptions C34_tree_eq.
Theorem C34_tree_clone {K V : Type} : forall cmp : K -> K -> comparison, total_order cmp ->
  forall (eqv : V -> V -> bool) (os : list (top K V)), (forall v, eqv v v = true) -> let t := tafter cmp os in
  tree_eq cmp eqv t (clone cmp t) = true /\ forall os', (trun cmp (clone cmp t) os').2 = (trun cmp t os').2.
Proof. exact lC34_tree_clone. Qed.
Example C34_tree_example : (forall a b, Nat.eqb a b = true <-> a = b) /\
  tree_eq Nat.compare Nat.eqb (tafter Nat.compare thist) (clone Nat.compare (tafter Nat.compare thist)) = true /\
  tree_eq Nat.compare Nat.eqb (tafter Nat.compare thist) (tafter Nat.compare (thist ++ [TRemove 21; TInsert 21 9])) = false /\
  tree_eq Nat.compare Nat.eqb (tafter Nat.compare thist) (tafter Nat.compare (thist ++ [TRemove 21; TInsert 21 3])) = true.
Proof. split; [exact Nat.eqb_eq|]. vm_compute. repeat split; reflexivity. Qed.
Print Assumptions C34_tree_clone.
Theorem C35_tree_from_iter {K V : Type} : forall cmp : K -> K -> comparison, total_order cmp ->
  forall (l m : list (K * V)) os, ascending cmp m -> (forall k, oget cmp m k = oget cmp l k) (* the first value *) ->
  (trun cmp (insert_each cmp new_tree l) os).2 = (rrun cmp m os).2.
Proof. exact lC35_tree_from_iter. Qed.
Example C35_tree_from_iter_example : ascending Nat.compare [(1, 10); (2, 20)] /\
  (forall k, oget Nat.compare [(1, 10); (2, 20)] k = oget Nat.compare [(2, 20); (1, 10); (2, 21)] k) /\
  (trun Nat.compare (insert_each Nat.compare new_tree [(2, 20); (1, 10); (2, 21)]) [TIter]).2 = [OList [(1, 10); (2, 20)]].
Proof.
  split; [repeat constructor|]. split; [|vm_compute; reflexivity]. intros k. unfold oget. cbn [List.find fst].
  destruct (Nat.compare k 1) eqn:E1, (Nat.compare k 2) eqn:E2; try reflexivity.
  apply Nat.compare_eq_iff in E1. apply Nat.compare_eq_iff in E2. congruence.
Qed.
Print Assumptions C35_tree_from_iter.
Theorem C35_tree_serde {K V : Type} : forall cmp : K -> K -> comparison, total_order cmp ->
  forall os : list (top K V), let t := tafter cmp os in let z := tserialize cmp t in
  z.1 = length z.2 /\ forall os', (trun cmp (tdeserialize cmp z.2) os').2 = (trun cmp t os').2.
Proof. exact lC35_tree_serde. Qed.
Example C35_tree_serde_example : (tserialize Nat.compare (tafter Nat.compare thist)).1 = 157 /\
  peek Nat.compare (tdeserialize Nat.compare (tserialize Nat.compare (tafter Nat.compare thist)).2) 499 = Some 357.
Proof. vm_compute. repeat split; reflexivity. Qed.
Print Assumptions C35_tree_serde.
Theorem C40_tree_other_keys {K V : Type} : forall cmp : K -> K -> comparison, total_order cmp ->
  forall (os : list (top K V)) o k k', tkey o = Some k -> k' <> k ->
  peek cmp (tafter cmp (os ++ [o])) k' = peek cmp (tafter cmp os) k'.
Proof. exact lC40_tree. Qed.
Example C40_tree_example : tkey (@TRemove nat nat 98) = Some 98 /\ peek Nat.compare (tafter Nat.compare (thist ++ [TRemove 98])) 100 = Some 300.
Proof. vm_compute. repeat split; reflexivity. Qed.
Print Assumptions C40_tree_other_keys.

(** C29. [Iter] and [Range] are [FusedIterator]s, but start over after [None]; a [Range] then yields keys
    below its lower bound. *)
Theorem C29_iter_fused_refuted : exists (t : treeindex nat nat) n e,
  t = inserts Nat.compare [1; 2] 0 /\
  (iter_calls Nat.compare n t None).1 !! 2 = Some None /\
  (iter_calls Nat.compare n t None).1 !! 3 = Some (Some e).
Proof. exact lC29_iter_refuted. Qed.
Print Assumptions C29_iter_fused_refuted.

Theorem C29_range_fused_refuted : exists (t : treeindex nat nat) (r : bound nat * bound nat) n e,
  t = inserts Nat.compare [1; 2] 0 /\ r = (Included 2, Unbounded) /\
  (range_calls Nat.compare n t r new_range).1 = [Some (2, 0); None; Some e] /\ ~ in_range Nat.compare r e.1.
Proof. exact lC29_range_refuted. Qed.
Print Assumptions C29_range_fused_refuted.

(** C30. A removal by another thread between the creation of the scanner ([t]) and the reading of the
    maximum key ([hp t']) makes the next call yield a key above the upper bound. *)
Theorem C30_range_bounds_refuted : exists (t : treeindex nat nat) (r : bound nat * bound nat) k e,
  t = inserts Nat.compare [1; 5] 0 /\ r = (Unbounded, Included 3) /\
  let t' := (remove_if_sync Nat.compare t k (fun _ => true)).1 in
  let z := range_next Nat.compare (range_fuel t) t (hp t') r new_range in
  let y := range_next Nat.compare (range_fuel t') t' (hp t') r z.1 in
  z.2 = Some (1, 0) /\ y.2 = Some e /\ ~ in_range Nat.compare r e.1.
Proof. exact lC30_refuted. Qed.
Print Assumptions C30_range_bounds_refuted.

(** C31. One call of [remove_if] removes the entry it found and the one that another thread inserted
    with the same key in the meantime. *)
Theorem C31_remove_once_refuted : exists (t : treeindex nat nat) k v v',
  t = inserts Nat.compare [k] v /\ v <> v' /\
  let '(t', r, log) := remove_if_race Nat.compare 3 t k (fun _ => true) false [(k, v')] [] in
  r = Some true /\ log = [Took k v; Inserted k v' IOk; Took k v'] /\ iter_all Nat.compare t' = [].
Proof. exact lC31_refuted. Qed.
Print Assumptions C31_remove_once_refuted.

(** C44. When [remove_range] and [insert] run between two calls of [next], the iterator goes back. *)
Theorem C44_iter_monotone_refuted : exists (t : treeindex nat nat) n r k e e',
  t = inserts Nat.compare (seq 0 500) 0 /\ r = (Included 100, Included 345) /\
  let z := iter_calls Nat.compare n t None in
  let t' := (insert_sync Nat.compare (remove_range_sync Nat.compare t r).1 k 1).1 in
  let y := iter_calls Nat.compare 100 t' z.2 in
  last z.1 = Some (Some e) /\ Some e' ∈ y.1 /\ e'.1 < e.1.
Proof. exact lC44_refuted. Qed.
Print Assumptions C44_iter_monotone_refuted.

(** C54. A panic of [K::clone] while [insert_sync] splits a leaf leaves the halves of the leaf in the list
    of leaves: a removed key comes back in iterators, and after the next insertion an iterator yields
    every entry twice.  Lookups are not affected by the unwinding. *)
Theorem C54_unwinding_refuted : exists (t t' : treeindex nat nat) k k' v,
  t = inserts Nat.compare (seq 1 14) 0 /\ insert_unwound Nat.compare t k v = Some t' /\
  let t1 := (remove_if_sync Nat.compare t' k' (fun _ => true)).1 in
  let t2 := (insert_sync Nat.compare t1 k v).1 in
  peek Nat.compare t1 k' = None /\ (k', 0) ∈ iter_all Nat.compare t1 /\
  iter_all Nat.compare t2 = map (fun x => (x, 0)) (seq 1 13 ++ [15] ++ seq 1 14).
Proof. exact lC54_refuted. Qed.
Print Assumptions C54_unwinding_refuted.
Theorem C54_lookups_survive_partial {K V : Type} : forall cmp : K -> K -> comparison, total_order cmp ->
  forall (os : list (top K V)) k v t', insert_unwound cmp (tafter cmp os) k v = Some t' ->
  forall k', peek cmp t' k' = peek cmp (tafter cmp os) k'.
Proof. exact lC54_peek. Qed.
Example C54_example : exists t', insert_unwound Nat.compare (tafter Nat.compare (take 400 thist)) 87 0 = Some t' /\
  peek Nat.compare t' 21 = Some 3 /\ peek Nat.compare t' 87 = None.
Proof.
  exists (default new_tree (insert_unwound Nat.compare (tafter Nat.compare (take 400 thist)) 87 0)).
  vm_compute. repeat split; reflexivity.
Qed.
Print Assumptions C54_lookups_survive_partial.
