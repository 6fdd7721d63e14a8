(** Witnesses for the refuted properties. *)
From stdpp Require Import prelude list.
From Verif Require Import LeafModel LeafSpec TreeModel TreeCalls TreeRace.

Lemma lC29_iter_refuted : exists (t : treeindex nat nat) n e,
  t = inserts Nat.compare [1; 2] 0 /\
  (iter_calls Nat.compare n t None).1 !! 2 = Some None /\
  (iter_calls Nat.compare n t None).1 !! 3 = Some (Some e).
Proof. exists (inserts Nat.compare [1; 2] 0), 4, (1, 0). vm_compute. repeat split; reflexivity. Qed.

Lemma lC29_range_refuted : exists (t : treeindex nat nat) (r : bound nat * bound nat) n e,
  t = inserts Nat.compare [1; 2] 0 /\ r = (Included 2, Unbounded) /\
  (range_calls Nat.compare n t r new_range).1 = [Some (2, 0); None; Some e] /\ ~ in_range Nat.compare r e.1.
Proof.
  exists (inserts Nat.compare [1; 2] 0), (Included 2, Unbounded), 3, (1, 0). split; [reflexivity|]. split; [reflexivity|].
  split; [vm_compute; reflexivity|]. intros [[H|H] _]; vm_compute in H; congruence.
Qed.

(** A removal by another thread between the creation of the scanner and the reading of the maximum key. *)
Lemma lC30_refuted : exists (t : treeindex nat nat) (r : bound nat * bound nat) k e,
  t = inserts Nat.compare [1; 5] 0 /\ r = (Unbounded, Included 3) /\
  let t' := (remove_if_sync Nat.compare t k (fun _ => true)).1 in
  let z := range_next Nat.compare (range_fuel t) t (hp t') r new_range in
  let y := range_next Nat.compare (range_fuel t') t' (hp t') r z.1 in
  z.2 = Some (1, 0) /\ y.2 = Some e /\ ~ in_range Nat.compare r e.1.
Proof.
  exists (inserts Nat.compare [1; 5] 0), (Unbounded, Included 3), 5, (5, 0). split; [reflexivity|]. split; [reflexivity|].
  split; [vm_compute; reflexivity|]. split; [vm_compute; reflexivity|]. intros [_ [H|H]]; vm_compute in H; congruence.
Qed.

(** One call removes two entries: the one it found, and the one another thread has inserted since. *)
Lemma lC31_refuted : exists (t : treeindex nat nat) k v v',
  t = inserts Nat.compare [k] v /\ v <> v' /\
  let '(t', r, log) := remove_if_race Nat.compare 3 t k (fun _ => true) false [(k, v')] [] in
  r = Some true /\ log = [Took k v; Inserted k v' IOk; Took k v'] /\ iter_all Nat.compare t' = [].
Proof. exists (inserts Nat.compare [7] 0), 7, 0, 1. split; [reflexivity|]. split; [discriminate|]. vm_compute. repeat split; reflexivity. Qed.

(** Between two calls of [next], a range that holds the iterator is removed and a key is inserted. *)
Lemma lC44_refuted : exists (t : treeindex nat nat) n r k e e',
  t = inserts Nat.compare (seq 0 500) 0 /\ r = (Included 100, Included 345) /\
  let z := iter_calls Nat.compare n t None in
  let t' := (insert_sync Nat.compare (remove_range_sync Nat.compare t r).1 k 1).1 in
  let y := iter_calls Nat.compare 100 t' z.2 in
  last z.1 = Some (Some e) /\ Some e' ∈ y.1 /\ e'.1 < e.1.
Proof.
  exists (inserts Nat.compare (seq 0 500) 0), 251, (Included 100, Included 345), 200, (250, 0), (200, 1).
  split; [reflexivity|]. split; [reflexivity|]. split; [vm_compute; reflexivity|]. split; [|cbn; lia].
  apply elem_of_list_lookup. exists 87. vm_compute. reflexivity.
Qed.
