(** Property theorems: the packed LRU list of a HashCache bucket (C21, list part). *)
From stdpp Require Import prelude list.
From Verif Require Import LruModel LruSpec LruFacts.

(** ** C21 (the recency list): for every sequence of touches, removals and evictions on the slots
    of a bucket, the packed circular list never goes out of bounds, and each eviction picks
    exactly the slot that was touched longest ago among the slots still in the list (and picks
    none exactly when the list is empty). *)
Theorem C21_lru_list_evicts_oldest (os : list lru_op) :
  Forall op_slot_ok os ->
  exists s, lru_run lru_new os = Some (s, (spec_run [] os).2).
Proof. exact (lC21_lru_list_evicts_oldest os). Qed.
Print Assumptions C21_lru_list_evicts_oldest.

Example C21_lru_list_evicts_oldest_case :
  let os := [Touch 3; Touch 0; Touch 31; Touch 3; Forget 31; Touch 7; Evict; Evict; Evict; Evict] in
  Forall op_slot_ok os /\
  option_map snd (lru_run lru_new os) =
    Some [None; None; None; None; None; None; Some 0; Some 3; Some 7; None].
Proof. split; [repeat constructor; simpl; lia|vm_compute; reflexivity]. Qed.
