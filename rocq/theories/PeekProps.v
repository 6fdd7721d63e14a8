(** Theorems about lock-free reads of a HashIndex, one shared memory access per step, against any
    number of writers, relocations and other readers. *)
From Coq Require Import NArith.
From stdpp Require Import prelude list numbers.
From Verif Require Import PeekModel PeekSpec PeekThms PeekWit PeekWit2.

(** ** C17 *)
(** An entry is in the table, and neither inserted nor removed, from the call of a read of its key to the
    answer.  The read finds an entry with the key, one that was in the table at some instant in between. *)
Theorem C17_stable_found {K V : Type} `{EqDecision K} (hash : K -> N) : (forall k, hash k < 2 ^ 64)%N ->
  forall n before st t (x : obj K V) l st' r,
  run hash (init n) before = Some st -> called st t (okey x) -> run hash st l = Some st' ->
  during hash st l (fun s => settled s x) -> answered st' t (okey x) r ->
  exists y, r = Some y /\ okey y = okey x /\ at_some hash st l (fun s => stored s y).
Proof. exact (lC17_stable_found hash). Qed.
Print Assumptions C17_stable_found.
(** The entry is moved to another array, and the array the reader has loaded is detached. *)
Example C17_stable_found_example : exists st st' t x l r,
  run low (init 3) call_acts = Some st /\ called st t (okey x) /\ run low st l = Some st' /\
  during low st l (fun s => settled s x) /\ answered st' t (okey x) r /\ cur st = Some 0 /\ cur st' = Some 1.
Proof.
  exists (reach 3 call_acts). eexists. exists 1, (0, (1%N, 5%N)), stay_acts. eexists.
  split; [vm_compute; reflexivity|]. split; [eexists; split; vm_compute; reflexivity|]. split; [vm_compute; reflexivity|]. split.
  - apply (along_during (fun s => rests s [(0, 0, 0, 0); (1, 0, 0, 0)] (0, (1%N, 5%N)))); [intros; by eapply rests_settled|vm_compute; reflexivity].
  - split; [eexists; split; vm_compute; reflexivity|]. split; vm_compute; reflexivity.
Qed.

(** If no other entry has the key meanwhile, the read finds this one. *)
Theorem C17_only_entry {K V : Type} `{EqDecision K} (hash : K -> N) : (forall k, hash k < 2 ^ 64)%N ->
  forall n before st t (x : obj K V) l st' r,
  run hash (init n) before = Some st -> called st t (okey x) -> run hash st l = Some st' ->
  during hash st l (fun s => settled s x /\ forall y, stored s y -> okey y = okey x -> y = x) -> answered st' t (okey x) r -> r = Some x.
Proof. exact (lC17_only_entry hash). Qed.
Print Assumptions C17_only_entry.
Example C17_only_entry_example : exists st st' t x l r,
  run low (init 3) call_acts = Some st /\ called st t (okey x) /\ run low st l = Some st' /\
  during low st l (fun s => settled s x /\ forall y, stored s y -> okey y = okey x -> y = x) /\ answered st' t (okey x) r.
Proof.
  exists (reach 3 call_acts). eexists. exists 1, (0, (1%N, 5%N)), stay_acts. eexists.
  split; [vm_compute; reflexivity|]. split; [eexists; split; vm_compute; reflexivity|]. split; [vm_compute; reflexivity|]. split.
  - apply (along_during (fun s => rests s [(0, 0, 0, 0); (1, 0, 0, 0)] (0, (1%N, 5%N)) && alone s (0, (1%N, 5%N)))); [|vm_compute; reflexivity].
    intros s H. apply andb_prop in H as [H A]. split; [by eapply rests_settled|by apply alone_only].
  - eexists; split; vm_compute; reflexivity.
Qed.

(** Whatever a read answers has the key and was in the table at some instant of the call. *)
Theorem C17_answer_was_stored {K V : Type} `{EqDecision K} (hash : K -> N) : (forall k, hash k < 2 ^ 64)%N ->
  forall n before st t k l st' (y : obj K V),
  run hash (init n) before = Some st -> called st t k -> run hash st l = Some st' -> answered st' t k (Some y) ->
  okey y = k /\ at_some hash st l (fun s => stored s y).
Proof. exact (lC17_answer_was_stored hash). Qed.
Print Assumptions C17_answer_was_stored.
Example C17_answer_was_stored_example : exists st st' t l y,
  run low (init 3) call_acts = Some st /\ called st t 1%N /\ run low st l = Some st' /\ answered st' t 1%N (Some y).
Proof.
  exists (reach 3 call_acts). eexists. exists 1, stay_acts. eexists.
  split; [vm_compute; reflexivity|]. split; [eexists; split; vm_compute; reflexivity|]. split; [vm_compute; reflexivity|].
  eexists; split; vm_compute; reflexivity.
Qed.

(** If the key is not in the table at any instant of the call, the read finds nothing. *)
Theorem C17_absent {K V : Type} `{EqDecision K} (hash : K -> N) : (forall k, hash k < 2 ^ 64)%N ->
  forall n before st t k l st' (r : option (obj K V)),
  run hash (init n) before = Some st -> called st t k -> run hash st l = Some st' ->
  during hash st l (fun s => forall y, stored s y -> okey y <> k) -> answered st' t k r -> r = None.
Proof. exact (lC17_absent hash). Qed.
Print Assumptions C17_absent.
Example C17_absent_example : exists st st' t l r,
  run low (init 3) miss_acts = Some st /\ called st t 9%N /\ run low st l = Some st' /\
  during low st l (fun s => forall y, stored s y -> okey y <> 9%N) /\ answered st' t 9%N r.
Proof.
  exists (reach 3 miss_acts). eexists. exists 1, missed_acts. eexists.
  split; [vm_compute; reflexivity|]. split; [eexists; split; vm_compute; reflexivity|]. split; [vm_compute; reflexivity|]. split.
  - apply (along_during (fun s => lacks s 9%N)); [intros s H; by apply lacks_absent|vm_compute; reflexivity].
  - eexists; split; vm_compute; reflexivity.
Qed.

(** ** C19 *)
(** A slot has an entry that readers can reach, and from then on a thread has a guard without
    interruption.  As long as it has, the slot contains the entry: neither is the entry dropped there, nor
    the slot filled with another one, whether the entry is removed or moved. *)
Theorem C19_guarded_slot {K V : Type} `{EqDecision K} (hash : K -> N) : (forall k, hash k < 2 ^ 64)%N ->
  forall m before st t a i n j (x : obj K V) ar b nd l st',
  run hash (init m) before = Some st -> mem st !! a = Some ar -> bks ar !! i = Some b -> nodes b !! n = Some nd ->
  N.testbit (occ nd) (N.of_nat j) = true -> N.testbit (rem nd) (N.of_nat j) = false -> data nd !! j = Some (Some x) ->
  run hash st l = Some st' -> during hash st l (guarded t) -> contains st' a i n j x.
Proof. exact (lC19_guarded_slot hash). Qed.
Print Assumptions C19_guarded_slot.
(** The entry is removed, the epoch advances, the block is cleaned up, and another entry is inserted. *)
Example C19_guarded_slot_example : exists st st' t ar b nd,
  run low (init 3) hold_acts = Some st /\ mem st !! 0 = Some ar /\ bks ar !! 0 = Some b /\ nodes b !! 0 = Some nd /\
  N.testbit (occ nd) 0 = true /\ N.testbit (rem nd) 0 = false /\ data nd !! 0 = Some (Some (0, (1%N, 5%N))) /\
  run low st kept_acts = Some st' /\ during low st kept_acts (guarded t) /\
  omap op_of kept_acts = [OMark 0 0 0 0; OClear 0 0 0; OInsert 0 2%N 6%N] /\ epoch st' = 1%N.
Proof.
  exists (reach 3 hold_acts). eexists. exists 1. eexists _, _, _.
  split; [vm_compute; reflexivity|]. split; [vm_compute; reflexivity|]. split; [vm_compute; reflexivity|]. split; [vm_compute; reflexivity|].
  split; [vm_compute; reflexivity|]. split; [vm_compute; reflexivity|]. split; [vm_compute; reflexivity|]. split; [vm_compute; reflexivity|].
  split; [apply (along_during (holds 1)); [intros; by apply holds_guarded|vm_compute; reflexivity]|]. split; vm_compute; reflexivity.
Qed.
(** Without the guard the slot is used again. *)
Example C19_unguarded_slot_example : exists st',
  run low (reach 3 hold_acts) lost_acts = Some st' /\ contains st' 0 0 0 0 (1, (2%N, 6%N)) /\ gone st' = [0].
Proof.
  eexists. split; [vm_compute; reflexivity|]. split; [|vm_compute; reflexivity].
  eexists _, _, _. split; [vm_compute; reflexivity|]. split; [vm_compute; reflexivity|]. split; vm_compute; reflexivity.
Qed.

(** ** C51 *)
(** A read that has no answer yet can always make its next step: the array, the bucket, the block and the
    entry that it accesses are there, and the entry is initialised. *)
Theorem C51_reads_go_on {K V : Type} `{EqDecision K} (hash : K -> N) : (forall k, hash k < 2 ^ 64)%N ->
  forall n acts (st : state K V) t th k p,
  run hash (init n) acts = Some st -> threads st !! t = Some th -> work th = Peek k p -> (forall r, p <> PDone r) ->
  exists st', step hash st (AStep t) = Some st'.
Proof. exact (lC51_reads_go_on hash). Qed.
Print Assumptions C51_reads_go_on.
(** A reader that is about to compare the key of an entry which has been moved away. *)
Example C51_reads_go_on_example : exists st th,
  run low (init 3) probe_acts = Some st /\ threads st !! 1 = Some th /\ work th = Peek 1%N (@PProbe N N 0 0 0 1) /\ old_of st = None /\ cur st = Some 1.
Proof.
  eexists _, _. split; [vm_compute; reflexivity|]. split; [vm_compute; reflexivity|]. split; [vm_compute; reflexivity|]. split; vm_compute; reflexivity.
Qed.
