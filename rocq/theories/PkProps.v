(** Lock-free reads of a HashIndex, any number of threads: C17 and what holds of C18 and C50. *)
From Coq Require Import NArith.
From stdpp Require Import prelude list numbers.
From Verif Require Import PeekModel PeekSpec PeekWit PeekWit2 PkSpec PkWit PkFacts.

(** ** C17 *)
(** An entry is in the table when a read of its key is called, and nobody inserts or removes it before the
    answer: whatever else happens, the read finds an entry with the key. *)
Theorem C17_undisturbed_found {K V : Type} `{EqDecision K} (hash : K -> N) : (forall k, hash k < 2 ^ 64)%N ->
  forall n before st t (x : obj K V) l st' r,
  run hash (init n) before = Some st -> called st t (okey x) -> stored st x -> during hash st l (fun s => ~ busy s x) ->
  run hash st l = Some st' -> answered st' t (okey x) r ->
  exists y, r = Some y /\ okey y = okey x /\ at_some hash st l (fun s => stored s y).
Proof. exact (undisturbed_found hash). Qed.
Print Assumptions C17_undisturbed_found.
Example C17_undisturbed_found_example : exists st st' t x l r,
  run low (init 3) call_acts = Some st /\ called st t (okey x) /\ stored st x /\ during low st l (fun s => ~ busy s x) /\
  run low st l = Some st' /\ answered st' t (okey x) r /\ cur st = Some 0 /\ cur st' = Some 1.
Proof.
  exists (reach 3 call_acts). eexists. exists 1, (0, (1%N, 5%N)), stay_acts. eexists.
  split; [vm_compute; reflexivity|]. split; [eexists; split; vm_compute; reflexivity|]. split.
  - apply (rests_settled _ [(0, 0, 0, 0); (1, 0, 0, 0)]). vm_compute. reflexivity.
  - split; [apply (along_during (fun s => forallb (fun th => negb (works (0, (1%N, 5%N)) th)) (threads s))); [intros; by apply none_works|vm_compute; reflexivity]|].
    split; [vm_compute; reflexivity|]. split; [eexists; split; vm_compute; reflexivity|]. split; vm_compute; reflexivity.
Qed.

(** ** C18 *)
(** Only an old version [x] and a new version [y] of a key are in the table while the key is read.  If the
    removal of the old version has not begun before the answer, or the insertion of the new one has returned
    before the call, the read finds one of them. *)
Theorem C18_update_partial {K V : Type} `{EqDecision K} (hash : K -> N) : (forall k, hash k < 2 ^ 64)%N ->
  forall n before st t (x y : obj K V) l st' r,
  run hash (init n) before = Some st -> called st t (okey x) -> okey y = okey x ->
  (stored st x /\ during hash st l (fun s => ~ busy s x)) \/ (stored st y /\ during hash st l (fun s => ~ busy s y)) ->
  during hash st l (fun s => forall z, stored s z -> okey z = okey x -> z = x \/ z = y) ->
  run hash st l = Some st' -> answered st' t (okey x) r -> r = Some x \/ r = Some y.
Proof. exact (update_seen hash). Qed.
Print Assumptions C18_update_partial.
Example C18_update_example : exists st st' t x y l r,
  run low (init 3) call_acts = Some st /\ called st t (okey x) /\ okey y = okey x /\ y <> x /\
  stored st x /\ during low st l (fun s => ~ busy s x) /\
  during low st l (fun s => forall z, stored s z -> okey z = okey x -> z = x \/ z = y) /\
  run low st l = Some st' /\ answered st' t (okey x) r /\ stored st' y.
Proof.
  exists (reach 3 call_acts). eexists. exists 1, (0, (1%N, 5%N)), (2, (1%N, 7%N)), upd_acts. eexists.
  split; [vm_compute; reflexivity|]. split; [eexists; split; vm_compute; reflexivity|]. split; [done|]. split; [done|]. split.
  { apply (rests_settled _ [(0, 0, 0, 0)]). vm_compute. reflexivity. }
  split; [apply (along_during (fun s => forallb (fun th => negb (works (0, (1%N, 5%N)) th)) (threads s))); [intros; by apply none_works|vm_compute; reflexivity]|].
  split; [apply (along_during (fun s => either s (0, (1%N, 5%N)) (2, (1%N, 7%N)))); [intros s A; exact (either_only _ _ _ A)|vm_compute; reflexivity]|].
  split; [vm_compute; reflexivity|]. split; [eexists; split; vm_compute; reflexivity|].
  apply (rests_settled _ [(0, 0, 0, 2)]). vm_compute. reflexivity.
Qed.

(** ** C50 *)
(** An entry that is in the table stays there as long as nobody removes it: also while its insertion is
    still at work, and while it is moved from one array to another. *)
Theorem C50_entry_stays_partial {K V : Type} `{EqDecision K} (hash : K -> N) :
  forall n before (st : state K V) l st' x,
  run hash (init n) before = Some st -> stored st x -> during hash st l (fun s => ~ removing s x) ->
  run hash st l = Some st' -> stored st' x.
Proof. exact (kept_stored hash). Qed.
Print Assumptions C50_entry_stays_partial.
Example C50_entry_stays_example : exists st', stored (reach 3 (found0 ++ found1)) (1, (2%N, 9%N)) /\
  during low (reach 3 (found0 ++ found1)) found2 (fun s => ~ removing s (1, (2%N, 9%N))) /\
  run low (reach 3 (found0 ++ found1)) found2 = Some st' /\ cur st' = Some 1 /\ omap op_of found2 = [OMove 0 0 1].
Proof.
  eexists. split; [|split; [|split; [vm_compute; reflexivity|split; vm_compute; reflexivity]]].
  - exists 0, 0, 0, 1. eexists _, _, _. split; [left; vm_compute; reflexivity|]. split; [vm_compute; reflexivity|]. split; [vm_compute; reflexivity|].
    split; [vm_compute; reflexivity|]. split; [vm_compute; reflexivity|]. split; vm_compute; reflexivity.
  - apply (along_during (fun s => forallb (fun th => negb (removes (1, (2%N, 9%N)) th)) (threads s))); [intros; by apply none_removes|vm_compute; reflexivity].
Qed.

(** A read has found an entry; another read of the key is called later.  If nobody removes the entry, and
    its insertion has returned when the second read is called, the second read finds an entry too. *)
Theorem C50_found_again_partial {K V : Type} `{EqDecision K} (hash : K -> N) : (forall k, hash k < 2 ^ 64)%N ->
  forall n before (st : state K V) t k l1 st1 y l2 st2 u l3 st3 r,
  run hash (init n) before = Some st -> called st t k -> run hash st l1 = Some st1 -> answered st1 t k (Some y) ->
  run hash st1 l2 = Some st2 -> called st2 u k -> run hash st2 l3 = Some st3 -> answered st3 u k r ->
  during hash st (l1 ++ l2 ++ l3) (fun s => ~ removing s y) -> during hash st2 l3 (fun s => ~ busy s y) ->
  exists z, r = Some z /\ okey z = k /\ at_some hash st2 l3 (fun s => stored s z).
Proof. exact (later_found hash). Qed.
Print Assumptions C50_found_again_partial.
(** The first read has its answer before the insertion has returned; the entry is moved between the reads. *)
Example C50_found_again_example : exists st1 st2 st3 r,
  run low (init 3) found0 = Some (reach 3 found0) /\ called (reach 3 found0) 1 2%N /\
  run low (reach 3 found0) found1 = Some st1 /\ answered st1 1 2%N (Some (1, (2%N, 9%N))) /\
  run low st1 found2 = Some st2 /\ called st2 2 2%N /\ run low st2 found3 = Some st3 /\ answered st3 2 2%N r /\
  during low (reach 3 found0) (found1 ++ found2 ++ found3) (fun s => ~ removing s (1, (2%N, 9%N))) /\
  during low st2 found3 (fun s => ~ busy s (1, (2%N, 9%N))).
Proof.
  eexists _, _, _, _. split; [vm_compute; reflexivity|]. split; [eexists; split; vm_compute; reflexivity|].
  split; [vm_compute; reflexivity|]. split; [eexists; split; vm_compute; reflexivity|].
  split; [vm_compute; reflexivity|]. split; [eexists; split; vm_compute; reflexivity|].
  split; [vm_compute; reflexivity|]. split; [eexists; split; vm_compute; reflexivity|]. split.
  - apply (along_during (fun s => forallb (fun th => negb (removes (1, (2%N, 9%N)) th)) (threads s))); [intros; by apply none_removes|vm_compute; reflexivity].
  - apply (along_during (fun s => forallb (fun th => negb (works (1, (2%N, 9%N)) th)) (threads s))); [intros; by apply none_works|vm_compute; reflexivity].
Qed.
