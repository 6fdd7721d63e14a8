(** Theorems about concurrent executions of the hash table (HashMap, HashSet).

    [run hash l (start n) = Some s]: from an empty container, [n] threads execute the schedule [l],
    which leads to [s].  Every step is one atomic action of one thread: a load of an atomic pointer, a
    lock operation, the accesses protected by a lock, ...  [trace s] is the history of calls and returns. *)
From Coq Require Import NArith.
From stdpp Require Import prelude list numbers.
From Verif Require Import CtModel CtSpec CtThms CtWit.
Local Open Scope N_scope.

(** Every history is linearizable: there is a point in each operation between its call and its return at which it takes effect, and the answers are those of a sequential map; the entries stored at the end are those of the map. *)
Theorem C13_linearizable {K V : Type} `{EqDecision K} (hash : K -> N) :
  (forall k, hash k < 2 ^ 64) -> forall (n : nat) l (s : state K V), run hash l (start n) = Some s ->
  exists m, linearizes (trace s) m /\ forall k v, m k = Some v <-> stored s k v.
Proof. exact (lC13_linearizable hash). Qed.
Print Assumptions C13_linearizable.
Example C13_linearizable_ex :
  after (ex_processed ++ go 0 6) (fun s =>
    trace s = [Call 0 (KOp (OInsert 5 50)); Ret 0 (RBool true); Call 0 (KOp (OInsert 40 41)); Ret 0 (RBool true);
               Call 1 KResize; Ret 1 RUnit; Call 0 (KOp (ORead 5)); Ret 0 (RVal (Some 50))] /\
    es (bks s 1 0) = [(5, 50)] /\ es (bks s 1 5) = [(40, 41)]).
Proof. vm_compute. repeat split; reflexivity. Qed.

(** At every instant, a key that is present is in exactly one bucket, which belongs to the current array or the one linked to it and is not retired; a key that is absent is in none. *)
Theorem C14_one_place {K V : Type} `{EqDecision K} (hash : K -> N) :
  (forall k, hash k < 2 ^ 64) -> forall (n : nat) l (s : state K V), run hash l (start n) = Some s ->
  exists m, linearizes (trace s) m /\ forall k,
    match m k with
    | Some v => exists x i, stored_at s x i k v /\ live s x /\ lk (bks s x i) <> LDead /\
        forall y i' v', stored_at s y i' k v' -> y = x /\ i' = i /\ v' = v
    | None => forall x i v, ~ stored_at s x i k v
    end.
Proof. exact (lC14_one_place hash). Qed.
Print Assumptions C14_one_place.
(** In the middle of a move: one key in the new array, the other still in the old one. *)
Example C14_one_place_ex :
  after ex_moved (fun s => cur s = Some 1%nat /\ link (arr s 1) = Some 0%nat /\
    es (bks s 1 0) = [(5, 50)] /\ es (bks s 0 0) = [] /\ es (bks s 0 1) = [(40, 41)]).
Proof. vm_compute. repeat split; reflexivity. Qed.

(** Nothing but the critical section of a call changes which entries there are: resizing, relocating, retiring and dropping neither discard an entry nor bring one back. *)
Theorem C14_only_calls_change {K V : Type} `{EqDecision K} (hash : K -> N) :
  (forall k, hash k < 2 ^ 64) -> forall (n : nat) l (s : state K V) t c s', run hash l (start n) = Some s -> step hash t c s = Some s' ->
  (forall j a i, pcs s !! t <> Some (Crit j a i)) -> forall k v, stored s' k v <-> stored s k v.
Proof. exact (lC14_only_calls_change hash). Qed.
Print Assumptions C14_only_calls_change.
(** The step that moves an entry from one array to the other. *)
Example C14_only_calls_change_ex :
  after ex_locked (fun s => es (bks s 0 0) = [(5, 50)] /\ es (bks s 1 0) = [] /\
    match step hx 0 CGo s with Some s' => es (bks s' 0 0) = [] /\ es (bks s' 1 0) = [(5, 50)] | None => False end).
Proof. vm_compute. repeat split; reflexivity. Qed.

(** When the table is dropped, it contains nothing. *)
Theorem C14_dropped_empty {K V : Type} `{EqDecision K} (hash : K -> N) :
  (forall k, hash k < 2 ^ 64) -> forall (n : nat) l (s : state K V) t c s' a, run hash l (start n) = Some s -> step hash t c s = Some s' ->
  cur s = Some a -> cur s' = None -> forall k v, ~ stored s k v.
Proof. exact (lC14_dropped_empty hash). Qed.
Print Assumptions C14_dropped_empty.
Example C14_dropped_empty_ex :
  after ex_dropping (fun s => cur s = Some 0%nat /\
    match step hx 1 CGo s with Some s' => cur s' = None | None => False end).
Proof. vm_compute. repeat split; reflexivity. Qed.

(** The old array is detached only when every one of its buckets has been processed. *)
Theorem C15_detached_when_done {K V : Type} `{EqDecision K} (hash : K -> N) :
  (forall k, hash k < 2 ^ 64) -> forall (n : nat) l (s : state K V) t c s' a o, run hash l (start n) = Some s -> step hash t c s = Some s' ->
  link (arr s a) = Some o -> link (arr s' a) = None -> forall i, i < alen s o -> lk (bks s o i) = LDead.
Proof. exact (lC15_detached_when_done hash). Qed.
Print Assumptions C15_detached_when_done.
Example C15_detached_when_done_ex :
  after ex_processed (fun s => link (arr s 1) = Some 0%nat /\ alen s 0 = 2 /\
    match step hx 0 CGo s with Some s' => link (arr s' 1) = None | None => False end).
Proof. vm_compute. repeat split; reflexivity. Qed.

(** A processed bucket stays processed and a detached array stays detached; no thread is ever inside a processed bucket again (C39_not_retired), so no bucket is processed twice. *)
Theorem C15_once {K V : Type} `{EqDecision K} (hash : K -> N) :
  forall (n : nat) l (s : state K V) l' s', run hash l (start n) = Some s -> run hash l' s = Some s' ->
  (forall x i, lk (bks s x i) = LDead -> lk (bks s' x i) = LDead) /\
  (forall x, (x < nxt s)%nat -> link (arr s x) = None -> link (arr s' x) = None).
Proof. exact (lC15_once hash). Qed.
Print Assumptions C15_once.
Example C15_once_ex :
  after ex_processed (fun s => lk (bks s 0 0) = LDead /\ link (arr s 0) = None /\
    match run hx (go 0 6) s with Some s' => lk (bks s' 0 0) = LDead /\ trace s' <> trace s | None => False end).
Proof. vm_compute. repeat split; try reflexivity. discriminate. Qed.

(** A bucket that is not processed is in a range on which a thread is working, or will be handed out (again): the rehashing word has not passed it, and when nobody is working on the array the next claim succeeds at or before the bucket. *)
Theorem C15_handed_out_again {K V : Type} `{EqDecision K} (hash : K -> N) :
  (forall k, hash k < 2 ^ 64) -> forall (n : nat) l (s : state K V) a o i, run hash l (start n) = Some s ->
  link (arr s a) = Some o -> i < alen s o -> lk (bks s o i) <> LDead ->
  (exists t p prev, pcs s !! t = Some p /\ claims p = Some (o, prev) /\ prev <= i < prev + 32) \/
  (N.ldiff (word (arr s o)) 31 <= i /\
   ((forall t p prev, pcs s !! t = Some p -> claims p <> Some (o, prev)) ->
    exists prev w, claim (alen s o) (word (arr s o)) = Some (prev, w) /\ prev <= i)).
Proof. exact (lC15_handed_out_again hash). Qed.
Print Assumptions C15_handed_out_again.
(** A thread claims both buckets and is dropped: its range is available again. *)
Example C15_handed_out_again_ex :
  after (ex_claimed ++ [(0%nat, CCancel); (0%nat, CGo)]) (fun s => link (arr s 1) = Some 0%nat /\
    lk (bks s 0 1) = LFree /\ pcs s = [Idle; Idle] /\ claim (alen s 0) (word (arr s 0)) = Some (0, 33)).
Proof. vm_compute. repeat split; reflexivity. Qed.

(** An array that is linked can always be worked on: a range can be claimed, or a thread has claimed one, or a thread is about to detach it. *)
Theorem C15_goes_on {K V : Type} `{EqDecision K} (hash : K -> N) :
  (forall k, hash k < 2 ^ 64) -> forall (n : nat) l (s : state K V) a o, run hash l (start n) = Some s -> link (arr s a) = Some o ->
  claim (alen s o) (word (arr s o)) <> None \/
  (exists t p prev, pcs s !! t = Some p /\ claims p = Some (o, prev)) \/
  (exists t j, pcs s !! t = Some (Detach j a o)).
Proof. exact (lC15_goes_on hash). Qed.
Print Assumptions C15_goes_on.
Example C15_goes_on_ex :
  after ex_processed (fun s => link (arr s 1) = Some 0%nat /\ claim (alen s 0) (word (arr s 0)) = None /\
    pcs s = [Detach (JOp (ORead 5)) 1 0; Idle]).
Proof. vm_compute. repeat split; reflexivity. Qed.

(** An entry that is present during a whole iteration (or retain) is presented to it: if at each instant from the call to the return the key has a value satisfying [P], then the iteration saw such a value. *)
Theorem C16_scan_sees {K V : Type} `{EqDecision K} (hash : K -> N) :
  (forall k, hash k < 2 ^ 64) -> forall (P : V -> Prop) k f (n : nat) l0 (s : state K V) t s0 l s1 s2 seen,
  run hash l0 (start n) = Some s -> step hash t (CCall (KScan f)) s = Some s0 -> run hash l s0 = Some s1 ->
  (forall l1 l2 s', l = l1 ++ l2 -> run hash l1 s0 = Some s' -> exists v, P v /\ stored s' k v) ->
  step hash t CGo s1 = Some s2 -> trace s2 = trace s1 ++ [Ret t (RSeen seen)] ->
  exists v, P v /\ (k, v) ∈ seen.
Proof. exact (lC16_scan_sees hash). Qed.
Print Assumptions C16_scan_sees.
(** The table is replaced by a larger one in the middle of the iteration. *)
Example C16_scan_sees_ex :
  after ex_filled (fun s => match step hx 0 (CCall (KScan None)) s with
    | Some s0 => match run hx ex_scan s0 with
      | Some s' => trace s' = trace s ++ [Call 0 (KScan None); Call 1 KResize; Ret 1 RUnit;
          Call 1 (KOp (OUpsert 40 42)); Ret 1 (RVal (Some 41)); Ret 0 (RSeen [(5, 50); (40, 42)])]
      | None => False end
    | None => False end).
Proof. vm_compute. repeat split; reflexivity. Qed.

(** While a thread is inside a bucket for writing, no other thread is inside it. *)
Theorem C39_writer_excludes {K V : Type} `{EqDecision K} (hash : K -> N) :
  (forall k, hash k < 2 ^ 64) -> forall (n : nat) l (s : state K V) t u p q x i, run hash l (start n) = Some s ->
  pcs s !! t = Some p -> pcs s !! u = Some q -> t <> u -> holds p x i -> ~ holds q x i /\ ~ reads q x i.
Proof. exact (lC39_writer_excludes hash). Qed.
Print Assumptions C39_writer_excludes.
Example C39_writer_excludes_ex :
  after ex_wait (fun s => pcs s = [OldLocked (CRehash (JOp (ORead 5)) 0) 1 0 0; Dedup (JOp (ORead 5)) 1 0 0 1] /\
    holds (V := N) (OldLocked (CRehash (JOp (ORead 5)) 0) 1 0 0) 0 0 /\ step hx 1 CGo s = None).
Proof. vm_compute. repeat split; reflexivity. Qed.

(** No thread is ever inside a retired bucket. *)
Theorem C39_not_retired {K V : Type} `{EqDecision K} (hash : K -> N) :
  (forall k, hash k < 2 ^ 64) -> forall (n : nat) l (s : state K V) t p x i, run hash l (start n) = Some s ->
  pcs s !! t = Some p -> holds p x i \/ reads p x i -> lk (bks s x i) <> LDead.
Proof. exact (lC39_not_retired hash). Qed.
Print Assumptions C39_not_retired.
Example C39_not_retired_ex :
  after ex_moved (fun s => pcs s !! 0%nat = Some (TUnlock (CRehash (JOp (ORead 5)) 0) 1 0 0 0 4) /\ lk (bks s 0 0) = LExcl 0).
Proof. vm_compute. repeat split; reflexivity. Qed.

(** Only a thread that is inside a bucket for writing changes its contents. *)
Theorem C39_writes_under_lock {K V : Type} `{EqDecision K} (hash : K -> N) :
  (forall k, hash k < 2 ^ 64) -> forall (n : nat) l (s : state K V) t c s' x i, run hash l (start n) = Some s -> step hash t c s = Some s' ->
  es (bks s' x i) <> es (bks s x i) -> exists p, pcs s !! t = Some p /\ holds p x i.
Proof. exact (lC39_writes_under_lock hash). Qed.
Print Assumptions C39_writes_under_lock.
Example C39_writes_under_lock_ex :
  after ex_locked (fun s => match step hx 0 CGo s with
    | Some s' => es (bks s 1 0) = [] /\ es (bks s' 1 0) = [(5, 50)] /\ lk (bks s 1 0) = LExcl 0 | None => False end).
Proof. vm_compute. repeat split; reflexivity. Qed.

(** A thread that is not in a call holds no lock, however its calls ended (also when an asynchronous call was dropped midway). *)
Theorem C45_idle_holds_nothing {K V : Type} `{EqDecision K} (hash : K -> N) :
  (forall k, hash k < 2 ^ 64) -> forall (n : nat) l (s : state K V) t, run hash l (start n) = Some s -> pcs s !! t = Some Idle ->
  forall x i, lk (bks s x i) <> LExcl t /\ forall ts, lk (bks s x i) = LRead ts -> t ∉ ts.
Proof. exact (lC45_idle_holds_nothing hash). Qed.
Print Assumptions C45_idle_holds_nothing.
(** Dropped in the middle of rehashing. *)
Example C45_idle_holds_nothing_ex :
  after (ex_claimed ++ [(0%nat, CCancel); (0%nat, CGo)]) (fun s =>
    list.last (trace s) = Some (Cxl 0) /\ pcs s !! 0%nat = Some Idle /\ lk (bks s 0 0) = LFree).
Proof. vm_compute. repeat split; reflexivity. Qed.

(** When no call is running, no bucket is locked, no resize is marked as running, and an unfinished rehash can be continued. *)
Theorem C45_quiet {K V : Type} `{EqDecision K} (hash : K -> N) :
  (forall k, hash k < 2 ^ 64) -> forall (n : nat) l (s : state K V), run hash l (start n) = Some s -> (forall t p, pcs s !! t = Some p -> p = Idle) ->
  rsz s = false /\ (forall x i, lk (bks s x i) = LFree \/ lk (bks s x i) = LDead) /\
  (forall a o, link (arr s a) = Some o -> claim (alen s o) (word (arr s o)) <> None).
Proof. exact (lC45_quiet hash). Qed.
Print Assumptions C45_quiet.
Example C45_quiet_ex :
  after (ex_claimed ++ [(0%nat, CCancel); (0%nat, CGo)]) (fun s => pcs s = [Idle; Idle] /\ link (arr s 1) = Some 0%nat).
Proof. vm_compute. repeat split; reflexivity. Qed.

(** Whenever a call is running, some thread can go on, without giving up, being dropped or retrying. *)
Theorem C46_deadlock_free {K V : Type} `{EqDecision K} (hash : K -> N) :
  (forall k, hash k < 2 ^ 64) -> forall (n : nat) l (s : state K V) t p, run hash l (start n) = Some s -> pcs s !! t = Some p -> p <> Idle ->
  exists u c s', (c = CGo \/ exists cap, c = CCap cap) /\ step hash u c s = Some s'.
Proof. exact (lC46_deadlock_free hash). Qed.
Print Assumptions C46_deadlock_free.
(** Thread 1 waits for thread 0. *)
Example C46_deadlock_free_ex :
  after ex_wait (fun s => pcs s !! 1%nat = Some (Dedup (JOp (ORead 5)) 1 0 0 1) /\ step hx 1 CGo s = None /\
    match step hx 0 CGo s with Some s' => pcs s' !! 0%nat = Some (TLock (CRehash (JOp (ORead 5)) 0) 1 0 0 0 4 0 false) | None => False end).
Proof. vm_compute. repeat split; reflexivity. Qed.

(** No execution does what the code leaves undefined or would wrap around: an access beyond an array, [unwrap_unchecked] of the lock of a retired target bucket, a decrement of an empty rehashing word. *)
Theorem C47_no_crash {K V : Type} `{EqDecision K} (hash : K -> N) :
  (forall k, hash k < 2 ^ 64) -> forall (n : nat) l (s : state K V) t, run hash l (start n) = Some s -> pcs s !! t <> Some Crash.
Proof. exact (lC47_no_crash hash). Qed.
Print Assumptions C47_no_crash.
Example C47_no_crash_ex : after (ex_processed ++ go 0 6) (fun s => pcs s = [Idle; Idle]).
Proof. vm_compute. repeat split; reflexivity. Qed.
