(** HashCache: C64. *)
From Coq Require Import NArith.
From stdpp Require Import prelude list numbers.
From Verif Require Import BucketModel TableModel CacheModel CacheSpec CacheProps LvSpec LvFacts.
Local Open Scope N_scope.

(** ** C64: putting or getting an entry, or filling a vacant one, protects it from the next 31 uses of its bucket.
    Missing of the full statement: [read_sync], and [entry_sync] for a present key; they do not protect it. *)
Theorem C64_used_survives_partial {K V : Type} `{EqDecision K} : forall (hash : K -> N), (forall k, hash k < 2 ^ 64) ->
  forall sg mn mx (os : list (cop K V)) o k later, 0 < mn -> mx <= mn ->
  touches sg hash mn mx os o k -> Forall (spares k) later ->
  (uses hash (cap_after sg hash mn mx (@nil (cop K V))) k later <= 31)%nat ->
  look sg hash mn mx (os ++ o :: later) k <> None.
Proof. exact survives. Qed.
(** 32 entries in one bucket, the oldest one is got, then 31 others are put, which evict all the others, and one in
    another bucket; the next one evicts it. *)
Example C64_used_example : let kept := fun v : N => Some v in let later := (fill 40 31 ++ fill 100 1)%list in
  touches oc halves 64 10 (fill 0 32) (CGet 0 kept) 0 /\ Forall (spares 0) later /\
  uses halves (cap_after oc halves 64 10 (@nil (cop N N))) 0 later = 31%nat /\
  look oc halves 64 10 (fill 0 32 ++ CGet 0 kept :: later) 0 = Some 1000 /\
  look oc halves 64 10 (fill 0 32 ++ CGet 0 kept :: later) 31 = None /\
  look oc halves 64 10 (fill 0 32 ++ CGet 0 kept :: later ++ fill 90 1) 0 = None.
Proof.
  intros kept later. split; [split; [done|]; exists 1000, 1000; split; [vm_compute|]; reflexivity|].
  split; [apply list.Forall_forall; intros o M; apply elem_of_app in M as [M|M]; apply elem_of_list_fmap in M as (y & -> & _); exact I|].
  split; [vm_compute; reflexivity|]. split; [vm_compute; reflexivity|]. split; vm_compute; reflexivity.
Qed.
Print Assumptions C64_used_survives_partial.

(** ** Reading an entry, or looking it up with [entry_sync], does not: the very next put evicts it, although it is
    the entry that was accessed last. *)
Theorem C64_read_survives_refuted : exists (hash : N -> N) (os : list (cop N N)) (k k' : N) (v : N),
  (forall x, hash x < 2 ^ 64) /\ looks_at oc hash 64 10 os (CRead k) k /\
  cafter oc hash 64 10 (os ++ [CRead k]) (CPut k' v) = Some (COPut (inl (Some (k, 1000)))) /\
  look oc hash 64 10 (os ++ [CRead k; CPut k' v]) k = None.
Proof.
  exists halves, (fill 0 32), 0, 40, 7. split; [exact halves_64|]. split; [split; [done|]; exists (0, 1000); vm_compute; reflexivity|].
  split; vm_compute; reflexivity.
Qed.
Print Assumptions C64_read_survives_refuted.
Theorem C64_entry_survives_refuted : exists (hash : N -> N) (os : list (cop N N)) (k k' : N) (v : N) (f : option N -> option N),
  (forall x, hash x < 2 ^ 64) /\ looks_at oc hash 64 10 os (CEntry k f) k /\
  cafter oc hash 64 10 (os ++ [CEntry k f]) (CPut k' v) = Some (COPut (inl (Some (k, 5)))) /\
  look oc hash 64 10 (os ++ [CEntry k f; CPut k' v]) k = None.
Proof.
  exists halves, (fill 0 32), 0, 40, 7, (fun _ => Some 5). split; [exact halves_64|].
  split; [split; [done|]; exists 1000, 5; split; [vm_compute|]; reflexivity|]. split; vm_compute; reflexivity.
Qed.
Print Assumptions C64_entry_survives_refuted.
