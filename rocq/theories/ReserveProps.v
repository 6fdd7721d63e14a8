(** Property theorems: slots reserved before a relocation (C58). *)
From stdpp Require Import prelude list.
From Coq Require Import NArith.
From Verif Require Import BucketModel BucketSpec BucketRun ReserveSpec ReserveFacts.

(** ** C58 *)
(** [reserve_slots] allocates nothing for a bucket that has no overflow bucket yet: a target bucket holds
    20 entries, room is reserved for 20 more, and moving the 20 entries in allocates. *)
Theorem C58_reserved_slots_refuted : exists (hash : nat -> N) os (b : bucket nat nat) es b',
  bafter MAP hash (fun _ => false) new_bucket os = Some b /\
  put_all MAP hash (fun _ => false) (reserve_slots b (length es)) es = Some b' /\
  overflow_buckets (reserve_slots b (length es)) < overflow_buckets b'.
Proof.
  exists (fun _ => 5%N), (map (fun n => BPut n n 0%N) (seq 0 20)). eexists.
  exists (map (fun n => (n, n)) (seq 100 20)). eexists.
  split; [vm_compute; reflexivity|]. split; [vm_compute; reflexivity|]. vm_compute. lia.
Qed.
Print Assumptions C58_reserved_slots_refuted.

(** It holds for HashMap and HashCache if the bucket has an overflow bucket already, or needs none. *)
Theorem C58_reserved_slots_partial {K V : Type} `{EqDecision K} (hash : K -> N) (t : kind) (same_gen : N -> bool)
    (os : list (bop K V)) b es :
  t <> INDEX -> bafter t hash same_gen new_bucket os = Some b ->
  links b <> [] \/ length (stored b) + length es <= BUCKET_LEN ->
  exists b', put_all t hash same_gen (reserve_slots b (length es)) es = Some b' /\
    overflow_buckets b' = overflow_buckets (reserve_slots b (length es)).
Proof. exact (reserved hash t same_gen os b es). Qed.
Print Assumptions C58_reserved_slots_partial.

(** A bucket of 40 entries with one overflow bucket; room for 30 more means four further ones. *)
Example C58_example : exists (b : bucket nat nat),
  bafter MAP (fun _ => 5%N) (fun _ => false) new_bucket (map (fun n => BPut n n 0%N) (seq 0 40)) = Some b /\
  links b <> [] /\ overflow_buckets b = 1 /\ overflow_buckets (reserve_slots b 30) = 5.
Proof. eexists. split; [vm_compute; reflexivity|]. split; [done|]. split; reflexivity. Qed.
