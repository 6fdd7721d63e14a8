(** Vocabulary for statements about a bucket: which entries it holds, and what it means for its
    bitmaps, partial hashes and slots to be consistent. *)
From stdpp Require Import prelude list numbers.
From Coq Require Import NArith.
From Verif Require Import LruModel BucketModel LruFacts.

(** Bit [i] of a bitmap. *)
Definition tb (m : N) (i : nat) : bool := N.testbit m (N.of_nat i).

Section bucket_spec.
Context {K V : Type} `{EqDecision K}.
Implicit Types (b : bucket K V) (bl : block K V) (p : eptr).

(** What slot [i] holds: an initialised entry ([stored_at]); an entry readers can reach
    ([live_at]). *)
Definition stored_at bl (i : nat) : option (K * V) := mjoin (data bl !! i).
Definition live_at (t : kind) bl (i : nat) : option (K * V) :=
  if tb (live_bitmap t bl) i then stored_at bl i else None.

(** The entries found in the slots [a], [a+1], ..., [len-1] of a block. *)
Definition ents (f : block K V -> nat -> option (K * V)) (len a : nat) bl : list (K * V) :=
  concat (map (fun i => option_list (f bl i)) (seq a (len - a))).
Definition lents (f : block K V -> nat -> option (K * V)) (ls : list (block K V)) : list (K * V) :=
  concat (map (ents f LINKED_BUCKET_LEN 0) ls).
Definition all_ents (f : block K V -> nat -> option (K * V)) b : list (K * V) :=
  ents f BUCKET_LEN 0 (main b) ++ lents f (links b).

(** All reachable entries of a bucket; all initialised slots of a bucket. *)
Definition entries (t : kind) b : list (K * V) := all_ents (live_at t) b.
Definition stored b : list (K * V) := all_ents stored_at b.

(** Consistency of a block of [len] slots with the hash function [hash]. *)
Record wf_block (hash : K -> N) (t : kind) (len : nat) bl : Prop := WfBlock {
  wf_hcell : length (hcell bl) = len;
  wf_data : length (data bl) = len;
  wf_occ : forall i, tb (occ bl) i = true <-> is_Some (stored_at bl i);
  wf_rem : t = INDEX -> forall i, tb (rem bl) i = true -> tb (occ bl) i = true;
  wf_hash : forall i e, live_at t bl i = Some e -> hcell bl !! i = Some (partial_hash (hash e.1)) }.

Definition wf_lru (t : kind) b : Prop :=
  t = CACHE -> exists r, rep (bucket_lru b) r /\ forall i, i ∈ r -> tb (occ (main b)) i = true.

(** [wf_core] is what a bucket being emptied by a relocation still satisfies. *)
Record wf_core (hash : K -> N) (t : kind) b : Prop := WfCore {
  wf_main : wf_block hash t BUCKET_LEN (main b);
  wf_links : Forall (wf_block hash t LINKED_BUCKET_LEN) (links b);
  wf_len : blen b = length (entries t b) }.
Record wf_bucket (hash : K -> N) (t : kind) b : Prop := WfBucket {
  wf_bucket_core :> wf_core hash t b;
  wf_lru_list : wf_lru t b }.

(** Where an iteration at pointer [p] stands: the entries strictly before and after it. *)
Definition ptr_next (len i : nat) : nat := if (i =? len)%nat then 0 else S i.
Definition ptr_cur (len i : nat) : nat := if (i =? len)%nat then 0 else i.
Definition after (f : block K V -> nat -> option (K * V)) b p : list (K * V) :=
  match index p, link_ptr p with
  | None, _ => []
  | Some i, None => ents f BUCKET_LEN (ptr_next BUCKET_LEN i) (main b) ++ lents f (links b)
  | Some i, Some j =>
      match drop j (links b) with
      | [] => []
      | l :: ls => ents f LINKED_BUCKET_LEN (ptr_next LINKED_BUCKET_LEN i) l ++ lents f ls
      end
  end.
Definition before (f : block K V -> nat -> option (K * V)) b p : list (K * V) :=
  match index p, link_ptr p with
  | None, _ => all_ents f b
  | Some i, None => ents f (ptr_cur BUCKET_LEN i) 0 (main b)
  | Some i, Some j =>
      ents f BUCKET_LEN 0 (main b) ++ lents f (take j (links b)) ++
      match drop j (links b) with
      | [] => []
      | l :: _ => ents f (ptr_cur LINKED_BUCKET_LEN i) 0 l
      end
  end.

(** [p] designates the reachable entry [e]. *)
Definition points_to (t : kind) b p (e : K * V) : Prop :=
  exists bl i, ptr_block b p = Some bl /\ index p = Some i /\ live_at t bl i = Some e.

(** [p] is a legal iterator position: an in-range slot, "before the first slot" of a block, or
    the end. *)
Definition wf_ptr b p : Prop :=
  match index p, link_ptr p with
  | None, _ => True
  | Some i, None => (i <= BUCKET_LEN)%nat
  | Some i, Some j => (i <= LINKED_BUCKET_LEN)%nat /\ (j < length (links b))%nat
  end.
End bucket_spec.
