(** Histories of keyed operations on one bucket, as the containers issue them under the bucket
    lock, and the finite map they are compared with. *)
From stdpp Require Import prelude list.
From Coq Require Import NArith.
From Verif Require Import BucketModel MapSpec.

Section run.
Context {K V : Type} `{EqDecision K}.

(** Lookup; insert-or-replace; removal ([epoch] is the current epoch byte, used by HashIndex);
    the bucket's length; slot reservation.
    For a HashIndex the replacement is [OccupiedEntry::update], the removal [mark_removed]. *)
Inductive bop :=
  | BGet (k : K) | BPut (k : K) (v : V) (epoch : N) | BDel (k : K) (epoch : N) | BLen | BReserve (n : nat).
Inductive bout := OVal (o : option V) | ONum (n : nat).

Definition bstep (t : kind) (hash : K -> N) (same_gen : N -> bool) (b : bucket K V) (o : bop)
  : option (bucket K V * bout) :=
  match o with
  | BGet k => r ← search_entry t b k (hash k); Some (b, OVal (option_map snd r))
  | BPut k v epoch =>
    p ← get_entry_ptr t b k (hash k);
    if is_valid p then
      if decide (t = INDEX) then
        e ← get b p; r ← update_index same_gen b p v epoch; Some (r.1.1, OVal (Some e.2))
      else r ← replace_value b p v; Some (r.1, OVal (Some r.2))
    else r ← insert t same_gen b (hash k) (k, v); Some (r.1.1, OVal None)
  | BDel k epoch =>
    p ← get_entry_ptr t b k (hash k);
    if is_valid p then
      if decide (t = INDEX) then
        e ← get b p; b' ← mark_removed b p epoch; Some (b', OVal (Some e.2))
      else r ← remove t b p; Some (r.1.1, OVal (Some r.2.2))
    else Some (b, OVal None)
  | BLen => Some (b, ONum (blen b))
  | BReserve n => Some (reserve_slots b n, OVal None)
  end.

Fixpoint brun t hash same_gen (b : bucket K V) (os : list bop) : option (list bout) :=
  match os with
  | [] => Some []
  | o :: os' =>
    r ← bstep t hash same_gen b o;
    outs ← brun t hash same_gen r.1 os';
    Some (r.2 :: outs)
  end.

(** The same history on an association list. *)
Definition fstep (l : list (K * V)) (o : bop) : list (K * V) * bout :=
  match o with
  | BGet k => (l, OVal (assoc k l))
  | BPut k v _ => (put k v l, OVal (assoc k l))
  | BDel k _ => (del k l, OVal (assoc k l))
  | BLen => (l, ONum (length l))
  | BReserve _ => (l, OVal None)
  end.
Fixpoint frun (l : list (K * V)) (os : list bop) : list bout :=
  match os with
  | [] => []
  | o :: os' => (fstep l o).2 :: frun (fstep l o).1 os'
  end.
End run.
Arguments bop : clear implicits.
Arguments bout : clear implicits.
