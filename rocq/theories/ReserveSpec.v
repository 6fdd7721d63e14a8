(** Vocabulary for what a reservation of slots in a bucket is worth. *)
From stdpp Require Import prelude list.
From Coq Require Import NArith.
From Verif Require Import BucketModel BucketSpec BucketRun.

Section reserve.
Context {K V : Type} `{EqDecision K}.
(** The bucket that a history leaves. *)
Fixpoint bafter t hash same_gen (b : bucket K V) (os : list (bop K V)) : option (bucket K V) :=
  match os with
  | [] => Some b
  | o :: os' => r ← bstep t hash same_gen b o; bafter t hash same_gen r.1 os'
  end.
(** What the relocation of a bucket does to a target bucket: it puts entries into it, one by one. *)
Fixpoint put_all t (hash : K -> N) same_gen (b : bucket K V) (es : list (K * V)) : option (bucket K V) :=
  match es with
  | [] => Some b
  | e :: es' => r ← insert t same_gen b (hash e.1) e; put_all t hash same_gen r.1.1 es'
  end.
(** The number of overflow buckets: if it grows, memory has been allocated. *)
Definition overflow_buckets (b : bucket K V) : nat := length (links b).
(** The entries an association list holds after the history. *)
Fixpoint fafter (l : list (K * V)) (os : list (bop K V)) : list (K * V) :=
  match os with [] => l | o :: os' => fafter (fstep l o).1 os' end.
End reserve.
