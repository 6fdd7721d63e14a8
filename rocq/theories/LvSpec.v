(** What protects an entry of a HashCache from being evicted. *)
From Coq Require Import NArith.
From stdpp Require Import prelude list numbers.
From Verif Require Import CacheModel CacheSpec.
Local Open Scope N_scope.

Section spec.
Context {K V : Type} `{EqDecision K}.

(** The operation cannot remove the entry of [k] by itself: whatever value it has, it stays. *)
Definition spares (k : K) (o : cop K V) : Prop :=
  match o with
  | CGet k' f => k' <> k \/ forall v, f v <> None
  | CEntry k' f => k' <> k \/ forall v, f (Some v) <> None
  | CRemoveIf k' c => k' <> k \/ forall v, (c v).2 = false
  | CRetain p => forall v, (p (k, v)).2 = true
  | CClear => False
  | _ => True
  end.
(** The key an operation may make more recent. *)
Definition used_key (o : cop K V) : option K :=
  match o with CPut k _ | CGet k _ | CEntry k _ => Some k | _ => None end.
(** The uses, among [os], of keys in the bucket of [k] when the capacity is [cap]. *)
Definition used_near (hash : K -> N) (cap : N) (k : K) (o : cop K V) : bool :=
  match used_key o with Some k' => bool_decide (bucket_of cap (hash k') = bucket_of cap (hash k)) | None => false end.
Definition uses (hash : K -> N) (cap : N) (k : K) (os : list (cop K V)) : nat :=
  length (filter (fun o => used_near hash cap k o = true) os).
(** After the history [os], the operation [o] puts or gets the entry of [k], or fills a vacant entry, and leaves it
    in the cache. *)
Definition touches (sg : N -> bool) (hash : K -> N) (mn mx : N) (os : list (cop K V)) (o : cop K V) (k : K) : Prop :=
  match o with
  | CPut k' v => k' = k /\ exists ev, cafter sg hash mn mx os o = Some (COPut (inl ev))
  | CGet k' f => k' = k /\ exists v w, cafter sg hash mn mx os o = Some (COFound (Some v) None) /\ f v = Some w
  | CEntry k' f => k' = k /\ exists ev w, cafter sg hash mn mx os o = Some (COFound None ev) /\ f None = Some w
  | _ => False
  end.
(** The operation reads the entry of [k], or looks it up as an entry and leaves it in the cache. *)
Definition looks_at (sg : N -> bool) (hash : K -> N) (mn mx : N) (os : list (cop K V)) (o : cop K V) (k : K) : Prop :=
  match o with
  | CRead k' => k' = k /\ exists e, cafter sg hash mn mx os o = Some (COEntry (Some e))
  | CEntry k' f => k' = k /\ exists v w, cafter sg hash mn mx os o = Some (COFound (Some v) None) /\ f (Some v) = Some w
  | _ => False
  end.
End spec.
