(** What a cache is supposed to do: the contents as a list ordered by recency of use, most recent
    first, and for every operation the allowed results and the contents afterwards. *)
From Coq Require Import NArith.
From stdpp Require Import prelude list numbers.
From Verif Require Import BucketModel TableModel MapSpec CacheModel.
Local Open Scope N_scope.

(** The bucket a hash value belongs to when the capacity is [cap]: the [cap / 32] buckets divide the
    64-bit hash space evenly. *)
Definition bucket_of (cap h : N) : N := h * (cap / 32) / 2 ^ 64.

Section cache_spec.
Context {K V : Type} `{EqDecision K}.
Implicit Types m : list (K * V).

(** A new value for a key, without a change of the order. *)
Definition upd (k : K) (v : V) m : list (K * V) := map (fun e => if decide (e.1 = k) then (k, v) else e) m.
(** The contents without the evicted entry. *)
Definition without (ev : option (K * V)) m : list (K * V) :=
  match ev with Some x => del x.1 m | None => m end.

(** The results allowed for [o] on contents [m]. *)
Definition allowed m (o : cop K V) (out : cout K V) : Prop :=
  match o with
  | CPut k v =>
    match assoc k m with
    | Some _ => out = COPut (inr (k, v))
    | None => exists ev, out = COPut (inl ev) /\ forall x, ev = Some x -> x ∈ m
    end
  | CGet k _ => out = COFound (assoc k m) None
  | CEntry k f =>
    exists ev, out = COFound (assoc k m) ev /\
      forall x, ev = Some x -> x ∈ m /\ assoc k m = None /\ f None <> None
  | CRemoveIf k c =>
    out = COEntry (match assoc k m with Some v => if (c v).2 then Some (k, (c v).1) else None | None => None end)
  | CRead k => out = COEntry (option_map (fun v => (k, v)) (assoc k m))
  | CLen => out = COCount (N.min (N.of_nat (length m)) (2 ^ 64 - 1))
  | CCapacity => exists n, out = COCount n
  | CIsEmpty => out = COBool (match m with [] => true | _ => false end)
  | CScan => exists l, out = COEntries l /\ l ≡ₚ m
  | CRetain _ | CClear => out = COUnit
  end.
(** The contents after [o] returned [out]. *)
Definition next m (o : cop K V) (out : cout K V) : list (K * V) :=
  match o with
  | CPut k v => match out with COPut (inl ev) => (k, v) :: without ev m | _ => m end
  | CGet k f =>
    match assoc k m with
    | None => m
    | Some v => match f v with None => del k m | Some w => (k, w) :: del k m end
    end
  | CEntry k f =>
    match assoc k m, f (assoc k m) with
    | None, None => m
    | Some _, None => del k m
    | Some _, Some w => upd k w m
    | None, Some w => match out with COFound _ ev => (k, w) :: without ev m | _ => m end
    end
  | CRemoveIf k c =>
    match assoc k m with
    | None => m
    | Some v => if (c v).2 then del k m else upd k (c v).1 m
    end
  | CRetain p => map (fun e => (e.1, (p e).1)) (filter (fun e => (p e).2 = true) m)
  | CClear => []
  | _ => m
  end.
(** Entries whose destructor the cache itself has to run. *)
Definition drops m (o : cop K V) : list (K * V) :=
  match o with
  | CRetain p => map (fun e => (e.1, (p e).1)) (filter (fun e => (p e).2 = false) m)
  | CClear => m
  | _ => []
  end.

(** A whole history. *)
Fixpoint conforms m (os : list (cop K V)) (outs : list (cout K V)) : Prop :=
  match os, outs with
  | [], [] => True
  | o :: os', out :: outs' => allowed m o out /\ conforms (next m o out) os' outs'
  | _, _ => False
  end.
Fixpoint contents m (os : list (cop K V)) (outs : list (cout K V)) : list (K * V) :=
  match os, outs with
  | o :: os', out :: outs' => contents (next m o out) os' outs'
  | _, _ => m
  end.
Fixpoint all_drops m (os : list (cop K V)) (outs : list (cout K V)) : list (K * V) :=
  match os, outs with
  | o :: os', out :: outs' => drops m o ++ all_drops (next m o out) os' outs'
  | _, _ => []
  end.

(** What [o] returns after the history [os] on a cache created with the given capacities. *)
Definition cafter (sg : N -> bool) (hash : K -> N) (mn mx : N) (os : list (cop K V)) (o : cop K V) : option (cout K V) :=
  r ← run_cache sg hash mn mx os; q ← cstep sg hash r.1 o; Some q.2.
(** The value found under a key after a history, and the capacity. *)
Definition look sg hash mn mx (os : list (cop K V)) (k : K) : option V :=
  match cafter sg hash mn mx os (CRead k) with Some (COEntry (Some e)) => Some e.2 | _ => None end.
Definition cap_after sg hash mn mx (os : list (cop K V)) : N :=
  match cafter sg hash mn mx os CCapacity with Some (COCount n) => n | _ => 0 end.
(** No operation of the history makes the capacity smaller, except by releasing everything. *)
Definition never_shrinks sg hash mn mx (os : list (cop K V)) : Prop :=
  forall p o rest, os = (p ++ o :: rest)%list ->
    cap_after sg hash mn mx p <= cap_after sg hash mn mx (p ++ [o]) \/ cap_after sg hash mn mx (p ++ [o]) = 0.
(** At least 32 keys present after [os], the given one among them, are in the bucket of hash [h]. *)
Definition crowded sg (hash : K -> N) mn mx (os : list (cop K V)) (h : N) (k : K) : Prop :=
  exists l : list K, NoDup l /\ (32 <= length l)%nat /\ k ∈ l /\
    forall y, y ∈ l -> look sg hash mn mx os y <> None /\
      bucket_of (cap_after sg hash mn mx os) (hash y) = bucket_of (cap_after sg hash mn mx os) h.

(** Serialization after a history: the announced number of entries and the emitted ones; then what is
    found in the cache deserialized from them with the announced number as the size hint. *)
Definition emitted sg (hash : K -> N) mn mx (os : list (cop K V)) : option (N * list (K * V)) :=
  r ← run_cache sg hash mn mx os; s ← cserialize sg hash r.1; Some s.2.
Definition look_copy sg (hash : K -> N) mn mx (os : list (cop K V)) (k : K) : option (option V) :=
  s ← emitted sg hash mn mx os; d ← cdeserialize sg hash (Some s.1) s.2; r ← read CACHE sg hash d k;
  Some (option_map snd r.2).
(** When [x] is evicted, another entry of the same bucket was not used for longer. *)
Definition older_exists sg (hash : K -> N) mn mx (os : list (cop K V)) (k : K) (v : V) (x y : K * V) : Prop :=
  exists outs l1 l2, option_map snd (run_cache sg hash mn mx os) = Some outs /\
    contents [] os outs = (l1 ++ x :: l2)%list /\ y ∈ l2 /\
    cafter sg hash mn mx os (CPut k v) = Some (COPut (inl (Some x))) /\
    bucket_of (cap_after sg hash mn mx os) (hash x.1) = bucket_of (cap_after sg hash mn mx os) (hash y.1).

(** Ownership: what an operation hands to the cache and what it hands back. *)
Definition cgiven (o : cop K V) (out : cout K V) : list (K * V) :=
  match o, out with
  | CPut k v, _ => [(k, v)]
  | CGet k f, COFound (Some v) _ => match f v with Some w => [(k, w)] | None => [] end
  | CEntry k f, COFound old _ => match f old with Some w => [(k, w)] | None => [] end
  | _, _ => []
  end.
Definition creturned (o : cop K V) (out : cout K V) : list (K * V) :=
  match o, out with
  | CPut _ _, COPut (inl (Some e)) | CPut _ _, COPut (inr e) => [e]
  | CGet k _, COFound (Some v) _ => [(k, v)]
  | CEntry k _, COFound old ev => option_list ev ++ match old with Some v => [(k, v)] | None => [] end
  | CRemoveIf _ _, COEntry (Some e) => [e]
  | _, _ => []
  end.
(** Closures that modify values in place leave them unchanged. *)
Definition cin_place (o : cop K V) : Prop :=
  match o with
  | CRemoveIf _ c => forall v, (c v).1 = v
  | CRetain p => forall e, (p e).1 = e.2
  | _ => True
  end.

(** A cache whose capacity is always [cap]: the entries of the bucket of [k], the most recently used
    first, the entry a new key [k] displaces, and the results of all the operations. *)
Definition neighbours (hash : K -> N) (cap : N) m (k : K) : list (K * V) :=
  filter (fun e => bucket_of cap (hash e.1) = bucket_of cap (hash k)) m.
Definition victim hash cap m k : option (K * V) :=
  if (length (neighbours hash cap m k) <? 32)%nat then None else list.last (neighbours hash cap m k).
Definition lru_out hash cap m (o : cop K V) : cout K V :=
  match o with
  | CPut k v => COPut (match assoc k m with Some _ => inr (k, v) | None => inl (victim hash cap m k) end)
  | CGet k _ => COFound (assoc k m) None
  | CEntry k f =>
    COFound (assoc k m) (match assoc k m, f None with None, Some _ => victim hash cap m k | _, _ => None end)
  | CRemoveIf k c =>
    COEntry (match assoc k m with Some v => if (c v).2 then Some (k, (c v).1) else None | None => None end)
  | CRead k => COEntry (option_map (fun v => (k, v)) (assoc k m))
  | CLen => COCount (N.min (N.of_nat (length m)) (2 ^ 64 - 1))
  | CCapacity => COCount cap
  | CIsEmpty => COBool (match m with [] => true | _ => false end)
  | CScan => COEntries m
  | CRetain _ | CClear => COUnit
  end.
Fixpoint lru_run hash cap m (os : list (cop K V)) : list (cout K V) :=
  match os with
  | [] => []
  | o :: os' => lru_out hash cap m o :: lru_run hash cap (next m o (lru_out hash cap m o)) os'
  end.
(** Equal results; a scan may visit the entries in any order. *)
Definition agree (a b : cout K V) : Prop :=
  match a, b with COEntries l, COEntries l' => l ≡ₚ l' | _, _ => a = b end.
End cache_spec.
