(** The reference: the same histories on an association list.  [drops] are the entries whose
    destructor the map itself has to run. *)
From Coq Require Import NArith.
From stdpp Require Import prelude list numbers.
From Verif Require Import BucketModel TableModel MapSpec MapModel.
Local Open Scope N_scope.

Section map_ref.
Context {K V : Type} `{EqDecision K}.
Implicit Types m : list (K * V).

Record rres := RRes { r_map : list (K * V); r_out : mout K V; r_drops : list (K * V) }.

Definition rstep m (o : mop K V) : rres :=
  match o with
  | MInsert k v =>
    match assoc k m with
    | None => RRes (put k v m) (OEntry None) []
    | Some _ => RRes m (OEntry (Some (k, v))) []
    end
  | MUpsert k v => RRes (put k v m) (OValue (assoc k m)) []
  | MUpdate k f =>
    match assoc k m with
    | None => RRes m (OValue None) []
    | Some v => RRes (put k (f k v).1 m) (OValue (Some (f k v).2)) []
    end
  | MRemoveIf k c =>
    match assoc k m with
    | None => RRes m (OEntry None) []
    | Some v => if (c v).2 then RRes (del k m) (OEntry (Some (k, (c v).1))) []
                else RRes (put k (c v).1 m) (OEntry None) []
    end
  | MEntry k f =>
    RRes (match assoc k m, f (assoc k m) with
          | None, None => m
          | Some _, None => del k m
          | _, Some v => put k v m
          end) (OValue (assoc k m)) []
  | MRead k => RRes m (OEntry (option_map (fun v => (k, v)) (assoc k m))) []
  | MLen => RRes m (OCount (N.min (N.of_nat (length m)) (2 ^ 64 - 1))) []
  | MIsEmpty => RRes m (OBool (match m with [] => true | _ => false end)) []
  | MScan => RRes m (OEntries m) []
  | MRetain p =>
    RRes (map (fun e => (e.1, (p e).1)) (filter (fun e => (p e).2 = true) m)) OUnit
         (map (fun e => (e.1, (p e).1)) (filter (fun e => (p e).2 = false) m))
  | MClear => RRes [] OUnit m
  | MReserve _ | MUnreserve _ => RRes m OUnit []
  end.
Fixpoint rrun m (os : list (mop K V)) : list (K * V) * list (mout K V) * list (K * V) :=
  match os with
  | [] => (m, [], [])
  | o :: os' =>
    let r := rstep m o in
    let q := rrun (r_map r) os' in
    (q.1.1, r_out r :: q.1.2, r_drops r ++ q.2)
  end.

(** Results agree; the order in which entries are listed is not specified. *)
Definition out_eq (a b : mout K V) : Prop :=
  match a, b with
  | OEntries l, OEntries l' => l ≡ₚ l'
  | _, _ => a = b
  end.

(** The contents after a history that starts with an empty map. *)
Definition final (os : list (mop K V)) : list (K * V) := (rrun [] os).1.1.

(** What operation [o] returns after the history [os] on a map created with [with_capacity(cap)]. *)
Definition after (sg : N -> bool) (hash : K -> N) (cap : N) (os : list (mop K V)) (o : mop K V) : option (mout K V) :=
  r ← run_map sg hash cap os; q ← mstep sg hash r.1 o; Some q.2.
Definition same_result (a b : option (mout K V)) : Prop :=
  exists x y, a = Some x /\ b = Some y /\ out_eq x y.
(** From now on the table answers as the finite map [m] does. *)
Definition behaves_as (sg : N -> bool) (hash : K -> N) (tb : table K V) m : Prop :=
  forall os, exists tb' outs, mrun sg hash tb os = Some (tb', outs) /\ Forall2 out_eq outs (rrun m os).1.2.

Definition key_of (o : mop K V) : option K :=
  match o with
  | MInsert k _ | MUpsert k _ | MUpdate k _ | MRemoveIf k _ | MEntry k _ | MRead k => Some k
  | _ => None
  end.

(** Ownership: the entries handed to the map and the entries handed back by an operation with the
    given result, if closures leave the values in place ([in_place]). *)
Definition given (o : mop K V) (out : mout K V) : list (K * V) :=
  match o, out with
  | MInsert k v, _ | MUpsert k v, _ => [(k, v)]
  | MEntry k f, OValue old => match f old with Some v => [(k, v)] | None => [] end
  | _, _ => []
  end.
Definition returned (o : mop K V) (out : mout K V) : list (K * V) :=
  match o, out with
  | MInsert _ _, OEntry (Some e) | MRemoveIf _ _, OEntry (Some e) => [e]
  | MUpsert k _, OValue (Some v) | MEntry k _, OValue (Some v) => [(k, v)]
  | _, _ => []
  end.
Definition in_place (o : mop K V) : Prop :=
  match o with
  | MUpdate _ f => forall k v, (f k v).1 = v
  | MRemoveIf _ c => forall v, (c v).1 = v
  | MRetain p => forall e, (p e).1 = e.2
  | _ => True
  end.
End map_ref.
