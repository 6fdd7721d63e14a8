(** The reference for HashIndex: the same histories on an association list. *)
From Coq Require Import NArith.
From stdpp Require Import prelude list numbers.
From Verif Require Import BucketModel TableModel MapSpec IndexModel.
Local Open Scope N_scope.

Section index_ref.
Context {K V : Type} `{EqDecision K}.
Implicit Types m : list (K * V).

Definition act_on m (k : K) (a : act V) : list (K * V) :=
  match a with Keep => m | Store v => put k v m | Remove => del k m end.
(** The map after the operation, and its result. *)
Definition jstep m (o : iop K V) : list (K * V) * iout K V :=
  match o with
  | IInsert k v =>
    match assoc k m with
    | None => (put k v m, JEntry None)
    | Some _ => (m, JEntry (Some (k, v)))
    end
  | IEntry k f => (act_on m k (f (assoc k m)), JValue (assoc k m))
  | IGet k f => (match assoc k m with Some v => act_on m k (f v) | None => m end, JValue (assoc k m))
  | IRemoveIf k c =>
    match assoc k m with
    | Some v => if c v then (del k m, JBool true) else (m, JBool false)
    | None => (m, JBool false)
    end
  | IPeek k => (m, JEntry (option_map (fun v => (k, v)) (assoc k m)))
  | ILen => (m, JCount (N.min (N.of_nat (length m)) (2 ^ 64 - 1)))
  | IIsEmpty => (m, JBool (match m with [] => true | _ => false end))
  | IScan | IIter => (m, JEntries m)
  | IRetain p => (filter (fun e => p e = true) m, JUnit)
  | IClear => ([], JUnit)
  | IReserve _ | IUnreserve _ => (m, JUnit)
  end.
Fixpoint jrun m (os : list (iop K V)) : list (K * V) * list (iout K V) :=
  match os with
  | [] => (m, [])
  | o :: os' => let r := jstep m o in let q := jrun r.1 os' in (q.1, r.2 :: q.2)
  end.
(** Results agree; the order in which entries are listed is not specified. *)
Definition jout_eq (a b : iout K V) : Prop :=
  match a, b with
  | JEntries l, JEntries l' => l ≡ₚ l'
  | _, _ => a = b
  end.
(** The contents after a history that starts with an empty index. *)
Definition jfinal (os : list (env * iop K V)) : list (K * V) := (jrun [] os.*2).1.
(** What operation [o] returns after the history [os] on an index created with
    [with_capacity(cap)]. *)
Definition iafter (hash : K -> N) (cap : N) (os : list (env * iop K V)) (o : env * iop K V) : option (iout K V) :=
  r ← run_index hash cap os; q ← istep o.1 hash r.1 o.2; Some q.2.
(** From now on the table answers as the finite map [m] does, whatever the epochs are. *)
Definition ibehaves_as (hash : K -> N) (tb : table K V) m : Prop :=
  forall os, exists tb' outs, irun hash tb os = Some (tb', outs) /\ Forall2 jout_eq outs (jrun m os.*2).2.

Definition jsame_result (a b : option (iout K V)) : Prop :=
  exists x y, a = Some x /\ b = Some y /\ jout_eq x y.
Definition ikey_of (o : iop K V) : option K :=
  match o with
  | IInsert k _ | IEntry k _ | IGet k _ | IRemoveIf k _ | IPeek k => Some k
  | _ => None
  end.

(** Ownership: entries that came into being by an operation, and entries handed back. *)
Definition jgiven (o : iop K V) (out : iout K V) : list (K * V) :=
  match o, out with
  | IInsert k v, _ => [(k, v)]
  | IEntry k f, JValue old => match f old with Store v => [(k, v)] | _ => [] end
  | IGet k f, JValue (Some old) => match f old with Store v => [(k, v)] | _ => [] end
  | _, _ => []
  end.
Definition jreturned (o : iop K V) (out : iout K V) : list (K * V) :=
  match o, out with
  | IInsert _ _, JEntry (Some e) => [e]
  | _, _ => []
  end.
End index_ref.

(** No reader can hold anything: every epoch has passed and every retired array may be dropped. *)
Definition unguarded (e : env) : Prop := (forall b, same_gen e b = false) /\ expired e = true /\ cut e = Some 0%nat.
