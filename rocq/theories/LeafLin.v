(** Linearizability of histories of leaf operations. *)
From stdpp Require Import prelude list.
From Verif Require Import LeafModel LeafSpec LeafConc.

Section lin.
Context {K V : Type} (cmp : K -> K -> comparison).
Notation op := (op K V). Notation res := (res V).

(** The sequential object: an ordered map with two flags. *)
Record obj := Obj { ents : list (K * V); fz : bool; rt : bool }.

(** [allowed strict o r a a'] : the operation [o] may answer [r] in [a] and leaves [a'].
    [strict = false] also lets an insertion claim, without any effect, that the key is present. *)
Definition allowed (strict : bool) (o : op) (r : res) (a a' : obj) : Prop :=
  match o, r with
  | OpSearch k, RsFound x => x = oget cmp (ents a) k /\ a' = a
  | OpInsert k v, RsIns ISuccess =>
    oget cmp (ents a) k = None /\ fz a = false /\ rt a = false /\ a' = Obj (oput cmp (ents a) k v) false false
  | OpInsert k v, RsIns IDuplicate => (strict = true -> oget cmp (ents a) k <> None) /\ a' = a
  | OpInsert k v, RsIns IFull => oget cmp (ents a) k = None /\ a' = a
  | OpInsert k v, RsIns IFrozen => fz a = true /\ a' = a
  | OpInsert k v, RsIns IRetired => rt a = true /\ a' = a
  | OpRemove k c, RsRem RSuccess =>
    fz a = false /\ (exists v, oget cmp (ents a) k = Some v /\ c v = true) /\
    odel cmp (ents a) k <> [] /\ a' = Obj (odel cmp (ents a) k) false (rt a)
  | OpRemove k c, RsRem RRetired =>
    fz a = false /\ (exists v, oget cmp (ents a) k = Some v /\ c v = true) /\
    odel cmp (ents a) k = [] /\ a' = Obj [] false true
  | OpRemove k c, RsRem RFail => (forall v, oget cmp (ents a) k = Some v -> c v = false) /\ a' = a
  | OpRemove k c, RsRem RFrozen => fz a = true /\ a' = a
  | OpFreeze, RsBool b => b = negb (fz a) /\ a' = Obj (ents a) true (rt a)
  | OpThaw, RsBool b => b = fz a /\ a' = Obj (ents a) false (rt a)
  | _, _ => False
  end.

(** A history in which the instants at which the operations take effect are shown. *)
Inductive hev := HCall (t : nat) (o : op) | HLin (t : nat) (o : op) (r : res) | HRet (t : nat) (r : res).
Definition erase (h : list hev) : list (event K V) :=
  omap (fun e => match e with HCall t o => Some (Call t o) | HRet t r => Some (Ret t r) | HLin _ _ _ => None end) h.

(** The operations in the order in which they take effect form a run of the sequential object. *)
Inductive legal (strict : bool) : obj -> list hev -> obj -> Prop :=
| legal_nil a : legal strict a [] a
| legal_lin a a' a'' t o r h : allowed strict o r a a' -> legal strict a' h a'' -> legal strict a (HLin t o r :: h) a''
| legal_call a a' t o h : legal strict a h a' -> legal strict a (HCall t o :: h) a'
| legal_ret a a' t r h : legal strict a h a' -> legal strict a (HRet t r :: h) a'.

(** Each call of a thread takes effect exactly once, between call and return, with the result
    that is returned. *)
Inductive phase := Out | Called (o : op) | Taken (r : res).
Inductive follows (t : nat) : phase -> list hev -> phase -> Prop :=
| fo_nil p : follows t p [] p
| fo_call o h p : follows t (Called o) h p -> follows t Out (HCall t o :: h) p
| fo_lin o r h p : follows t (Taken r) h p -> follows t (Called o) (HLin t o r :: h) p
| fo_ret r h p : follows t Out h p -> follows t (Taken r) (HRet t r :: h) p
| fo_other e h p q : (match e with HCall u _ | HLin u _ _ | HRet u _ => u end) <> t ->
    follows t p h q -> follows t p (e :: h) q.

Definition linearizable (strict : bool) (es : list (K * V)) (h : list (event K V)) : Prop :=
  exists lh, erase lh = h /\ (exists a, legal strict (Obj es false false) lh a) /\
    forall t, exists p, follows t Out lh p.
End lin.
Arguments obj : clear implicits.
Arguments hev : clear implicits.
Arguments phase : clear implicits.
