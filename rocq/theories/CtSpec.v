(** Linearizability of concurrent histories of the hash map, and vocabulary of CtProps.v. *)
From Coq Require Import NArith.
From stdpp Require Import prelude list numbers.
From Verif Require CapModel.
From Verif Require Import CtModel.

Section spec.
Context {K V : Type} `{EqDecision K}.
Notation op := (op K V). Notation call := (call K V). Notation res := (res K V). Notation event := (event K V).

(** The sequential object is a finite map from keys to values. *)
Definition amap : Type := K -> option V.

(** What an operation on a key does to the value of the key, and its answer. *)
Definition answer (o : op) (x : option V) : option V * res :=
  match o, x with
  | OInsert _ _, Some y => (Some y, RBool false)
  | OInsert _ v, None => (Some v, RBool true)
  | OUpsert _ v, x => (Some v, RVal x)
  | OUpdate _ f, Some y => (Some (f y), RBool true)
  | OUpdate _ _, None => (None, RBool false)
  | ORemove _ p, Some y => if p y then (None, RVal (Some y)) else (Some y, RVal None)
  | ORemove _ _, None => (None, RVal None)
  | ORead _, x => (x, RVal x)
  | OEntry _ f, x => (f x, RVal x)
  | OGet _ f, Some y => (f y, RVal (Some y))
  | OGet _ _, None => (None, RVal None)
  end.

(** [allowed o r m m']: the operation may answer [r] on the map [m] and leaves [m'].  An operation of
    the try family may answer that it is busy, without effect. *)
Definition allowed (o : op) (r : res) (m m' : amap) : Prop :=
  (r = RBusy /\ forall k, m' k = m k) \/
  (r = (answer o (m (okey o))).2 /\ m' (okey o) = (answer o (m (okey o))).1 /\
   forall k, k <> okey o -> m' k = m k).

(** A history in which the instants at which operations take effect are shown.  [HVisit t f]: a scan
    (retain, clear, ...) of the thread [t] visits some of the entries with its closure. *)
Inductive hev := HCall (t : nat) (c : call) | HLin (t : nat) (o : op) (r : res)
| HVisit (t : nat) (f : K -> V -> option V) | HRet (t : nat) (r : res) | HCxl (t : nat).
Definition erase (h : list hev) : list event :=
  omap (fun e => match e with HCall t c => Some (Call t c) | HRet t r => Some (Ret t r)
                            | HCxl t => Some (Cxl t) | HLin _ _ _ | HVisit _ _ => None end) h.
Definition who (e : hev) : nat :=
  match e with HCall u _ | HLin u _ _ | HVisit u _ | HRet u _ | HCxl u => u end.

Inductive legal : amap -> list hev -> amap -> Prop :=
| legal_nil m : legal m [] m
| legal_lin m m' m'' t o r h : allowed o r m m' -> legal m' h m'' -> legal m (HLin t o r :: h) m''
| legal_visit m m' m'' t f h : (forall k, m' k = m k \/ m' k = (m k ≫= f k)) -> legal m' h m'' ->
    legal m (HVisit t f :: h) m''
| legal_call m m' t c h : legal m h m' -> legal m (HCall t c :: h) m'
| legal_ret m m' t r h : legal m h m' -> legal m (HRet t r :: h) m'
| legal_cxl m m' t h : legal m h m' -> legal m (HCxl t :: h) m'.

(** Each operation of a thread takes effect exactly once, between its call and its return, with the
    answer that is returned; a call that is dropped midway takes no effect. *)
Inductive phase := POut | PCalled (c : call) | PTaken (r : res).
Inductive follows (t : nat) : phase -> list hev -> phase -> Prop :=
| fo_nil p : follows t p [] p
| fo_call c h p : follows t (PCalled c) h p -> follows t POut (HCall t c :: h) p
| fo_lin o r h p : follows t (PTaken r) h p -> follows t (PCalled (KOp o)) (HLin t o r :: h) p
| fo_visit f h p : follows t (PCalled (KScan (Some f))) h p ->
    follows t (PCalled (KScan (Some f))) (HVisit t f :: h) p
| fo_ret r h p : follows t POut h p -> follows t (PTaken r) (HRet t r :: h) p
| fo_ret_scan c r h p : (forall o, c <> KOp o) -> follows t POut h p -> follows t (PCalled c) (HRet t r :: h) p
| fo_cxl c h p : follows t POut h p -> follows t (PCalled c) (HCxl t :: h) p
| fo_other e h p q : who e <> t -> follows t p h q -> follows t p (e :: h) q.

(** [h] is linearizable, and its operations leave the map [m]. *)
Definition linearizes (h : list event) (m : amap) : Prop :=
  exists lh, erase lh = h /\ legal (fun _ => None) lh m /\ forall t, exists p, follows t POut lh p.
Definition linearizable (h : list event) : Prop := exists m, linearizes h m.

(** The entry is in bucket [i] of the array [x]. *)
Definition stored_at (s : state K V) (x : nat) (i : N) (k : K) (v : V) : Prop := (k, v) ∈ es (bks s x i).
Definition stored (s : state K V) (k : K) (v : V) : Prop := exists x i, stored_at s x i k v.
(** The array is the current one or linked to it. *)
Definition live (s : state K V) (x : nat) : Prop :=
  cur s = Some x \/ exists c, cur s = Some c /\ link (arr s c) = Some x.

(** A thread is inside bucket [i] of array [x] with exclusive, or shared, access. *)
Definition holds (p : pc K V) (x : nat) (i : N) : Prop :=
  match p with
  | OldLocked _ _ o i0 | TDrop _ _ o i0 | TKill _ _ o i0 => x = o /\ i = i0
  | TLock _ a o i0 lo _ n _ => (x = o /\ i = i0) \/ (x = a /\ (lo <= i < n)%N)
  | TBack _ a o i0 m n | TMove _ a o i0 m n | TUnlock _ a o i0 m n =>
    (x = o /\ i = i0) \/ (x = a /\ (m <= i < n)%N)
  | Crit j a idx | Out j a idx _ => shared j = false /\ x = a /\ i = idx
  | DLock _ y n | DSwap _ y n => x = y /\ (i < n)%N
  | DUnlock _ y n hi _ => x = y /\ (n <= i < hi)%N
  | _ => False
  end.
Definition reads (p : pc K V) (x : nat) (i : N) : Prop :=
  match p with
  | Crit j a idx | Out j a idx _ => shared j = true /\ x = a /\ i = idx
  | _ => False
  end.
(** The array and the position of the 32 buckets claimed by a thread in [incremental_rehash]. *)
Definition cclaims (c : cont K V) (o : nat) : option (nat * N) :=
  match c with CRehash _ prev => Some (o, prev) | CDedup _ _ => None end.
Definition claims (p : pc K V) : option (nat * N) :=
  match p with
  | Rehash _ _ o prev _ | EndOk _ _ o prev | EndFail _ _ o prev _ => Some (o, prev)
  | OldLocked c _ o _ | TDrop c _ o _ | TKill c _ o _ | TLock c _ o _ _ _ _ _ | TBack c _ o _ _ _
  | TMove c _ o _ _ _ | TUnlock c _ o _ _ _ => cclaims c o
  | _ => None
  end.
End spec.
Arguments amap : clear implicits.
Arguments hev : clear implicits.
Arguments phase : clear implicits.
