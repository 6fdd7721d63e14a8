(** Keys that are equal but can be told apart: what a list of entries [(k, p, v)], at most one for every [k],
    would do. *)
From Coq Require Import NArith.
From stdpp Require Import prelude list numbers.
From Verif Require Import KpModel.
Local Open Scope N_scope.

Section kp_spec.
Context {K P V : Type} `{EqDecision K}.
Implicit Types l : list (K * P * V).

(** The entry with a key equal to [k]. *)
Fixpoint look (k : K) l : option (P * V) :=
  match l with
  | [] => None
  | (k', p, v) :: l' => if decide (k = k') then Some (p, v) else look k l'
  end.
Definition drop_key (k : K) l := filter (fun e => e.1.1 <> k) l.
Definition store (k : K) (p : P) (v : V) l := (k, p, v) :: drop_key k l.

Definition ideal l (o : kop K P V) : list (K * P * V) * kout K P V :=
  match o with
  (* the key stays; the pair is given back *)
  | KInsert k p v =>
      match look k l with Some _ => (l, RPair (Some (k, p, v))) | None => (store k p v l, RPair None) end
  (* the key stays, the value is exchanged *)
  | KUpsert k p v =>
      match look k l with
      | Some (p0, v0) => (store k p0 v l, RValue (Some v0))
      | None => (store k p v l, RValue None)
      end
  (* the key is exchanged, the value stays *)
  | KReplace k p vo =>
      match look k l with
      | Some (p0, v0) => (store k p v0 l, RKey (Some (k, p0)))
      | None => (match vo with Some v => store k p v l | None => l end, RKey None)
      end
  | KEntry k p f =>
      match look k l with
      | Some (p0, v0) => (match f (Some v0) with Some v => store k p0 v l | None => drop_key k l end, RValue (Some v0))
      | None => (match f None with Some v => store k p v l | None => l end, RValue None)
      end
  | KUpdate k f =>
      match look k l with
      | Some (p0, v0) => (store k p0 (f (k, p0) v0).1 l, RValue (Some (f (k, p0) v0).2))
      | None => (l, RValue None)
      end
  | KRemoveIf k c =>
      match look k l with
      | Some (p0, v0) =>
          if (c v0).2 then (drop_key k l, RPair (Some (k, p0, (c v0).1))) else (store k p0 (c v0).1 l, RPair None)
      | None => (l, RPair None)
      end
  | KRead k => (l, RPair (match look k l with Some (p0, v0) => Some (k, p0, v0) | None => None end))
  | KLen => (l, RCount (N.min (N.of_nat (length l)) (2 ^ 64 - 1)))
  | KScan => (l, RAll l)
  | KRetain g => (omap (fun e => if (g e.1 e.2).2 then Some (e.1, (g e.1 e.2).1) else None) l, RUnit)
  | KClear => ([], RUnit)
  | KReserve _ => (l, RUnit)
  end.
Fixpoint ideals l (os : list (kop K P V)) : list (K * P * V) * list (kout K P V) :=
  match os with
  | [] => (l, [])
  | o :: os' => let r := ideal l o in let q := ideals r.1 os' in (q.1, r.2 :: q.2)
  end.

(** Results agree; the order in which entries are listed is not specified. *)
Definition kout_eq (a b : kout K P V) : Prop :=
  match a, b with
  | RAll l, RAll l' => l ≡ₚ l'
  | _, _ => a = b
  end.
(** What [o] returns after the history [os] on a map created with [with_capacity(cap)]. *)
Definition kafter (sg : N -> bool) (hash : K -> N) (cap : N) (os : list (kop K P V)) (o : kop K P V) : option (kout K P V) :=
  r ← run_kp sg hash cap os; q ← kstep sg hash r.1 o; Some q.2.
End kp_spec.
