(** Linearizability of a TreeIndex shared by threads, in the words of Herlihy and Wing: there is one
    order of the calls that agrees with the order in which they returned and began, and in which every
    result is the one that a finite map gives.  Independent of trees and of the history of updates. *)
From Coq Require Import List Arith Bool.
From Verif Require Import TcModel.
Import ListNotations.

Section lin.
Context {K V : Type} (leb : K -> K -> bool).

(** The calls and their results, one after the other on a finite map.  If not [strict], an insertion may
    report a duplicate for no reason. *)
Fixpoint replay (strict : bool) (m : K -> option V) (l : list (opk K V * res V)) : Prop :=
  match l with
  | [] => True
  | (OPeek k, RVal v) :: r => m k = v /\ replay strict m r
  | (OIns k v, RIns true) :: r =>
      m k = None /\ replay strict (fun a => if keqb leb a k then Some v else m a) r
  | (OIns k v, RIns false) :: r => m k <> None /\ replay strict m r
  | (OIns k v, RSpur) :: r => (strict = true -> m k <> None) /\ replay strict m r
  | (ORem k cond, RRem true) :: r =>
      (exists v, m k = Some v /\ cond v = true) /\ replay strict (fun a => if keqb leb a k then None else m a) r
  | (ORem k cond, RRem false) :: r => (forall v, m k = Some v -> cond v = false) /\ replay strict m r
  | _ => False
  end.

Definition returned (s : st K V) (t : nat) (r : res V) : Prop :=
  exists p e, ops s t = Some p /\ pc p = PDone r e.
(** Call [a] returned before call [b] began. *)
Definition before (l : list (act K V)) (a b : nat) : Prop :=
  exists l1 l2 s, l = l1 ++ l2 /\ run leb l1 init = Some s /\ (exists r, returned s a r) /\ ops s b = None.

(** Removals that took place; if not [strict], one call of [remove_if] may do several. *)
Definition counts (strict : bool) (x : nat * (opk K V * res V)) : bool :=
  strict || match snd (snd x) with RRem true => false | _ => true end.

(** [o] lists calls, among them all that have returned in the state [s] reached by [l], with results. *)
Record order (strict : bool) (l : list (act K V)) (s : st K V) (o : list (nat * (opk K V * res V))) : Prop := {
  z_call : forall t q r, In (t, (q, r)) o ->
    exists p, ops s t = Some p /\ kind p = q /\ forall r', returned s t r' -> r' = r;
  z_all : forall t r, returned s t r -> exists q, In (t, (q, r)) o;
  z_once : NoDup (map fst (filter (counts strict) o));
  z_time : ForallOrdPairs (fun x y => ~ before l (fst y) (fst x)) o;
  z_replay : replay strict (fun _ => None) (map snd o) }.
Definition linearizable (strict : bool) (l : list (act K V)) (s : st K V) : Prop := exists o, order strict l s o.
End lin.
