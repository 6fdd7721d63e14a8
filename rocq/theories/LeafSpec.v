(** Vocabulary for the statements about TreeIndex leaves: total orders, strictly ascending lists of
    entries as ordered maps, range membership in terms of the order relation. *)
From stdpp Require Import prelude list sorting.
From Verif Require Import LeafModel.

(** A Rust [Ord]: a total order whose [Eq] is equality of keys. *)
Record total_order {K : Type} (cmp : K -> K -> comparison) : Prop := {
  to_eq : forall a b, cmp a b = Eq <-> a = b;
  to_opp : forall a b, cmp b a = CompOpp (cmp a b);
  to_trans : forall a b c, cmp a b = Lt -> cmp b c = Lt -> cmp a c = Lt }.

Section spec.
Context {K V : Type} (cmp : K -> K -> comparison).

(** Strictly ascending in the key. *)
Definition ascending (es : list (K * V)) : Prop :=
  StronglySorted (fun a b => cmp a.1 b.1 = Lt) es.

(** The ordered map an ascending list stands for. *)
Definition oget (es : list (K * V)) (k : K) : option V :=
  snd <$> List.find (fun e => match cmp k e.1 with Eq => true | _ => false end) es.
Fixpoint oput (es : list (K * V)) (k : K) (v : V) : list (K * V) :=
  match es with
  | [] => [(k, v)]
  | e :: es' => match cmp k e.1 with
                | Lt => (k, v) :: e :: es'
                | Eq => (k, v) :: es'
                | Gt => e :: oput es' k v
                end
  end.
Definition odel (es : list (K * V)) (k : K) : list (K * V) :=
  List.filter (fun e => match cmp k e.1 with Eq => false | _ => true end) es.

(** Membership of a key in a range, as in [RangeBounds::contains] of the standard library. *)
Definition in_range (r : bound K * bound K) (k : K) : Prop :=
  match r.1 with
  | Included a => cmp a k = Lt \/ a = k
  | Excluded a => cmp a k = Lt
  | Unbounded => True
  end /\
  match r.2 with
  | Included b => cmp k b = Lt \/ k = b
  | Excluded b => cmp k b = Lt
  | Unbounded => True
  end.

(** An entry is reachable in a leaf. *)
Definition stored (l : leaf K V) (e : K * V) : Prop :=
  exists i r, ranks (md l) !! i = Some r /\ live r = true /\ slots l !! i = Some (Some e).
End spec.

Lemma order_irrefl {K} (cmp : K -> K -> comparison) : total_order cmp -> forall a, cmp a a = Eq.
Proof. intros T a. by apply T. Qed.
Lemma order_gt {K} (cmp : K -> K -> comparison) : total_order cmp -> forall a b, cmp a b = Gt <-> cmp b a = Lt.
Proof. intros T a b. rewrite (to_opp _ T a b). by destruct (cmp a b). Qed.
Lemma nat_order : total_order Nat.compare.
Proof.
  split.
  - intros. apply Nat.compare_eq_iff.
  - intros. apply Nat.compare_antisym.
  - intros a b c. rewrite !Nat.compare_lt_iff. lia.
Qed.

(** Leaves that operations produce from an empty one, in any order, including by splitting. *)
Inductive built {K V : Type} (cmp : K -> K -> comparison) : leaf K V -> Prop :=
| built_new : built cmp new_leaf
| built_insert l k v : built cmp l -> built cmp (insert cmp l k v).1
| built_remove l k cond : built cmp l -> built cmp (remove_if cmp l k cond).1
| built_remove_range l r : built cmp l -> built cmp (remove_range cmp l r)
| built_freeze l : built cmp l -> built cmp (Leaf (freeze (md l)) (slots l))
| built_thaw l : built cmp l -> built cmp (Leaf (thaw (md l)) (slots l))
| built_low l : built cmp l -> built cmp (distribute l).1.2
| built_high l h : built cmp l -> (distribute l).2 = Some h -> built cmp h.

(** The bounds of a range, seen through a map of the bound type. *)
Definition bound_map {A B : Type} (f : A -> B) (b : bound A) : bound B :=
  match b with Included a => Included (f a) | Excluded a => Excluded (f a) | Unbounded => Unbounded end.
