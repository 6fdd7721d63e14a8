(** Keys of a HashCache that are equal but can be told apart. *)
From Coq Require Import NArith.
From stdpp Require Import prelude list numbers.
From Verif Require Import CacheModel CkModel.

Section ck_spec.
Context {K P V : Type} `{EqDecision K}.

(** What [o] returns after the history [os], and what is then found under [k]. *)
Definition ckafter (sg : N -> bool) (hash : K -> N) (mn mx : N) (os : list (ckop K P V)) (o : ckop K P V) : option (ckout K P V) :=
  r ← run_ck sg hash mn mx os; q ← ckstep sg hash r.1 o; Some q.2.
Definition cklook sg hash mn mx (os : list (ckop K P V)) (k : K) : option (P * V) :=
  match ckafter sg hash mn mx os (CKDo (CRead k)) with Some (CKOut (COEntry (Some e))) => Some e.2 | _ => None end.
(** Closures get at values, not at keys. *)
Definition values_only (o : ckop K P V) : Prop :=
  match o with
  | CKDo (CGet _ f) => forall x y, f x = Some y -> y.1 = x.1
  | CKDo (CEntry _ f) => forall x y, f (Some x) = Some y -> y.1 = x.1
  | CKDo (CRemoveIf _ c) => forall x, (c x).1.1 = x.1
  | CKDo (CRetain g) => forall e, (g e).1.1 = e.2.1
  | CKDo _ => True
  | CKReplace _ _ _ => False
  end.
End ck_spec.
