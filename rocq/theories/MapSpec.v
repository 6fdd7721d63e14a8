(** A finite map as an association list: the reference the containers are compared with. *)
From stdpp Require Import prelude list.

Section map_spec.
Context {K V : Type} `{EqDecision K}.

Fixpoint assoc (k : K) (l : list (K * V)) : option V :=
  match l with
  | [] => None
  | (k', v) :: l' => if decide (k = k') then Some v else assoc k l'
  end.
Definition del (k : K) (l : list (K * V)) : list (K * V) := filter (fun e => e.1 <> k) l.
Definition put (k : K) (v : V) (l : list (K * V)) : list (K * V) := (k, v) :: del k l.
End map_spec.
