(** Searching a list of entries, and what is left after the entry found was used. *)
From stdpp Require Import prelude list.
From Verif Require Import IndexModel.

Section any_spec.
Context {K V : Type} `{EqDecision K} {S : Type}.
(** The first one the predicate accepts, and the state of the predicate after that. *)
Fixpoint search (pred : S -> K * V -> S * bool) (s : S) (l : list (K * V)) : S * option (K * V) :=
  match l with
  | [] => (s, None)
  | e :: l' => if (pred s e).2 then ((pred s e).1, Some e) else search pred (pred s e).1 l'
  end.
(** [use e = None]: it is removed; [use e = Some v]: it gets the value [v]. *)
Definition used (use : K * V -> option V) (found : option (K * V)) (l : list (K * V)) : list (K * V) :=
  match found with
  | None => l
  | Some e =>
    match use e with
    | None => filter (fun x => x.1 <> e.1) l
    | Some v => (e.1, v) :: filter (fun x => x.1 <> e.1) l
    end
  end.
(** For HashIndex, where the entry can also be dropped unused ([Keep]). *)
Definition iused (use : K * V -> act V) (found : option (K * V)) (l : list (K * V)) : list (K * V) :=
  match found with
  | None => l
  | Some e =>
    match use e with
    | Keep => l
    | Store v => (e.1, v) :: filter (fun x => x.1 <> e.1) l
    | Remove => filter (fun x => x.1 <> e.1) l
    end
  end.
End any_spec.
