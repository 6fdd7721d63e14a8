(** What visiting a list of entries with a closure means. *)
From stdpp Require Import prelude list.

Section iter_spec.
Context {K V S : Type}.

(** Read-only visit: the closure threads a state and tells whether to go on.  Result: final state,
    and whether every entry was visited. *)
Fixpoint visit (f : S -> K * V -> S * bool) (s : S) (l : list (K * V)) : S * bool :=
  match l with
  | [] => (s, true)
  | e :: l' => if (f s e).2 then visit f (f s e).1 l' else ((f s e).1, false)
  end.

(** Mutable visit.  The closure returns its new state, the new value, whether the entry stays, and
    whether to go on.  Result: final state, the entries that remain, the consumed ones (both with
    their new values), and whether every entry was visited. *)
Fixpoint visit_mut (f : S -> K * V -> S * V * bool * bool) (s : S) (l : list (K * V))
  : S * list (K * V) * list (K * V) * bool :=
  match l with
  | [] => (s, [], [], true)
  | e :: l' =>
    let '(s1, v, keep, go) := f s e in
    let '(s2, kept, out, all) := if go then visit_mut f s1 l' else (s1, l', [], false) in
    if keep then (s2, (e.1, v) :: kept, out, all) else (s2, kept, (e.1, v) :: out, all)
  end.
End iter_spec.
