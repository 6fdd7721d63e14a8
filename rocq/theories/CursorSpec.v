(** Vocabulary for cursor iteration. *)
From stdpp Require Import prelude list.

(** What the caller's decisions remove from the entries it has seen. *)
Fixpoint decide_all {K V S} (keep : S -> K * V -> S * bool) (s : S) (vs : list (K * V)) : list (K * V) :=
  match vs with
  | [] => []
  | e :: vs' => (if (keep s e).2 then [] else [e]) ++ decide_all keep (keep s e).1 vs'
  end.

