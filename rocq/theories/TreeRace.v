(** [TreeIndex::remove_if_sync] when other threads hold the lock of the root.

    /repo/src/tree_index.rs L442-480 and /repo/src/tree_index/node.rs L279-355.  [cleanup_root] gives up
    when the root has to be replaced and is locked by another thread, which is there to replace the
    root itself; the caller then starts over.  Every failed attempt is one element of [others]: the
    other thread is in [insert_sync], found the same root unusable, and runs to the end before the
    next attempt.  No other interference is modelled. *)
From stdpp Require Import prelude list.
From Verif Require Import LeafModel TreeModel.

Section race.
Context {K V : Type} (cmp : K -> K -> comparison).

(** node.rs L285-306: whether [cleanup_root] tries to lock the root. *)
Definition unusable (t : treeindex K V) : bool :=
  match root t with
  | None => false
  | Some (existT d n) => node_retired n || match d with O => false | S _ => is_empty (ch n) end
  end.

(** tree_index.rs L446-479; [removed] is the local variable.  The second component lists the entries
    that were removed by this call, and what other threads' insertions answered. *)
Inductive event := Took (k : K) (v : V) | Inserted (k : K) (v : V) (r : ires).
Fixpoint remove_if_race (fuel : nat) (t : treeindex K V) (k : K) (cond : V -> bool) (removed : bool)
  (others : list (K * V)) (log : list event) : treeindex K V * option bool * list event :=
  match fuel with
  | O => (t, None, log)
  | S f =>
    match root t with
    | None => (t, Some removed, log)
    | Some (existT d n) =>
      match node_remove cmp d k cond (hp t) n with
      | (h, n', r) =>
        let t' := Tree h (Some (existT d n')) in
        let took := match peek cmp t k with Some v => [Took k v] | None => [] end in
        match r, removed with
        | OSuccess, _ => (t', Some true, log ++ took)
        | OCleanup, _ | ORetired, _ | OFail, true =>
          let log' := log ++ match r with OFail => [] | _ => took end in
          match others with
          | e :: others' =>
            if unusable t' then
              let z := insert_sync cmp t' e.1 e.2 in
              remove_if_race f z.1 k cond true others' (log' ++ [Inserted e.1 e.2 z.2])
            else (clean t', Some true, log')
          | [] => (clean t', Some true, log')
          end
        | OFail, false => (t', Some false, log)
        | OErr, _ => remove_if_race f t' k cond removed others log
        end
      end
    end
  end.
End race.
