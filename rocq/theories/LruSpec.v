(** Specification of the recency order: an explicit list of slots, most recent first. *)
From stdpp Require Import prelude list.
From Verif Require Import LruModel.

Definition spec_step (r : list nat) (o : lru_op) : list nat * option nat :=
  match o with
  | Touch e => (e :: filter (fun x => x <> e) r, None)
  | Forget e => (filter (fun x => x <> e) r, None)
  | Evict => (removelast r, last r)      (* the oldest one *)
  end.

Fixpoint spec_run (r : list nat) (os : list lru_op) : list nat * list (option nat) :=
  match os with
  | [] => (r, [])
  | o :: os' => let '(r1, x) := spec_step r o in
                let '(r2, xs) := spec_run r1 os' in (r2, x :: xs)
  end.

Definition op_slot_ok (o : lru_op) : Prop :=
  match o with Touch e | Forget e => e < 32 | Evict => True end.
