(** HashMap, one thread: C65. *)
From Coq Require Import NArith.
From stdpp Require Import prelude list numbers.
From Verif Require Import BucketModel TableModel MapModel MapRef MapWhole AnModel AnSpec AnFacts MapProps.
Local Open Scope N_scope.

(** ** C65: after every history, [any_sync] applies the predicate to the entries of the map in some order, each once,
    until it accepts one, and the use of that entry changes it and no other. *)
Theorem C65_any_searches_all {K V S : Type} `{EqDecision K} : forall (hash : K -> N), (forall k, hash k < 2 ^ 64) ->
  forall sg cap (os : list (mop K V)), exists tb outs, run_map sg hash cap os = Some (tb, outs) /\
  forall (pred : S -> K * V -> S * bool) s use, exists tb' s' found vs, any_then sg hash tb pred s use = Some (tb', s', found) /\
    NoDup vs.*1 /\ (forall k v, (k, v) ∈ vs <-> after sg hash cap os (MRead k) = Some (OEntry (Some (k, v)))) /\
    search pred s vs = (s', found) /\ behaves_as sg hash tb' (used use found vs).
Proof. exact any_after. Qed.
(** In the middle of a relocation: the third entry that is divisible by ten is removed; nothing is above 1000. *)
Example C65_any_searches_all_example : let third := fun n (e : N * N) => if (e.1 mod 10 =? 0) then (n + 1, n =? 2) else (n, false) in
  match (tb ← run_map oc spread 2048 ops;
   w ← any_then oc spread tb.1 third 0 (fun _ => None);
   z ← any_then oc spread w.1.1 (fun n e => (n + 1, 1000 <? e.1)) 0 (fun _ => None);
   k ← len MAP oc spread z.1.1; e ← w.2;
   r ← read MAP oc spread k.1 e.1;
   Some (w.1.2, e.1 mod 10, z.1.2, z.2, k.2, r.2)) with
  | Some x => x = (3, 0, 148, None, 148, None)
  | None => False
  end.
Proof. vm_compute. reflexivity. Qed.
Print Assumptions C65_any_searches_all.

(** ** With a predicate that has no state: it finds an entry exactly if there is one. *)
Theorem C65_any_finds {K V : Type} `{EqDecision K} : forall (hash : K -> N), (forall k, hash k < 2 ^ 64) ->
  forall sg cap (os : list (mop K V)) (p : K * V -> bool) use tb outs, run_map sg hash cap os = Some (tb, outs) ->
  exists tb' found, any_then sg hash tb (fun u e => (u, p e)) tt use = Some (tb', tt, found) /\
  match found with
  | Some e => after sg hash cap os (MRead e.1) = Some (OEntry (Some e)) /\ p e = true
  | None => forall k v, after sg hash cap os (MRead k) = Some (OEntry (Some (k, v))) -> p (k, v) = false
  end.
Proof. exact any_plain. Qed.
Example C65_any_finds_example :
  (tb ← run_map oc spread 2048 ops; w ← any_then oc spread tb.1 (fun u e => (u, e.1 =? 90)) tt (fun e => Some 5);
   r ← read MAP oc spread w.1.1 90; Some (option_map fst w.2, r.2)) = Some (Some 90, Some (90, 5)).
Proof. vm_compute. reflexivity. Qed.
Print Assumptions C65_any_finds.
