(** HashIndex, one thread: C65. *)
From Coq Require Import NArith.
From stdpp Require Import prelude list numbers.
From Verif Require Import BucketModel TableModel IndexModel IndexRef AnModel AnSpec AnIndex IndexProps.
Local Open Scope N_scope.

(** ** C65 for HashIndex: after every history, [any_sync] applies the predicate to the entries in some order, each
    once, until it accepts one, and the use of that entry changes it and no other. *)
Theorem C65_index_any_searches_all {K V S : Type} `{EqDecision K} : forall (hash : K -> N), (forall k, hash k < 2 ^ 64) ->
  forall cap (os : list (env * iop K V)) e, exists tb outs, run_index hash cap os = Some (tb, outs) /\
  forall (pred : S -> K * V -> S * bool) s use, exists tb' s' found vs, iany_then e hash tb pred s use = Some (tb', s', found) /\
    NoDup vs.*1 /\ (forall k v, (k, v) ∈ vs <-> iafter hash cap os (e, IPeek k) = Some (JEntry (Some (k, v)))) /\
    search pred s vs = (s', found) /\ ibehaves_as hash tb' (iused use found vs).
Proof. exact iany_after. Qed.
(** In the middle of a relocation: the third entry that is divisible by ten is removed, another one is updated;
    nothing is above 1000. *)
Example C65_index_any_searches_all_example : let third := fun n (x : N * N) => if (x.1 mod 10 =? 0) then (n + 1, n =? 2) else (n, false) in
  match (tb ← run_index spread 2048 xops;
   w ← iany_then oe spread tb.1 third 0 (fun _ => Remove);
   u ← iany_then oe spread w.1.1 (fun n x => (n, x.1 =? 7)) 0 (fun _ => Store 5);
   z ← iany_then oe spread u.1.1 (fun n x => (n + 1, 1000 <? x.1)) 0 (fun _ => Remove);
   k ← len INDEX (same_gen oe) spread z.1.1; x ← w.2;
   r ← peek oe spread k.1 x.1; y ← peek oe spread r.1 7;
   Some (w.1.2, x.1 mod 10, z.1.2, z.2, k.2, r.2, y.2)) with
  | Some x => x = (3, 0, 58, None, 58, None, Some (7, 5))
  | None => False
  end.
Proof. vm_compute. reflexivity. Qed.
Print Assumptions C65_index_any_searches_all.

(** ** With a predicate that has no state: it finds an entry exactly if there is one. *)
Theorem C65_index_any_finds {K V : Type} `{EqDecision K} : forall (hash : K -> N), (forall k, hash k < 2 ^ 64) ->
  forall cap (os : list (env * iop K V)) e (p : K * V -> bool) use tb outs, run_index hash cap os = Some (tb, outs) ->
  exists tb' found, iany_then e hash tb (fun u x => (u, p x)) tt use = Some (tb', tt, found) /\
  match found with
  | Some x => iafter hash cap os (e, IPeek x.1) = Some (JEntry (Some x)) /\ p x = true
  | None => forall k v, iafter hash cap os (e, IPeek k) = Some (JEntry (Some (k, v))) -> p (k, v) = false
  end.
Proof. exact iany_plain. Qed.
Example C65_index_any_finds_example :
  (tb ← run_index spread 2048 xops; w ← iany_then oe spread tb.1 (fun u x => (u, x.1 =? 40)) tt (fun _ => Keep);
   r ← peek oe spread w.1.1 40; Some (w.2, r.2)) = Some (Some (40, 1040), Some (40, 1040)).
Proof. vm_compute. reflexivity. Qed.
Print Assumptions C65_index_any_finds.
