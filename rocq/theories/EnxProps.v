(** HashIndex, one thread: C66. *)
From Coq Require Import NArith.
From stdpp Require Import prelude list numbers.
From Verif Require Import BucketModel TableModel IndexModel IndexRef EnModel EnSpec EnxModel EnxSpec EnxFacts IndexProps.
Local Open Scope N_scope.

(** ** C66 for HashIndex: after every history and whatever the epochs are, the operations on an [Entry] have the
    effects and results they have on a single cell that holds the value of the key or nothing, and no other key is
    affected. *)
Theorem C66_index_entry_is_a_cell {K V : Type} `{EqDecision K} : forall (hash : K -> N), (forall k, hash k < 2 ^ 64) ->
  forall cap (os : list (env * iop K V)) e k (xs : list (env * xop K V)) e' fin, exists tb outs, run_index hash cap os = Some (tb, outs) /\
  exists tb' us c rest, xchain e hash tb k xs e' fin = Some (tb', us) /\
    iafter hash cap os (e, IPeek k) = Some (JEntry (option_map (pair k) c)) /\
    NoDup rest.*1 /\
    (forall k' v, (k', v) ∈ rest <-> k' <> k /\ iafter hash cap os (e, IPeek k') = Some (JEntry (Some (k', v)))) /\
    us = (ecells k c (map (fun o => on_cell o.2) xs)).2 /\
    ibehaves_as hash tb' (left k (ecells k c (map (fun o => on_cell o.2) xs)).1 fin rest).
Proof. exact xchain_after. Qed.
(** In the middle of a relocation: an absent key is inserted and updated forty times through the same entry, as the
    epoch advances; a present key is updated and removed. *)
Example C66_index_entry_is_a_cell_example :
  (tb ← run_index spread 2048 xops;
   w ← xchain oe spread tb.1 500 ((oe, XGet) :: (oe, XOrInsert (fun k => k * 2)) ::
     map (fun i => (Env (fun x => x =? N.of_nat i mod 4) (N.of_nat i mod 4) false None, XPut (N.of_nat i))) (seq 0 40) ++ [(oe, XGet)]) oe EDrop;
   z ← xchain oe spread w.1 40 [(oe, XOrInsert (fun k => k * 2)); (oe, XPut 5); (oe, XGet)] oe ERemove;
   a ← peek oe spread z.1 500; b ← peek oe spread a.1 40; n ← len INDEX (same_gen oe) spread b.1;
   Some (take 3 w.2, drop 42 w.2, z.2, a.2, b.2, n.2)) =
  Some ([UGet None; UOr (Some 500) 1000; UIns 0], [UGet (Some (500, 39))],
        [UOr None 1040; UIns 5; UGet (Some (40, 5))], Some (500, 39), None, 59).
Proof. vm_compute. reflexivity. Qed.
Print Assumptions C66_index_entry_is_a_cell.
