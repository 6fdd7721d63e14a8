(** HashMap, one thread: C66. *)
From Coq Require Import NArith.
From stdpp Require Import prelude list numbers.
From Verif Require Import BucketModel TableModel MapModel MapRef MapWhole EnModel EnSpec EnFacts MapProps.
Local Open Scope N_scope.

(** ** C66: after every history, the operations on an [Entry] have the effects and results they have on a single
    cell that holds the value of the key or nothing, and no other key is affected. *)
Theorem C66_entry_is_a_cell {K V : Type} `{EqDecision K} : forall (hash : K -> N), (forall k, hash k < 2 ^ 64) ->
  forall sg cap (os : list (mop K V)) k (es : list (eop K V)) fin, exists tb outs, run_map sg hash cap os = Some (tb, outs) /\
  exists tb' us r c rest, entry_chain sg hash tb k es fin = Some (tb', us, r) /\
    after sg hash cap os (MRead k) = Some (OEntry (option_map (pair k) c)) /\
    NoDup rest.*1 /\
    (forall k' v, (k', v) ∈ rest <-> k' <> k /\ after sg hash cap os (MRead k') = Some (OEntry (Some (k', v)))) /\
    us = (ecells k c es).2 /\ r = taken k (ecells k c es).1 fin /\
    behaves_as sg hash tb' (left k (ecells k c es).1 fin rest).
Proof. exact chain_after. Qed.
(** In the middle of a relocation, a key that is absent and one that is present. *)
Example C66_entry_is_a_cell_example : let es := [EAndModify (fun v => v + 1); EOrInsert (fun k => k * 2); EAndModify (fun v => v + 1); EGet] in
  (tb ← run_map oc spread 2048 ops;
   w ← entry_chain oc spread tb.1 500 es EDrop;
   z ← entry_chain oc spread w.1.1 90 [EInsert 5; EOrInsert (fun k => k * 2); EAndModify (fun v => v + 1)] ERemove;
   a ← read MAP oc spread z.1.1 500; b ← read MAP oc spread a.1 90;
   Some (w.1.2, z.1.2, z.2, a.2, b.2)) =
  Some ([UMod None; UOr (Some 500) 1000; UMod (Some 1000); UGet (Some (500, 1001))],
        [UIns 5; UOr None 5; UMod (Some 5)], Some (90, 6), Some (500, 1001), None).
Proof. vm_compute. reflexivity. Qed.
Print Assumptions C66_entry_is_a_cell.
