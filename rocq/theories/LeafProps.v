(** TreeIndex leaves: C27, C28, C32. *)
From stdpp Require Import prelude list.
From Verif Require Import LeafModel LeafSpec LeafConc LeafLin LeafConcFacts LeafThms.

(** ** C27 *)
(** Full statement: every history of searches, insertions, removals, freezes and thaws is
    linearizable.  It fails: an insertion may report a duplicate of a key that was never there. *)
Theorem C27_leaf_linearizable_refuted :
  exists acts s h, run Nat.compare (init 2 ([] : list (nat * nat))) acts = Some (s, h) /\
    Ret 0 (RsIns IDuplicate) ∈ h /\ ~ linearizable Nat.compare true [] h.
Proof. exact lC27_leaf_linearizable_refuted. Qed.
Print Assumptions C27_leaf_linearizable_refuted.

(** Without thaws (no split that is given up) the full statement holds. *)
Theorem C27_leaf_linearizable_no_thaw_partial {K V : Type} : forall (cmp : K -> K -> comparison), total_order cmp ->
  forall n (es : list (K * V)) acts s h, length es <= 14 -> ascending cmp es ->
  (forall t, ACall t OpThaw ∉ acts) ->
  run cmp (init n es) acts = Some (s, h) -> linearizable cmp true es h.
Proof.
  exact lC27_no_thaw.
Qed.
(** Two threads insert the same key and a third removes it, step by step in turn. *)
Example C27_leaf_linearizable_no_thaw_example :
  snd <$> run Nat.compare (init 3 [(1, 10); (9, 90)])
    [ACall 0 (OpInsert 5 50); ACall 1 (OpInsert 5 51); AStep 0; AStep 1; AStep 0; AStep 1; AStep 1; AStep 0;
     AStep 0; AStep 0; AStep 1; AStep 1; ACall 2 (OpRemove 5 (fun v => v =? 50)); AStep 2; AStep 1; AStep 2; AStep 1;
     AStep 2; AStep 2; AStep 0; ACall 0 (OpSearch 5); AStep 0; AStep 0; AStep 0; AStep 1; AStep 2] =
  Some [Call 0 (OpInsert 5 50); Call 1 (OpInsert 5 51); Call 2 (OpRemove 5 (fun v => v =? 50));
        Ret 0 (RsIns ISuccess); Call 0 (OpSearch 5); Ret 0 (RsFound None); Ret 1 (RsIns IDuplicate); Ret 2 (RsRem RSuccess)].
Proof. vm_compute. repeat split; reflexivity. Qed.
Print Assumptions C27_leaf_linearizable_no_thaw_partial.

(** With thaws the only deviation is that an insertion may report a duplicate, without effect. *)
Theorem C27_leaf_linearizable_thaw_partial {K V : Type} : forall (cmp : K -> K -> comparison), total_order cmp ->
  forall n (es : list (K * V)) acts s h, length es <= 14 -> ascending cmp es ->
  run cmp (init n es) acts = Some (s, h) -> linearizable cmp false es h.
Proof. exact lC27_thaw. Qed.
Example C27_leaf_linearizable_thaw_example :
  snd <$> run Nat.compare (init 2 [(1, 10); (9, 90)]) thaw_race =
  Some [Call 0 (OpInsert 5 50); Call 1 OpFreeze; Ret 1 (RsBool true); Call 1 OpThaw; Ret 1 (RsBool true);
        Ret 0 (RsIns IDuplicate)].
Proof. vm_compute. reflexivity. Qed.
Print Assumptions C27_leaf_linearizable_thaw_partial.

(** At any moment a scan is in order and complete. *)
Theorem C27_leaf_scan_ordered {K V : Type} : forall (cmp : K -> K -> comparison), total_order cmp ->
  forall n (es : list (K * V)) acts s h, length es <= 14 -> ascending cmp es ->
  run cmp (init n es) acts = Some (s, h) ->
  ascending cmp (scan (lf s)) /\ forall e, e ∈ scan (lf s) <-> stored (lf s) e.
Proof. exact lC27_scan_ordered. Qed.
(** Two insertions in progress: one slot is reserved, the other entry is already visible. *)
Example C27_leaf_scan_ordered_example :
  (fun z => (scan (lf z.1), ranks (md (lf z.1)))) <$>
  run Nat.compare (init 2 [(1, 10); (9, 90)])
    [ACall 0 (OpInsert 5 50); ACall 1 (OpInsert 3 30); AStep 0; AStep 0; AStep 0; AStep 1; AStep 1; AStep 1; AStep 1] =
  Some ([(1, 10); (3, 30); (9, 90)], [1; 3; 15; 2; 0; 0; 0; 0; 0; 0; 0; 0; 0; 0]).
Proof. vm_compute. reflexivity. Qed.
Print Assumptions C27_leaf_scan_ordered.

(** No thread is ever stuck, in particular none looks for an entry in an empty slot. *)
Theorem C27_leaf_never_stuck {K V : Type} : forall (cmp : K -> K -> comparison), total_order cmp ->
  forall n (es : list (K * V)) acts s h, length es <= 14 -> ascending cmp es ->
  run cmp (init n es) acts = Some (s, h) ->
  forall t p, pcs s !! t = Some p ->
    match p with
    | PIdle => forall o, exists s' e, step cmp s (ACall t o) = Some (s', e)
    | _ => exists s' e, step cmp s (AStep t) = Some (s', e)
    end.
Proof. exact lC27_never_stuck. Qed.
(** Thread 1 is about to take the entry thread 0 has just removed. *)
Example C27_leaf_never_stuck_example :
  (fun z => length (pcs z.1)) <$>
  run Nat.compare (init 2 [(1, 10); (9, 90)])
    [ACall 0 (OpRemove 9 (fun _ => true)); ACall 1 (OpRemove 9 (fun _ => true)); AStep 0; AStep 1; AStep 1; AStep 0; AStep 0] = Some 2 /\
  snd <$> run Nat.compare (init 2 [(1, 10); (9, 90)])
    [ACall 0 (OpRemove 9 (fun _ => true)); ACall 1 (OpRemove 9 (fun _ => true)); AStep 0; AStep 1; AStep 1; AStep 0; AStep 0;
     AStep 1; AStep 1; AStep 0] =
  Some [Call 0 (OpRemove 9 (fun _ => true)); Call 1 (OpRemove 9 (fun _ => true)); Ret 1 (RsRem RFail); Ret 0 (RsRem RSuccess)].
Proof. vm_compute. split; reflexivity. Qed.
Print Assumptions C27_leaf_never_stuck.

(** ** C28 *)
Theorem C28_leaf_split {K V : Type} : forall (cmp : K -> K -> comparison), total_order cmp ->
  forall l : leaf K V, built cmp l ->
  let '(_, lo, hi) := distribute l in
  exists es1 es2, ascending cmp (es1 ++ es2) /\
    (forall e, e ∈ es1 ++ es2 <-> stored l e) /\ (forall e, e ∈ es1 <-> stored lo e) /\
    (forall e, e ∈ es2 <-> exists h, hi = Some h /\ stored h e) /\ length es1 < 14 /\ length es2 < 14 /\
    (forall k v, (forall v', ~ stored lo (k, v')) -> (insert cmp lo k v).2 = ISuccess) /\
    (forall h, hi = Some h -> es1 <> [] /\ es2 <> [] /\
      forall k v, (forall v', ~ stored h (k, v')) -> (insert cmp h k v).2 = ISuccess).
Proof. exact lC28_split. Qed.
(** A full leaf filled in a mixed order, one entry removed, and its halves. *)
Definition mixed : leaf nat nat :=
  foldl (fun l k => (insert Nat.compare l k (10 * k)).1) new_leaf [7; 3; 11; 1; 5; 9; 13; 14; 12; 10; 8; 6; 4; 2].
Example C28_leaf_split_example :
  let l := (remove_if Nat.compare mixed 6 (fun _ => true)).1 in
  (insert Nat.compare l 20 0).2 = IFull /\
  (scan (distribute l).1.2).*1 = [1; 2; 3; 4; 5] /\
  (fun h => (scan h).*1) <$> (distribute l).2 = Some [7; 8; 9; 10; 11; 12; 13; 14].
Proof. vm_compute. repeat split; reflexivity. Qed.
Print Assumptions C28_leaf_split.

(** ** C32 *)
(** [fq] and [fk] place queries and keys in a common total order: [K: Borrow<Q>] is the case
    [fk = borrow]; any consistent [Comparable] implementation is of this form. *)
Theorem C32_range_contains {Q K O : Type} : forall (ocmp : O -> O -> comparison) (fq : Q -> O) (fk : K -> O),
  total_order ocmp -> forall r k,
  range_contains (fun q k => ocmp (fq q) (fk k)) r k = true <->
  in_range ocmp (bound_map fq r.1, bound_map fq r.2) (fk k).
Proof. exact lC32_range_contains. Qed.
Example C32_range_contains_example :
  let ql (q : list nat) k := Nat.compare (length q) k in
  range_contains ql (Excluded [1; 2], Included [1; 2; 3]) 3 = true /\
  range_contains ql (Excluded [1; 2], Included [1; 2; 3]) 2 = false /\
  range_contains ql (Included [1; 2], Unbounded) 2 = true /\
  range_contains ql (Unbounded, Excluded [0; 0]) 2 = false.
Proof. vm_compute. repeat split; reflexivity. Qed.
Print Assumptions C32_range_contains.
