(** Theorems about the number of entries and the capacity of a HashCache. *)
From Coq Require Import NArith Lia.
From stdpp Require Import prelude list numbers.
From Verif Require CapModel.
From Verif Require Import BucketModel TableModel MapSpec CacheModel CacheSpec CacheCapThms CacheProps.
Local Open Scope N_scope.

(** Test data: sixteen groups of keys, one for each bucket of 512 slots. *)
Definition never : N -> bool := fun _ => false.
Definition sixteenths (k : N) : N := ((k / 1000) * 2 ^ 60 + (k mod 1000)) mod 2 ^ 64.
Example sixteenths_64 : forall k, sixteenths k < 2 ^ 64.
Proof. intros. by apply N.mod_lt. Qed.
Definition key (r i : nat) : N := N.of_nat r * 1000 + N.of_nat i.
Definition puts (r a n : nat) : list (cop N N) := map (fun i => CPut (key r i) 0) (seq a n).
(** The groups in turn receive a key, [n] times. *)
Definition across (groups : list nat) (a n : nat) : list (cop N N) :=
  concat (map (fun i => map (fun r => CPut (key r i) 0) groups) (seq a n)).
(** The capacities a history goes through. *)
Fixpoint caps_from (tb : table N N) (os : list (cop N N)) : list N :=
  capacity tb :: match os with
                 | [] => []
                 | o :: os' => match cstep never sixteenths tb o with Some r => caps_from r.1 os' | None => [] end
                 end.
Definition caps (os : list (cop N N)) : list N :=
  match new_cache 0 512 with Some tb => caps_from tb os | None => [] end.
Fixpoint ascending (l : list N) : bool :=
  match l with
  | x :: (y :: _) as r => ((x <=? y) || (y =? 0)) && ascending r
  | _ => true
  end.
Lemma ascending_lookup l : ascending l = true -> forall i x y, l !! i = Some x -> l !! S i = Some y -> x <= y \/ y = 0.
Proof.
  induction l as [|a l IH]; intros A [|i] x y X Y; try done.
  - destruct l as [|b l]; [done|]. cbn in X, Y. injection X as <-. injection Y as <-. cbn [ascending] in A.
    apply andb_prop in A as [A _]. apply orb_prop in A as [A|A]; [left; by apply N.leb_le|right; by apply N.eqb_eq].
  - destruct l as [|b l]; [by destruct i|]. cbn [ascending] in A. apply andb_prop in A as [_ A]. by apply (IH A i).
Qed.
Lemma caps_from_lookup p : forall tb rest tb' outs, crun never sixteenths tb p = Some (tb', outs) ->
  caps_from tb (p ++ rest) !! length p = Some (capacity tb').
Proof.
  induction p as [|o p IH]; intros tb rest tb' outs; cbn [crun app length caps_from].
  - intros [= <- _]. by destruct rest.
  - destruct (cstep never sixteenths tb o) as [[tb1 out]|]; [|done]. cbn [mbind option_bind fst snd].
    destruct (crun never sixteenths tb1 p) as [[tb2 outs2]|] eqn:E; [|done]. cbn [mbind option_bind fst snd].
    intros [= <- _]. cbn [lookup list_lookup]. by eapply IH.
Qed.
Lemma caps_lookup p rest : caps (p ++ rest) !! length p = Some (cap_after never sixteenths 0 512 p).
Proof.
  destruct (C22_cache_history sixteenths sixteenths_64 never 0 512 p) as (tb & outs & E & _).
  unfold caps, cap_after, cafter. rewrite E. unfold run_cache in E.
  destruct (new_cache 0 512) as [tb0|]; [|done]. cbn [mbind option_bind fst snd] in *.
  by rewrite (caps_from_lookup p tb0 rest tb outs E).
Qed.
Lemma caps_never_shrinks os : ascending (caps os) = true -> never_shrinks never sixteenths 0 512 os.
Proof.
  intros A p o rest ->. apply (ascending_lookup _ A (length p)); [apply caps_lookup|].
  replace (p ++ o :: rest) with ((p ++ [o]) ++ rest)%list by (by rewrite <- app_assoc).
  replace (S (length p)) with (length (p ++ [o])) by (rewrite app_length; cbn; lia). apply caps_lookup.
Qed.

(** ** C23 *)
Theorem C23_len_within_capacity {K V : Type} `{EqDecision K} : forall (hash : K -> N), (forall k, hash k < 2 ^ 64) ->
  forall sg mn mx (os : list (cop K V)), never_shrinks sg hash mn mx os ->
  exists n, cafter sg hash mn mx os CLen = Some (COCount n) /\ n <= cap_after sg hash mn mx os.
Proof. exact lC23_len_within_capacity. Qed.
(** The cache grows from nothing to 64 and 128 slots and evicts entries of full buckets. *)
Definition growth : list (cop N N) := puts 1 0 24 ++ puts 9 0 40 ++ puts 3 0 40 ++ puts 10 0 40 ++ puts 4 0 60.
Example C23_len_example : never_shrinks never sixteenths 0 512 growth /\
  cafter never sixteenths 0 512 growth CLen = Some (COCount 96) /\ cap_after never sixteenths 0 512 growth = 128 /\
  remove_dups (caps growth) = [0; 64; 128].
Proof. split; [apply caps_never_shrinks; vm_compute; reflexivity|]. vm_compute. repeat split; reflexivity. Qed.
Print Assumptions C23_len_within_capacity.

Theorem C23_capacity_within_range {K V : Type} `{EqDecision K} : forall (hash : K -> N), (forall k, hash k < 2 ^ 64) ->
  forall sg mn mx (os : list (cop K V)), exists tb outs,
  run_cache sg hash mn mx os = Some (tb, outs) /\
  cap_after sg hash mn mx os <= (CapModel.capacity_range (maxcap tb) (mst tb)).2 /\ cache_maximum mn mx = Some (maxcap tb).
Proof. exact lC23_capacity_within_range. Qed.
Example C23_capacity_example : cap_after never sixteenths 0 200 growth = 128 /\ cache_maximum 0 200 = Some 256.
Proof. vm_compute. repeat split; reflexivity. Qed.
Print Assumptions C23_capacity_within_range.

Theorem C22_no_overflow_chain {K V : Type} `{EqDecision K} : forall (hash : K -> N), (forall k, hash k < 2 ^ 64) ->
  forall sg mn mx (os : list (cop K V)), never_shrinks sg hash mn mx os ->
  exists tb outs, run_cache sg hash mn mx os = Some (tb, outs) /\
  forall a i x, cur tb = Some a \/ old tb = Some a -> bks a !! i = Some x -> links (bkt x) = [].
Proof. exact lC22_no_overflow_chain. Qed.
(** The hypothesis is met by [growth], see above; after a shrink there are chains. *)
Definition middle (e : N * N) : bool := let g := e.1 / 1000 in ((4 <=? g) && (g <? 12)) || (e.1 =? 3000).
Definition shrink : list (cop N N) := across (seq 0 16) 0 14 ++ puts 4 20 19 ++ [CRetain (fun e => (e.2, middle e))].
Definition regrow : list (cop N N) := shrink ++ map (fun i => CRead (key i 0)) (seq 4 4) ++ [CPut (key 4 100) 0].
Definition chains (os : list (cop N N)) : option (list nat) :=
  r ← run_cache never sixteenths 0 512 os; a ← cur r.1; Some (map (fun x => length (links (bkt x))) (bks a)).
Example C22_no_overflow_example : chains growth = Some [0; 0; 0; 0]%nat /\
  chains (shrink ++ map (fun i => CRead (key i 0)) (seq 4 4)) = Some [6; 3]%nat.
Proof. vm_compute. repeat split; reflexivity. Qed.
Print Assumptions C22_no_overflow_chain.

(** ** C49: with a shrinking resize in the history both bounds fail. *)
Theorem C49_len_beyond_capacity_refuted : exists (hash : N -> N) (mn mx : N) (os : list (cop N N)) n,
  (forall k, hash k < 2 ^ 64) /\ cafter never hash mn mx os CLen = Some (COCount n) /\
  n = 131 /\ cap_after never hash mn mx os = 64.
Proof.
  exists sixteenths, 0, 512, shrink, 131. split; [apply sixteenths_64|]. vm_compute. repeat split; reflexivity.
Qed.
Print Assumptions C49_len_beyond_capacity_refuted.
Theorem C49_len_beyond_maximum_refuted : exists (hash : N -> N) (mn mx : N) (os : list (cop N N)) n,
  (forall k, hash k < 2 ^ 64) /\ cafter never hash mn mx os CLen = Some (COCount n) /\
  cache_maximum mn mx = Some 512 /\ 512 < n.
Proof.
  exists sixteenths, 0, 512, (regrow ++ across [0; 1; 2; 3; 12; 13; 14; 15]%nat 100 32 ++ across (seq 5 7) 100 20), 513.
  split; [apply sixteenths_64|]. vm_compute. repeat split; reflexivity.
Qed.
Print Assumptions C49_len_beyond_maximum_refuted.
