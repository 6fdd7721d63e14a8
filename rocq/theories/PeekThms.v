(** The statements about lock-free reads. *)
From Coq Require Import NArith.
From stdpp Require Import prelude list numbers.
From Verif Require Import PeekModel PeekSpec PeekRun.

Section thms.
Context {K V : Type} `{EqDecision K}.

Lemma lC17_stable_found (hash : K -> N) : (forall k, hash k < 2 ^ 64)%N -> forall n before st t (x : obj K V) l st' r,
  run hash (init n) before = Some st -> called st t (okey x) -> run hash st l = Some st' ->
  during hash st l (fun s => settled s x) -> answered st' t (okey x) r ->
  exists y, r = Some y /\ okey y = okey x /\ at_some hash st l (fun s => stored s y).
Proof. intros H64 n before st t x l st' r. by apply stable_found. Qed.
Lemma lC17_answer_was_stored (hash : K -> N) : (forall k, hash k < 2 ^ 64)%N -> forall n before st t k l st' (y : obj K V),
  run hash (init n) before = Some st -> called st t k -> run hash st l = Some st' -> answered st' t k (Some y) ->
  okey y = k /\ at_some hash st l (fun s => stored s y).
Proof. intros H64 n before st t k l st' y. by apply answer_stored. Qed.
Lemma lC17_only_entry (hash : K -> N) : (forall k, hash k < 2 ^ 64)%N -> forall n before st t (x : obj K V) l st' r,
  run hash (init n) before = Some st -> called st t (okey x) -> run hash st l = Some st' ->
  during hash st l (fun s => settled s x /\ forall y, stored s y -> okey y = okey x -> y = x) -> answered st' t (okey x) r -> r = Some x.
Proof.
  intros H64 n before st t x l st' r R0 C R D A. destruct (stable_found hash H64 n before st t x l st' r R0 C R) as (y & -> & Ky & p & q & s & E & Rp & Sy); [|done|].
  - intros p q s E Rp. by destruct (D p q s E Rp).
  - destruct (D p q s E Rp) as [_ U]. by rewrite (U y).
Qed.
Lemma lC17_absent (hash : K -> N) : (forall k, hash k < 2 ^ 64)%N -> forall n before st t k l st' (r : option (obj K V)),
  run hash (init n) before = Some st -> called st t k -> run hash st l = Some st' ->
  during hash st l (fun s => forall y, stored s y -> okey y <> k) -> answered st' t k r -> r = None.
Proof.
  intros H64 n before st t k l st' r R0 C R D A. destruct r as [y|]; [|done]. exfalso.
  destruct (answer_stored hash H64 n before st t k l st' y R0 C R A) as (Ky & p & q & s & E & Rp & Sy). by apply (D p q s E Rp y).
Qed.
Lemma lC19_guarded_slot (hash : K -> N) : (forall k, hash k < 2 ^ 64)%N -> forall m before st t a i n j (x : obj K V) ar b nd l st',
  run hash (init m) before = Some st -> mem st !! a = Some ar -> bks ar !! i = Some b -> nodes b !! n = Some nd ->
  N.testbit (occ nd) (N.of_nat j) = true -> N.testbit (rem nd) (N.of_nat j) = false -> data nd !! j = Some (Some x) ->
  run hash st l = Some st' -> during hash st l (guarded t) -> contains st' a i n j x.
Proof. intros H64 m before st t a i n j x ar b nd l st' R0 Ea Eb En O Re Da R D. by eapply (guard_keeps hash m before). Qed.
Lemma lC51_reads_go_on (hash : K -> N) : (forall k, hash k < 2 ^ 64)%N -> forall n acts (st : state K V) t th k p,
  run hash (init n) acts = Some st -> threads st !! t = Some th -> work th = Peek k p -> (forall r, p <> PDone r) ->
  exists st', step hash st (AStep t) = Some st'.
Proof. intros H64 n acts st t th k p. by apply read_on. Qed.
End thms.
