(** HashMap and HashSet with keys that are equal but can be told apart, one thread: C63. *)
From Coq Require Import NArith.
From stdpp Require Import prelude list numbers.
From Verif Require Import TableModel MapModel KpModel KpSpec KpFacts.
Local Open Scope N_scope.

(** For the examples: a history that makes the table grow and stops in the middle of a relocation. *)
Definition kp_hash (k : N) : N := (k * 11400714819323198485) mod 2 ^ 64.
Definition kp_sg : N -> bool := fun _ => false.
Definition kp_adds (n : nat) : list (kop N N N) := map (fun k => KInsert (N.of_nat k) 1 (N.of_nat k + 1000)) (seq 0 n).
Definition kp_ops : list (kop N N N) :=
  kp_adds 90 ++ [KInsert 3 2 7; KUpsert 4 2 7; KReplace 5 2 (Some 7); KReplace 200 2 (Some 7); KReplace 201 2 None;
    KEntry 6 2 (fun _ => Some 7); KEntry 7 2 (fun _ => None); KUpdate 8 (fun e v => (v + e.2, v)); KRemoveIf 5 (fun v => (v, true)); KReserve 4000].
Definition kp_arrays (os : list (kop N N N)) : option (N * option N) :=
  option_map (fun r => (capacity r.1, option_map (fun o => N.of_nat (length (bks o))) (old r.1))) (run_kp kp_sg kp_hash 2048 os).
Example kp_hash_64 : forall k, kp_hash k < 2 ^ 64.
Proof. intros. by apply N.mod_lt. Qed.

(** ** C63 *)
Theorem C63_equal_keys {K P V : Type} `{EqDecision K} : forall (hash : K -> N), (forall k, hash k < 2 ^ 64) ->
  forall sg cap (os : list (kop K P V)), exists tb outs,
  run_kp sg hash cap os = Some (tb, outs) /\ Forall2 kout_eq outs (ideals [] os).2.
Proof. exact kp_run. Qed.
Example C63_equal_keys_example : kp_arrays kp_ops = Some (8192, Some 64) /\
  option_map (fun r => drop 90 r.2) (run_kp kp_sg kp_hash 2048 kp_ops) =
    Some [RPair (Some (3, 2, 7)); RValue (Some 1004); RKey (Some (5, 1)); RKey None; RKey None;
          RValue (Some 1006); RValue (Some 1007); RValue (Some 1008); RPair (Some (5, 2, 1005)); RUnit] /\
  map (fun k => kafter kp_sg kp_hash 2048 kp_ops (KRead k)) [3; 4; 5; 6; 7; 8; 200; 201] =
    map (fun x => Some (RPair x)) [Some (3, 1, 1003); Some (4, 1, 7); None; Some (6, 1, 7); None; Some (8, 1, 1009); Some (200, 2, 7); None].
Proof. vm_compute. split; [reflexivity|]. split; reflexivity. Qed.
Print Assumptions C63_equal_keys.

Theorem C63_replace_exchanges_the_key {K P V : Type} `{EqDecision K} : forall (hash : K -> N), (forall k, hash k < 2 ^ 64) ->
  forall sg cap (os : list (kop K P V)) k p vo p0 v0,
  kafter sg hash cap os (KRead k) = Some (RPair (Some (k, p0, v0))) ->
  kafter sg hash cap os (KReplace k p vo) = Some (RKey (Some (k, p0))) /\
  kafter sg hash cap (os ++ [KReplace k p vo]) (KRead k) = Some (RPair (Some (k, p, v0))) /\
  forall k', k' <> k -> kafter sg hash cap (os ++ [KReplace k p vo]) (KRead k') = kafter sg hash cap os (KRead k').
Proof. exact kp_replace. Qed.
Example C63_replace_exchanges_the_key_example :
  kafter kp_sg kp_hash 2048 kp_ops (KRead 9) = Some (RPair (Some (9, 1, 1009))) /\
  kafter kp_sg kp_hash 2048 (kp_ops ++ [KReplace 9 5 (Some 0)]) (KRead 9) = Some (RPair (Some (9, 5, 1009))).
Proof. vm_compute. split; reflexivity. Qed.
Print Assumptions C63_replace_exchanges_the_key.

Theorem C63_others_keep_the_key {K P V : Type} `{EqDecision K} : forall (hash : K -> N), (forall k, hash k < 2 ^ 64) ->
  forall sg cap (os : list (kop K P V)) o k p0 v0 p1 v1,
  (forall k p vo, o <> KReplace k p vo) ->
  kafter sg hash cap os (KRead k) = Some (RPair (Some (k, p0, v0))) ->
  kafter sg hash cap (os ++ [o]) (KRead k) = Some (RPair (Some (k, p1, v1))) -> p1 = p0.
Proof. exact kp_kept. Qed.
Example C63_others_keep_the_key_example :
  kafter kp_sg kp_hash 2048 kp_ops (KRead 9) = Some (RPair (Some (9, 1, 1009))) /\
  kafter kp_sg kp_hash 2048 (kp_ops ++ [KUpsert 9 5 3]) (KRead 9) = Some (RPair (Some (9, 1, 3))) /\
  forall k p vo, KUpsert 9 5 3 <> KReplace (K := N) (P := N) (V := N) k p vo.
Proof. split; [vm_compute; reflexivity|]. split; [vm_compute; reflexivity|done]. Qed.
Print Assumptions C63_others_keep_the_key.
