(** HashCache with keys that are equal but can be told apart, one thread: C63. *)
From Coq Require Import NArith.
From stdpp Require Import prelude list numbers.
From Verif Require Import CacheModel CkModel CkSpec CkFacts.
Local Open Scope N_scope.

(** For the examples: the keys below 100 share a bucket, which is full and has evicted once. *)
Definition ck_hash (k : N) : N := if k <? 100 then (2 * k) mod 2 ^ 64 else (2 ^ 63 + 2 * k) mod 2 ^ 64.
Definition ck_sg : N -> bool := fun _ => false.
Definition ck_ops : list (ckop N N N) :=
  map (fun k => CKDo (CPut (N.of_nat k) (1, N.of_nat k + 1000))) (seq 0 33) ++ [CKReplace 5 2 None].
Example ck_hash_64 : forall k, ck_hash k < 2 ^ 64.
Proof. intros. unfold ck_hash. destruct (k <? 100); by apply N.mod_lt. Qed.

(** ** [replace_sync] on a present key exchanges the key and nothing else. *)
Theorem C63_cache_replace_exchanges_the_key {K P V : Type} `{EqDecision K} : forall (hash : K -> N), (forall k, hash k < 2 ^ 64) ->
  forall sg mn mx (os : list (ckop K P V)) k p vo p0 v0, cklook sg hash mn mx os k = Some (p0, v0) ->
  ckafter sg hash mn mx os (CKReplace k p vo) = Some (CKKey (Some (k, p0)) None) /\
  cklook sg hash mn mx (os ++ [CKReplace k p vo]) k = Some (p, v0) /\
  forall k', k' <> k -> cklook sg hash mn mx (os ++ [CKReplace k p vo]) k' = cklook sg hash mn mx os k'.
Proof. exact ck_replace. Qed.
Example C63_cache_replace_example : cklook ck_sg ck_hash 64 10 ck_ops 5 = Some (2, 1005) /\
  ckafter ck_sg ck_hash 64 10 ck_ops (CKReplace 5 3 (Some 0)) = Some (CKKey (Some (5, 2)) None) /\
  cklook ck_sg ck_hash 64 10 (ck_ops ++ [CKReplace 5 3 (Some 0)]) 5 = Some (3, 1005).
Proof. vm_compute. split; [reflexivity|]. split; reflexivity. Qed.
Print Assumptions C63_cache_replace_exchanges_the_key.

(** ** On an absent key it returns nothing; the vacant entry may be filled, which may evict one entry. *)
Theorem C63_cache_replace_vacant {K P V : Type} `{EqDecision K} : forall (hash : K -> N), (forall k, hash k < 2 ^ 64) ->
  forall sg mn mx (os : list (ckop K P V)) k p vo, cklook sg hash mn mx os k = None ->
  (exists ev, ckafter sg hash mn mx os (CKReplace k p vo) = Some (CKKey None ev) /\ (vo = None -> ev = None) /\
    forall k', k' <> k -> cklook sg hash mn mx (os ++ [CKReplace k p vo]) k' =
      match ev with Some x => if decide (k' = x.1) then None else cklook sg hash mn mx os k' | None => cklook sg hash mn mx os k' end) /\
  cklook sg hash mn mx (os ++ [CKReplace k p vo]) k = option_map (pair p) vo.
Proof. exact ck_vacant. Qed.
Example C63_cache_replace_vacant_example : cklook ck_sg ck_hash 64 10 ck_ops 0 = None /\
  ckafter ck_sg ck_hash 64 10 ck_ops (CKReplace 0 3 (Some 7)) = Some (CKKey None (Some (1, (1, 1001)))) /\
  cklook ck_sg ck_hash 64 10 (ck_ops ++ [CKReplace 0 3 (Some 7)]) 0 = Some (3, 7).
Proof. vm_compute. split; [reflexivity|]. split; reflexivity. Qed.
Print Assumptions C63_cache_replace_vacant.

(** ** The others leave the key of an entry as it was. *)
Theorem C63_cache_others_keep_the_key {K P V : Type} `{EqDecision K} : forall (hash : K -> N), (forall k, hash k < 2 ^ 64) ->
  forall sg mn mx (os : list (ckop K P V)) o k p0 v0 p1 v1, values_only o ->
  cklook sg hash mn mx os k = Some (p0, v0) -> cklook sg hash mn mx (os ++ [o]) k = Some (p1, v1) -> p1 = p0.
Proof. exact ck_kept. Qed.
Example C63_cache_others_keep_the_key_example : let o : ckop N N N := CKDo (CGet 5 (fun x => Some (x.1, 9))) in
  values_only o /\ cklook ck_sg ck_hash 64 10 ck_ops 5 = Some (2, 1005) /\ cklook ck_sg ck_hash 64 10 (ck_ops ++ [o]) 5 = Some (2, 9).
Proof. intros o. split; [by intros x y [= <-]|]. split; vm_compute; reflexivity. Qed.
Print Assumptions C63_cache_others_keep_the_key.
