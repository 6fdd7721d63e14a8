(** Glue for C12. *)
From Coq Require Import NArith Lia.
From stdpp Require Import numbers prelude list.
From Verif Require CapModel.
From Verif Require Import BucketModel BucketSpec MapSpec MapFacts TableModel TableSpec TableFacts TableHouse TableOps IterSpec TableIter
  MapModel MapRef MapFacts2 MapRunFacts MapWhole MapThms CursorModel CursorSpec CursorFacts.

Section thms.
Context {K V : Type} `{EqDecision K}.
Context (hash : K -> N).
Context (Hh : forall k, (hash k < 2 ^ 64)%N).

Lemma lC12_cursor_covers_partial sg cap (os : list (mop K V)) : exists tb outs, run_map sg hash cap os = Some (tb, outs) /\
  forall S (keep : S -> K * V -> S * bool) s n, exists tb' vs rs fin rest,
    walk_map n sg hash keep s tb = Some (tb', vs, rs, fin) /\
    rs = decide_all keep s vs /\ NoDup (rs ++ rest).*1 /\
    (forall k v, (k, v) ∈ rs ++ rest <-> after sg hash cap os (MRead k) = Some (OEntry (Some (k, v)))) /\
    (forall e, e ∈ vs -> e ∈ rs ++ rest) /\
    (fin = true -> forall e, e ∈ rs ++ rest -> e ∈ vs) /\
    behaves_as sg hash tb' rest.
Proof.
  destruct (run_map_spec hash Hh sg cap os) as (tb & outs & E & _ & H). exists tb, outs. split; [done|].
  intros S keep s n. pose proof (hd_ents _ _ _ _ _ H) as P. fold (final os) in P.
  destruct (walk_map_spec hash Hh sg keep n s tb _ (hd_wf _ _ _ _ _ H) P) as (tb' & vs & rs & fin & rest & E' & Dd & Pm & St & In1 & Al).
  exists tb', vs, rs, fin, rest. split; [done|]. split; [done|].
  assert (ND : NoDup (rs ++ rest).*1) by (rewrite <- Pm; apply (final_nodup os)). split; [done|].
  split; [intros k v; rewrite (readable hash Hh); by rewrite Pm|].
  split; [intros e He; rewrite <- Pm; by apply In1|].
  split; [intros F e He; apply Al; [done|by rewrite Pm]|].
  apply (holds_behaves hash Hh sg tb' rest rest ((rrun [] os).2 ++ [])); [by apply (holds_step0 hash MAP tb _ (final os))| |done].
  rewrite fmap_app in ND. by apply NoDup_app in ND as (_ & _ & ND).
Qed.

Lemma lC12_cursor_no_removal sg cap (os : list (mop K V)) : exists tb outs, run_map sg hash cap os = Some (tb, outs) /\
  forall S (keep : S -> K * V -> S * bool) s, (forall s e, (keep s e).2 = true) ->
  exists N0, forall n, (N0 <= n)%nat -> exists tb' vs,
    walk_map n sg hash keep s tb = Some (tb', vs, [], true) /\
    NoDup vs.*1 /\
    (forall k v, (k, v) ∈ vs <-> after sg hash cap os (MRead k) = Some (OEntry (Some (k, v)))) /\
    behaves_as sg hash tb' vs.
Proof.
  destruct (run_map_spec hash Hh sg cap os) as (tb & outs & E & _ & H). exists tb, outs. split; [done|].
  intros S keep s Kp. pose proof (hd_ents _ _ _ _ _ H) as P. fold (final os) in P.
  exists (Datatypes.S (length (final os))). intros n Hn.
  destruct (walk_map_keep_spec hash Hh sg keep n s tb _ Kp (hd_wf _ _ _ _ _ H) P) as (tb' & vs & E' & St & Pm); [lia|].
  exists tb', vs. split; [done|]. assert (ND : NoDup vs.*1) by (rewrite Pm; apply final_nodup). split; [done|].
  split; [intros k v; rewrite (readable hash Hh); by rewrite Pm|].
  apply (holds_behaves hash Hh sg tb' vs vs ((rrun [] os).2 ++ [])); [|done|done].
  eapply holds_perm; [by apply (holds_step0 hash MAP tb _ (final os))|by symmetry|done].
Qed.
End thms.

Local Open Scope N_scope.
(** 256 slots; sparse but for one bucket; the reservation that made it large is gone. *)
Definition w_key (b j : N) : N := b * 2 ^ 61 + j.
Definition w_hash (k : N) : N := k mod 2 ^ 64.
Definition w_ops : list (mop N N) :=
  MReserve 200 :: map (fun j => MInsert (w_key 1 (N.of_nat j)) 0) (seq 0 20) ++
  [MInsert (w_key 4 0) 40; MInsert (w_key 5 0) 50; MInsert (w_key 6 0) 60; MUnreserve 0].
Definition w_keep (s : unit) (e : N * N) : unit * bool := (s, negb (e.2 =? 50)).
Lemma lC12_cursor_exactly_once_refuted : exists (hash : N -> N) sg cap (os : list (mop N N)) (keep : unit -> N * N -> unit * bool) tb outs n tb' vs rs,
  (forall k, hash k < 2 ^ 64) /\ run_map sg hash cap os = Some (tb, outs) /\
  walk_map n sg hash keep tt tb = Some (tb', vs, rs, true) /\ length rs = 1%nat /\
  exists e, keep tt e = (tt, true) /\ exists a b c, vs = a ++ [e] ++ b ++ [e] ++ c.
Proof.
  destruct (run_map (fun _ => false) w_hash 0 w_ops) as [[tb outs]|] eqn:E; [|exfalso; revert E; vm_compute; congruence].
  destruct (walk_map 100 (fun _ => false) w_hash w_keep tt tb) as [[[[tb' vs] rs] fin]|] eqn:E2.
  2:{ exfalso. assert (X : (r ← run_map (fun _ => false) w_hash 0 w_ops; walk_map 100 (fun _ => false) w_hash w_keep tt r.1) = None) by (rewrite E; exact E2).
      revert X. vm_compute. congruence. }
  assert (X : (r ← run_map (fun _ => false) w_hash 0 w_ops; w ← walk_map 100 (fun _ => false) w_hash w_keep tt r.1;
     Some (w.1.1.2, w.1.2, w.2)) = Some (vs, rs, fin)).
  { rewrite E. cbn [mbind option_bind fst]. rewrite E2. reflexivity. }
  assert (Y : (r ← run_map (fun _ => false) w_hash 0 w_ops; w ← walk_map 100 (fun _ => false) w_hash w_keep tt r.1;
     Some (w.1.1.2, w.1.2, w.2)) =
     Some (map (fun j => (w_key 1 (N.of_nat j), 0)) (seq 0 20) ++ [(w_key 4 0, 40)] ++ [(w_key 5 0, 50)] ++ [(w_key 4 0, 40)] ++ [(w_key 6 0, 60)],
           [(w_key 5 0, 50)], true)) by (vm_compute; reflexivity).
  rewrite X in Y. injection Y as -> -> ->.
  exists w_hash, (fun _ => false), 0, w_ops, w_keep, tb, outs, 100%nat, tb'. eexists _, _.
  split; [intros; by apply N.mod_lt|]. split; [exact E|]. split; [exact E2|]. split; [reflexivity|].
  exists (w_key 4 0, 40). split; [reflexivity|]. exists (map (fun j => (w_key 1 (N.of_nat j), 0)) (seq 0 20)), [(w_key 5 0, 50)], [(w_key 6 0, 60)]. reflexivity.
Qed.
