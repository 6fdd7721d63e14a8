(** HashMap cursor iteration, one thread: C12. *)
From Coq Require Import NArith.
From stdpp Require Import prelude list numbers.
From Verif Require Import BucketModel BucketSpec MapSpec TableModel MapModel MapRef CursorModel CursorSpec CursorThms.
From Verif Require MapProps.
Local Open Scope N_scope.

(** ** C12 *)
(** Full statement: the entries seen by [begin_sync], [next_sync] and [remove_and_sync] are the entries
    present at the beginning, each exactly once.  It fails: an entry the caller kept is seen again. *)
Theorem C12_cursor_exactly_once_refuted :
  exists (hash : N -> N) sg cap (os : list (mop N N)) (keep : unit -> N * N -> unit * bool) tb outs n tb' vs rs,
  (forall k, hash k < 2 ^ 64) /\ run_map sg hash cap os = Some (tb, outs) /\
  walk_map n sg hash keep tt tb = Some (tb', vs, rs, true) /\ length rs = 1%nat /\
  exists e, keep tt e = (tt, true) /\ exists a b c, vs = a ++ [e] ++ b ++ [e] ++ c.
Proof. exact lC12_cursor_exactly_once_refuted. Qed.
Print Assumptions C12_cursor_exactly_once_refuted.

(** Missing from the full statement: kept entries may be seen more than once, and reaching the end in
    finitely many steps is not shown when entries are removed on the way. *)
Theorem C12_cursor_covers_partial {K V : Type} `{EqDecision K} : forall (hash : K -> N), (forall k, hash k < 2 ^ 64) ->
  forall sg cap (os : list (mop K V)), exists tb outs, run_map sg hash cap os = Some (tb, outs) /\
  forall S (keep : S -> K * V -> S * bool) s n, exists tb' vs rs fin rest,
    walk_map n sg hash keep s tb = Some (tb', vs, rs, fin) /\
    rs = decide_all keep s vs /\ NoDup (rs ++ rest).*1 /\
    (forall k v, (k, v) ∈ rs ++ rest <-> after sg hash cap os (MRead k) = Some (OEntry (Some (k, v)))) /\
    (forall e, e ∈ vs -> e ∈ rs ++ rest) /\
    (fin = true -> forall e, e ∈ rs ++ rest -> e ∈ vs) /\
    behaves_as sg hash tb' rest.
Proof. exact lC12_cursor_covers_partial. Qed.
Example C12_cursor_covers_example :
  (tb ← run_map MapProps.oc MapProps.spread 2048 MapProps.ops;
   w ← walk_map 1000 MapProps.oc MapProps.spread (fun s e => (s + 1, N.even e.1)) 0 tb.1;
   n ← len MAP MapProps.oc MapProps.spread w.1.1.1;
   Some (length w.1.1.2, length w.1.2, w.2, n.2)) = Some (149%nat, 74%nat, true, 75).
Proof. vm_compute. reflexivity. Qed.
Print Assumptions C12_cursor_covers_partial.

Theorem C12_cursor_no_removal {K V : Type} `{EqDecision K} : forall (hash : K -> N), (forall k, hash k < 2 ^ 64) ->
  forall sg cap (os : list (mop K V)), exists tb outs, run_map sg hash cap os = Some (tb, outs) /\
  forall S (keep : S -> K * V -> S * bool) s, (forall s e, (keep s e).2 = true) ->
  exists N0, forall n, (N0 <= n)%nat -> exists tb' vs,
    walk_map n sg hash keep s tb = Some (tb', vs, [], true) /\
    NoDup vs.*1 /\
    (forall k v, (k, v) ∈ vs <-> after sg hash cap os (MRead k) = Some (OEntry (Some (k, v)))) /\
    behaves_as sg hash tb' vs.
Proof. exact lC12_cursor_no_removal. Qed.
Example C12_cursor_no_removal_example :
  (tb ← run_map MapProps.oc MapProps.spread 2048 MapProps.ops;
   w ← walk_map 1000 MapProps.oc MapProps.spread (fun s e => (s + 1, true)) 0 tb.1;
   Some (length w.1.1.2, length w.1.2, w.2)) = Some (149%nat, 0%nat, true).
Proof. vm_compute. reflexivity. Qed.
Print Assumptions C12_cursor_no_removal.
