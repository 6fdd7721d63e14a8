(** HashCache with keys that are equal but can be told apart, as KpModel.v: a key of the code is its class
    [k : K], on which [Hash] and [Eq] depend, and the rest [p : P]; the table has the key [k] and the value
    [(p, v)].  One thread. *)
From Coq Require Import NArith.
From stdpp Require Import prelude list numbers.
From Verif Require Import BucketModel TableModel MapModel CacheModel.
Local Open Scope N_scope.

Section ck_model.
Context {K P V : Type} `{EqDecision K}.
Implicit Types tb : table K (P * V).

(** hash_cache.rs [replace_sync] L506-533.  The [OccupiedEntry] is dropped unused; the [VacantEntry] is dropped
    unused ([vo = None]) or filled with [put_entry] L1757-1770 ([vo = Some v]).
    Result: the key that was replaced, and the evicted entry. *)
Definition creplace_sync sg hash tb (k : K) (p : P) (vo : option V)
  : option (table K (P * V) * (option (K * P) * option (K * (P * V)))) :=
  r ← writer CACHE sg hash tb (hash k);
  b ← lock r.1 r.2;
  ptr ← get_entry_ptr CACHE b k (hash k);
  if is_valid ptr then
    e ← get b ptr;
    q ← replace_value b ptr (p, e.2.2);
    tb' ← set_loc r.1 r.2 q.1;
    Some (tb', (Some (e.1, q.2.1), None))
  else
    match vo with
    | None => Some (r.1, (None, None))
    | Some v =>
      q ← put_bucket sg b (hash k) (k, (p, v));
      tb' ← set_loc r.1 r.2 q.1;
      Some (tb', (None, q.2))
    end.

(** The operations of CacheModel, and [replace_sync]. *)
Inductive ckop := CKDo (o : cop K (P * V)) | CKReplace (k : K) (p : P) (vo : option V).
Inductive ckout := CKOut (x : cout K (P * V)) | CKKey (x : option (K * P)) (evicted : option (K * (P * V))).
Definition ckstep sg hash tb (o : ckop) : option (table K (P * V) * ckout) :=
  match o with
  | CKDo o => r ← cstep sg hash tb o; Some (r.1, CKOut r.2)
  | CKReplace k p vo => r ← creplace_sync sg hash tb k p vo; Some (r.1, CKKey r.2.1 r.2.2)
  end.
Fixpoint ckrun sg hash tb (os : list ckop) : option (table K (P * V) * list ckout) :=
  match os with
  | [] => Some (tb, [])
  | o :: os' => r ← ckstep sg hash tb o; q ← ckrun sg hash r.1 os'; Some (q.1, r.2 :: q.2)
  end.
Definition run_ck sg hash (mn mx : N) (os : list ckop) : option (table K (P * V) * list ckout) :=
  tb ← new_cache mn mx; ckrun sg hash tb os.
End ck_model.
Arguments ckop : clear implicits.
Arguments ckout : clear implicits.
