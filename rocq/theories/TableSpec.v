(** Vocabulary for statements about a hash table: the entries it holds and when its arrays are
    consistent. *)
From Coq Require Import NArith.
From stdpp Require Import prelude list numbers.
From Verif Require CapModel CapSpec CapFacts.
From Verif Require Import BucketModel BucketSpec TableModel.
Local Open Scope N_scope.

Section table_spec.
Context {K V : Type} `{EqDecision K}.
Implicit Types (a c o : barray K V) (x : cell K V) (tb : table K V).

(** Reachable entries, and initialised slots, of a bucket, an array and the table. *)
Definition aents (t : kind) a : list (K * V) := concat (map (fun x => entries t (bkt x)) (bks a)).
Definition astored a : list (K * V) := concat (map (fun x => stored (bkt x)) (bks a)).
Definition oents (t : kind) (a : option (barray K V)) : list (K * V) :=
  match a with Some a => aents t a | None => [] end.
Definition ostored (a : option (barray K V)) : list (K * V) :=
  match a with Some a => astored a | None => [] end.
Definition tents (t : kind) tb : list (K * V) := oents t (old tb) ++ oents t (cur tb).
Definition tstored tb : list (K * V) :=
  ostored (old tb) ++ ostored (cur tb) ++ concat (map astored (garbage tb)).

(** A bucket that has not been killed is consistent; a killed one has no reachable entry. *)
Record wf_cell (hash : K -> N) (t : kind) x : Prop := WfCell {
  wc_core : wf_core hash t (bkt x);
  wc_dead : dead x = true -> entries t (bkt x) = [];
  wc_live : dead x = false -> wf_lru t (bkt x) }.
(** An array of a possible size whose entries are in the bucket their hash selects. *)
Record wf_array (hash : K -> N) (t : kind) a : Prop := WfArray {
  wa_table : CapSpec.table (sz a);
  wa_len : length (bks a) = N.to_nat (alen a);
  wa_cells : forall i x, bks a !! i = Some x -> wf_cell hash t x;
  wa_place : forall i x e, bks a !! i = Some x -> e ∈ entries t (bkt x) ->
             CapModel.bucket_index (sz a) (hash e.1) = N.of_nat i }.
(** The current and the old array: no current bucket is killed.  In a HashCache, an entry of the
    current array does not belong to an old bucket that is still in use; in the other containers a
    relocation that was unwound can leave such an entry (TuModel.v). *)
Record wf_pair (hash : K -> N) (t : kind) c o : Prop := WfPair {
  wp_cur : wf_array hash t c;
  wp_old : wf_array hash t o;
  wp_alive : forall i x, bks c !! i = Some x -> dead x = false;
  wp_sep : t = CACHE -> forall i x e, bks o !! i = Some x -> dead x = false -> e ∈ aents t c ->
           CapModel.bucket_index (sz o) (hash e.1) <> N.of_nat i }.
(** Progress of the relocation: the range handed out so far has been emptied. *)
Record wf_rehash (o : barray K V) : Prop := WfRehash {
  wr_round : exists m, cleared o = 32 * m;
  wr_lt : cleared o < alen o;
  wr_dead : forall i x, N.of_nat i < cleared o -> bks o !! i = Some x -> dead x = true }.
(** The reservation word, one thread: no resize in progress. *)
Record wf_min tb : Prop := WfMin {
  wm_idle : CapModel.resizing (mst tb) = false;
  wm_word : exists m0, CapFacts.min_inv m0 (maxcap tb) (mst tb);
  wm_pow : CapSpec.power_of_two (maxcap tb);
  wm_lim : 64 <= maxcap tb <= 2 ^ 62 }.
Record wf_table (hash : K -> N) (t : kind) tb : Prop := WfTable {
  wt_arrays : match cur tb, old tb with
              | None, None => True
              | Some c, None =>
                  wf_array hash t c /\ (forall i x, bks c !! i = Some x -> dead x = false) /\ cleared c = 0
              | Some c, Some o => wf_pair hash t c o /\ wf_rehash o /\ cleared c = 0
              | None, Some _ => False
              end;
  wt_size : forall c, cur tb = Some c -> CapModel.num_slots (sz c) <= maxcap tb;
  wt_osize : forall o, old tb = Some o -> CapModel.num_slots (sz o) <= maxcap tb;
  wt_garbage : Forall (wf_array hash t) (garbage tb);
  wt_keys : NoDup (tents t tb).*1;
  wt_min : wf_min tb }.
End table_spec.
