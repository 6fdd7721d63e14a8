(** [replace_sync] of a HashCache is an entry with a special closure. *)
From Coq Require Import NArith Lia.
From stdpp Require Import prelude list numbers.
From Verif Require Import MapSpec MapFacts BucketModel TableModel TableSpec TableFacts TableAccess TableOps MapFacts2 MapModel CacheModel CacheSpec CacheFacts CacheOps CacheRunFacts KpFacts CkModel CkSpec.

Ltac cc := cbn [mbind option_bind fst snd].
Section facts.
Context {K P V : Type} `{EqDecision K} (hash : K -> N).
Implicit Types (tb : table K (P * V)) (m : list (K * (P * V))).

Definition ckf (p : P) (vo : option V) (x : option (P * V)) : option (P * V) :=
  match x with Some (_, v0) => Some (p, v0) | None => match vo with Some v => Some (p, v) | None => None end end.
Definition ctr (o : ckop K P V) : cop K (P * V) := match o with CKDo o => o | CKReplace k p vo => CEntry k (ckf p vo) end.
Definition ctrout (o : ckop K P V) (x : cout K (P * V)) : ckout K P V :=
  match o, x with CKReplace k p _, COFound old ev => CKKey (option_map (fun pv => (k, pv.1)) old) ev | _, _ => CKOut x end.
Lemma creplace_entry sg tb k p vo : creplace_sync sg hash tb k p vo =
  (r ← centry_sync sg hash tb k (ckf p vo); Some (r.1, (option_map (fun pv => (k, pv.1)) r.2.1, r.2.2))).
Proof.
  unfold creplace_sync, centry_sync, finish. destruct (writer _ _ _ _ _) as [[tb1 l]|]; [|done]. cc.
  destruct (lock _ _) as [b|]; [|done]. cc. destruct (get_entry_ptr _ _ _ _) as [ptr|] eqn:G; [|done]. cc.
  destruct (is_valid ptr) eqn:Va.
  - destruct (get b ptr) as [[k0 [p0 v0]]|] eqn:Ge; [|done]. cc. pose proof (found _ _ _ _ _ _ G Va Ge) as Ek. cbn in Ek. subst k0.
    cbn [ckf]. unfold replace_value. rewrite Ge. cc.
    destruct (ptr_block b ptr) as [bl|]; [|done]. cc. destruct (index ptr) as [i|]; [|done]. cc. destruct (set_loc _ _ _) as [tb'|]; done.
  - cbn [ckf]. destruct vo as [v|]; [|done]. destruct (put_bucket _ _ _ _) as [q|]; [|done]. cc. by destruct (set_loc _ _ _).
Qed.
Lemma ckstep_tr sg tb o : ckstep sg hash tb o = (z ← cstep sg hash tb (ctr o); Some (z.1, ctrout o z.2)).
Proof.
  destruct o as [o|k p vo]; cbn [ckstep ctr ctrout]; [by destruct (cstep _ _ _ _)|].
  rewrite creplace_entry. cbn [cstep]. by destruct (centry_sync _ _ _ _ _) as [[? [? ?]]|].
Qed.
Lemma ckrun_tr sg os : forall tb, ckrun sg hash tb os = (z ← crun sg hash tb (map ctr os); Some (z.1, zip_with ctrout os z.2)).
Proof.
  induction os as [|o os IH]; intros tb; [done|]. cbn [ckrun crun map]. rewrite ckstep_tr. destruct (cstep _ _ _ _) as [[tb1 x]|]; [|done]. cc.
  rewrite IH. by destruct (crun _ _ _ _) as [[tb2 xs]|].
Qed.
Lemma ckafter_tr sg mn mx os o : ckafter sg hash mn mx os o = option_map (ctrout o) (cafter sg hash mn mx (map ctr os) (ctr o)).
Proof.
  unfold ckafter, cafter, run_ck, run_cache. destruct (new_cache mn mx) as [tb|]; [|done]. cc. rewrite ckrun_tr.
  destruct (crun _ _ _ _) as [[tb1 xs]|]; [|done]. cc. rewrite ckstep_tr. by destruct (cstep _ _ _ _) as [[]|].
Qed.
Lemma cklook_tr sg mn mx os k : cklook sg hash mn mx os k = look sg hash mn mx (map ctr os) k.
Proof. unfold cklook, look. rewrite ckafter_tr. cbn [ctr ctrout]. by destruct (cafter _ _ _ _ _ _). Qed.

Context (Hh : forall k, (hash k < 2 ^ 64)%N).
Lemma assoc_del k k' m : assoc k (del k' m) = if decide (k = k') then None else assoc k m.
Proof. destruct (decide (k = k')) as [->|]; [apply assoc_del_eq|by apply assoc_del_ne]. Qed.
Lemma assoc_in k v m : assoc k m = Some v -> (k, v) ∈ m.
Proof. induction m as [|[k1 v1] m IH]; cbn; [done|]. destruct (decide _) as [->|]; [intros [= ->]; left|right; by apply IH]. Qed.
(** A history and one more step, on contents. *)
Lemma one_more sg mn mx (os : list (cop K (P * V))) o : exists m out,
  cafter sg hash mn mx os o = Some out /\ allowed m o out /\ NoDup m.*1 /\
  (forall k, look sg hash mn mx os k = assoc k m) /\ (forall k, look sg hash mn mx (os ++ [o]) k = assoc k (next m o out)).
Proof.
  destruct (run_cache_spec hash Hh sg mn mx os) as (tb & outs & E & _ & H & _). set (m := contents [] os outs) in *.
  destruct (cstep_spec hash Hh sg tb m _ o H) as (tb' & out & E' & A & H' & _). exists m, out.
  split; [unfold cafter; rewrite E; cc; rewrite E'; done|]. split; [done|].
  split; [apply (wf_nodup hash CACHE tb); [apply (hd_wf _ _ _ _ _ H)|apply (hd_ents _ _ _ _ _ H)]|].
  split; intros k; [by eapply look_spec|]. eapply look_spec; [done| |exact H'].
  unfold run_cache in *. destruct (new_cache mn mx) as [t0|]; [|done]. cbn [mbind option_bind] in *. rewrite crun_app, E. cc. cbn [crun]. rewrite E'. done.
Qed.
Lemma ck_replace sg mn mx (os : list (ckop K P V)) k p vo p0 v0 : cklook sg hash mn mx os k = Some (p0, v0) ->
  ckafter sg hash mn mx os (CKReplace k p vo) = Some (CKKey (Some (k, p0)) None) /\
  cklook sg hash mn mx (os ++ [CKReplace k p vo]) k = Some (p, v0) /\
  forall k', k' <> k -> cklook sg hash mn mx (os ++ [CKReplace k p vo]) k' = cklook sg hash mn mx os k'.
Proof.
  rewrite cklook_tr, ckafter_tr. intros L. destruct (one_more sg mn mx (map ctr os) (ctr (CKReplace k p vo))) as (m & out & C & A & ND & L1 & L2).
  rewrite L1 in L. rewrite C. cbn [ctr allowed next ctrout] in *. destruct A as (ev & -> & Ev). rewrite L in *.
  assert (ev = None) as -> by (destruct ev as [x|]; [by destruct (Ev x eq_refl) as (_ & ? & _)|done]).
  split; [done|]. cbn [ckf] in L2. split.
  - rewrite cklook_tr, map_app. cbn [map ctr]. rewrite L2. erewrite assoc_upd by done. by rewrite decide_True.
  - intros k' D. rewrite !cklook_tr, map_app. cbn [map ctr]. rewrite L2, L1. erewrite assoc_upd by done. by rewrite decide_False.
Qed.
Lemma ck_vacant sg mn mx (os : list (ckop K P V)) k p vo : cklook sg hash mn mx os k = None ->
  (exists ev, ckafter sg hash mn mx os (CKReplace k p vo) = Some (CKKey None ev) /\ (vo = None -> ev = None) /\
    forall k', k' <> k -> cklook sg hash mn mx (os ++ [CKReplace k p vo]) k' =
      match ev with Some x => if decide (k' = x.1) then None else cklook sg hash mn mx os k' | None => cklook sg hash mn mx os k' end) /\
  cklook sg hash mn mx (os ++ [CKReplace k p vo]) k = option_map (pair p) vo.
Proof.
  rewrite cklook_tr, ckafter_tr. intros L. destruct (one_more sg mn mx (map ctr os) (ctr (CKReplace k p vo))) as (m & out & C & A & ND & L1 & L2).
  rewrite L1 in L. rewrite C. cbn [ctr allowed next ctrout] in *. destruct A as (ev & -> & Ev). rewrite L in *. cbn [ckf] in *. split.
  - exists ev. split; [done|].
    assert (Nv : vo = None -> ev = None) by (intros ->; destruct ev as [x|]; [by destruct (Ev x eq_refl) as (_ & _ & ?)|done]).
    split; [done|]. intros k' D. rewrite !cklook_tr, map_app. cbn [map ctr]. rewrite L2, L1. destruct vo as [v|]; [|by rewrite Nv].
    cbn [assoc]. rewrite decide_False by done. destruct ev as [x|]; [|done]. cbn [without]. apply assoc_del.
  - rewrite cklook_tr, map_app. cbn [map ctr]. rewrite L2. destruct vo as [v|]; [|done]. cbn [assoc]. by rewrite decide_True.
Qed.
Lemma ck_kept sg mn mx (os : list (ckop K P V)) o k p0 v0 p1 v1 : values_only o ->
  cklook sg hash mn mx os k = Some (p0, v0) -> cklook sg hash mn mx (os ++ [o]) k = Some (p1, v1) -> p1 = p0.
Proof.
  intros Vo. rewrite !cklook_tr, map_app. cbn [map]. destruct (one_more sg mn mx (map ctr os) (ctr o)) as (m & out & C & A & ND & L1 & L2).
  rewrite L1, L2. clear L1 L2 C. intros L. destruct o as [o|]; [|done]. cbn [ctr] in *.
  assert (D : forall y, assoc k (del y m) = Some (p1, v1) -> p1 = p0).
  { intros y. rewrite assoc_del. destruct (decide _); [done|]. rewrite L. by intros [= <- <-]. }
  assert (U : forall y w old, assoc y m = Some old -> w.1 = old.1 -> assoc k (upd y w m) = Some (p1, v1) -> p1 = p0).
  { intros y w old Ay Ew. erewrite assoc_upd by done. destruct (decide (k = y)) as [->|]; [|rewrite L; by intros [= <- <-]].
    rewrite L in Ay. injection Ay as <-. cbn in Ew. intros [= ->]. done. }
  destruct o as [y w|y f|y f|y c|y| | | | |g| ]; cbn [next allowed values_only] in *; try (rewrite L; by intros [= <- <-]).
  - destruct (assoc y m) eqn:Ay; [subst out; rewrite L; by intros [= <- <-]|]. destruct A as (ev & -> & _). cbn [assoc].
    destruct (decide (k = y)) as [->|]; [congruence|]. destruct ev as [x|]; [apply D|cbn [without]; rewrite L; by intros [= <- <-]].
  - destruct (assoc y m) as [old|] eqn:Ay; [|rewrite L; by intros [= <- <-]]. destruct (f old) as [w|] eqn:Ef; [|apply D]. cbn [assoc].
    destruct (decide (k = y)) as [->|]; [|apply D]. intros [= ->]. apply Vo in Ef. rewrite L in Ay. injection Ay as <-. done.
  - destruct (assoc y m) as [old|] eqn:Ay.
    + destruct (f (Some old)) as [w|] eqn:Ef; [|apply D]. apply (U y w old Ay). by apply Vo.
    + destruct (f None) as [w|]; [|rewrite L; by intros [= <- <-]]. destruct A as (ev & -> & _). cbn [assoc].
      destruct (decide (k = y)) as [->|]; [congruence|]. destruct ev as [x|]; [apply D|cbn [without]; rewrite L; by intros [= <- <-]].
  - destruct (assoc y m) as [old|] eqn:Ay; [|rewrite L; by intros [= <- <-]]. destruct (c old).2; [apply D|]. by apply (U y _ old Ay).
  - intros Ak. apply assoc_in in Ak. apply elem_of_list_In, in_map_iff in Ak as ([k' pv] & [= -> Eq] & M). apply elem_of_list_In, elem_of_list_filter in M as [_ M].
    apply (assoc_Some _ _ _ ND) in M. assert (pv = (p0, v0)) as -> by congruence. specialize (Vo (k, (p0, v0))). cbn in Vo. rewrite Eq in Vo. done.
  - done.
Qed.
End facts.
