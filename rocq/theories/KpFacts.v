(** A map with keys that can be told apart is a map from their classes to the rest of the key and the value. *)
From Coq Require Import NArith Lia.
From stdpp Require Import numbers prelude list.
From Verif Require Import BucketModel TableModel MapSpec MapFacts MapModel MapRef MapThms KpModel KpSpec.

Section facts.
Context {K P V : Type} `{EqDecision K}.
Implicit Types (tb : table K (P * V)) (m : list (K * (P * V))).

Definition tr (o : kop K P V) : mop K (P * V) :=
  match o with
  | KInsert k p v => MInsert k (p, v)
  | KUpsert k p v => MEntry k (fun x => match x with Some (p0, _) => Some (p0, v) | None => Some (p, v) end)
  | KReplace k p vo => MEntry k (fun x => match x with Some (_, v0) => Some (p, v0)
                                         | None => match vo with Some v => Some (p, v) | None => None end end)
  | KEntry k p f => MEntry k (fun x => match x with
                  | Some (p0, v0) => match f (Some v0) with Some v => Some (p0, v) | None => None end
                  | None => match f None with Some v => Some (p, v) | None => None end
                  end)
  | KUpdate k f => MUpdate k (fun k pv => ((pv.1, (f (k, pv.1) pv.2).1), (pv.1, (f (k, pv.1) pv.2).2)))
  | KRemoveIf k c => MRemoveIf k (fun pv => ((pv.1, (c pv.2).1), (c pv.2).2))
  | KRead k => MRead k
  | KLen => MLen
  | KScan => MScan
  | KRetain g => MRetain (fun e => ((e.2.1, (g (e.1, e.2.1) e.2.2).1), (g (e.1, e.2.1) e.2.2).2))
  | KClear => MClear
  | KReserve n => MReserve n
  end.
Definition trout (o : kop K P V) (x : mout K (P * V)) : kout K P V :=
  match x with
  | OUnit | OBool _ => RUnit
  | OEntry e => RPair (option_map inst e)
  | OValue v => match o with KReplace k _ _ => RKey (option_map (fun pv => (k, pv.1)) v) | _ => RValue (option_map snd v) end
  | OCount n => RCount n
  | OEntries l => RAll (map inst l)
  end.

(** What a search finds is there, and has the key. *)
Lemma probe_ok n (k : K) (d : list (option (K * (P * V)))) bm : forall e i, probe_loop n k d bm = Some (Some (e, i)) -> d !! i = Some (Some e) /\ e.1 = k.
Proof.
  revert bm. induction n as [|n IH]; intros bm e i H0; cbn [probe_loop] in H0; [done|]. destruct (trailing_zeros bm =? 32)%nat; [done|].
  destruct (d !! trailing_zeros bm) as [[e'|]|] eqn:E; cbn [mbind option_bind] in H0; [|done|done].
  case_decide; [|by eapply IH]. injection H0 as <- <-. done.
Qed.
Ltac cb := cbn [mbind option_bind fst snd option_map].
Lemma block_ok t (bl : block K (P * V)) k h e i : search_block t bl k h = Some (Some (e, i)) -> data bl !! i = Some (Some e) /\ e.1 = k.
Proof. apply probe_ok. Qed.
Lemma links_ok t k h (ls : list (block K (P * V))) : forall j e p, search_links t j ls k h = Some (Some (e, p)) ->
  exists j' i bl, p = EPtr (Some (j + j')%nat) (Some i) /\ ls !! j' = Some bl /\ data bl !! i = Some (Some e) /\ e.1 = k.
Proof.
  induction ls as [|l ls IH]; intros j e p; cbn [search_links]; [done|].
  destruct (search_block t l k h) as [[[e' i]|]|] eqn:E; cbn [mbind option_bind]; [| |done].
  - intros [= <- <-]. destruct (block_ok _ _ _ _ _ _ E) as [E1 E2]. exists 0%nat, i, l. rewrite Nat.add_0_r. auto.
  - intros H0. destruct (IH _ _ _ H0) as (j' & i & bl & -> & A). exists (S j'), i, bl. split; [by rewrite Nat.add_succ_r|exact A].
Qed.
Lemma found t (b : bucket K (P * V)) k h p e : get_entry_ptr t b k h = Some p -> is_valid p = true -> get b p = Some e -> e.1 = k.
Proof.
  unfold get_entry_ptr, search. destruct (blen b =? 0)%nat; [by intros [= <-]|].
  destruct (search_block t (main b) k h) as [[[e' i]|]|] eqn:E; cbn [mbind option_bind]; try done.
  - intros [= <-] _. apply block_ok in E as [E1 E2]. unfold get. cbn [ptr_block link_ptr index mbind option_bind]. rewrite E1. cbn [mbind option_bind]. congruence.
  - destruct (search_links t 0 (links b) k h) as [[[e' q]|]|] eqn:E'; cbn [mbind option_bind]; try done; [|by intros [= <-]].
    intros [= <-] _. destruct (links_ok _ _ _ _ _ _ _ E') as (j & i & bl & -> & A1 & A2 & A3). unfold get. cbn [ptr_block link_ptr index mbind option_bind Nat.add]. rewrite A1. cbn [mbind option_bind]. rewrite A2. cbn [mbind option_bind]. congruence.
Qed.

Context (hash : K -> N).
Lemma replace_entry sg tb k p vo : replace_sync sg hash tb k p vo =
  (r ← entry_sync sg hash tb k (fun x => match x with Some (_, v0) => Some (p, v0)
                                         | None => match vo with Some v => Some (p, v) | None => None end end);
   Some (r.1, option_map (fun pv => (k, pv.1)) r.2)).
Proof.
  unfold replace_sync, entry_sync. destruct (writer _ _ _ _ _) as [[tb1 l]|]; [|done]. cb.
  destruct (lock _ _) as [b|]; [|done]. cb. destruct (get_entry_ptr _ _ _ _) as [ptr|] eqn:G; [|done]. cb.
  destruct (is_valid ptr) eqn:Va.
  - destruct (get b ptr) as [[k0 [p0 v0]]|] eqn:Ge; [|done]. cb. pose proof (found _ _ _ _ _ _ G Va Ge) as Ek. cbn in Ek. subst k0.
    destruct (replace_value _ _ _) as [q|]; [|done]. cb. by destruct (set_loc _ _ _).
  - destruct vo as [v|]; [|done]. destruct (insert _ _ _ _ _) as [q|]; [|done]. cb. by destruct (set_loc _ _ _).
Qed.
Lemma kstep_tr sg tb o : kstep sg hash tb o = (z ← mstep sg hash tb (tr o); Some (z.1, trout o z.2)).
Proof.
  destruct o; cbn [kstep mstep tr].
  3: { rewrite replace_entry. by destruct (entry_sync _ _ _ _ _) as [[? ?]|]. }
  all: unfold upsert_kp, entry_kp.
  all: match goal with |- context [@mbind _ _ _ _ _ ?x] => by destruct x as [[]|] | _ => idtac end.
  cbn [fst snd]. by destruct (retain_sync _ _ _ _ _ _) as [[]|].
Qed.
Lemma krun_tr sg os : forall tb, krun sg hash tb os = (z ← mrun sg hash tb (map tr os); Some (z.1, zip_with trout os z.2)).
Proof.
  induction os as [|o os IH]; intros tb; [done|]. cbn [krun mrun map]. rewrite kstep_tr. destruct (mstep _ _ _ _) as [[tb1 x]|]; [|done]. cb.
  rewrite IH. by destruct (mrun _ _ _ _) as [[tb2 xs]|].
Qed.

(** The list of the specification is that of MapRef. *)
Lemma look_inst k m : look k (map inst m) = assoc k m.
Proof. induction m as [|[k' [p v]] m IH]; [done|]. cbn. case_decide; [done|apply IH]. Qed.
Lemma drop_inst k m : drop_key k (map inst m) = map inst (del k m).
Proof.
  induction m as [|[k' [p v]] m IH]; [done|]. unfold drop_key, del in *. cbn [map]. rewrite !filter_cons. cbn [inst fst snd].
  rewrite IH. by destruct (decide (k' <> k)).
Qed.
Lemma store_inst k p v m : store k p v (map inst m) = map inst (put k (p, v) m).
Proof. unfold store, put. by rewrite drop_inst. Qed.
Lemma ideal_inst m o : ideal (map inst m) o = (map inst (r_map (rstep m (tr o))), trout o (r_out (rstep m (tr o)))).
Proof.
  destruct o; cbn [ideal tr rstep]; rewrite ?look_inst, ?drop_inst.
  - destruct (assoc k m) as [[p0 v0]|]; cbn; by rewrite ?store_inst.
  - destruct (assoc k m) as [[p0 v0]|]; cbn; by rewrite ?store_inst.
  - destruct (assoc k m) as [[p0 v0]|]; cbn; rewrite ?store_inst; [done|]. by destruct vo; cbn; rewrite ?store_inst.
  - destruct (assoc k m) as [[p0 v0]|]; cbn; destruct (f _); cbn; by rewrite ?store_inst.
  - destruct (assoc k m) as [[p0 v0]|]; cbn; by rewrite ?store_inst.
  - destruct (assoc k m) as [[p0 v0]|]; cbn; [|done]. destruct (cond v0) as [v' []]; cbn; by rewrite ?store_inst.
  - by destruct (assoc k m) as [[p0 v0]|].
  - cbn. by rewrite map_length.
  - done.
  - cbn [r_map r_out trout]. f_equal. induction m as [|[k' [p v]] m IH]; [done|]. cbn [map]. rewrite filter_cons. cbn [omap list_omap inst fst snd].
    change (omap ?f ?l) with (omap f l) in *.
    destruct (pred (k', p) v) as [v' []] eqn:Ep; cbn [fst snd] in *.
    + destruct (decide _); [|done]. cbn [map]. f_equal; [unfold inst; cbn [fst snd]; by rewrite Ep|apply IH].
    + destruct (decide _); [done|]. apply IH.
  - done.
  - done.
Qed.
Lemma ideals_inst os : forall m, ideals (map inst m) os = (map inst (rrun m (map tr os)).1.1, zip_with trout os (rrun m (map tr os)).1.2).
Proof.
  induction os as [|o os IH]; intros m; [done|]. cbn [ideals map rrun]. rewrite ideal_inst. cbn [fst snd]. rewrite IH. done.
Qed.
Lemma trout_eq o x y : out_eq x y -> kout_eq (trout o x) (trout o y).
Proof. destruct x, y; cbn; try (intros [=]; subst; destruct o; done); try (by destruct o). apply Permutation_map. Qed.

Context (Hh : forall k, (hash k < 2 ^ 64)%N).
Lemma kp_run sg cap os : exists tb outs, run_kp sg hash cap os = Some (tb, outs) /\ Forall2 kout_eq outs (ideals [] os).2.
Proof.
  destruct (lC07_hashmap_is_a_finite_map hash Hh sg cap (map tr os)) as (tb & outs & E & F).
  unfold run_map in E. unfold run_kp. destruct (new_map cap) as [t0|]; [|done]. cbn [mbind option_bind] in *. rewrite krun_tr, E. cb.
  eexists _, _. split; [done|]. change (@nil (K * P * V)) with (map (@inst K P V) []). rewrite ideals_inst. cbn [snd].
  clear E. revert F. generalize (rrun [] (map tr os)).1.2. revert outs. induction os as [|o os IH]; intros outs outs' F; [constructor|].
  destruct F as [|x y xs ys F1 F2]; [constructor|]. cbn. constructor; [by apply trout_eq|by apply IH].
Qed.
Lemma kafter_tr sg cap os o : kafter sg hash cap os o = option_map (trout o) (after sg hash cap (map tr os) (tr o)).
Proof.
  unfold kafter, after, run_kp, run_map. destruct (new_map cap) as [t0|]; [|done]. cb. rewrite krun_tr.
  destruct (mrun _ _ _ _) as [[t1 xs]|]; [|done]. cb. rewrite kstep_tr. by destruct (mstep _ _ _ _) as [[t2 x]|].
Qed.
Definition held (os : list (kop K P V)) : list (K * (P * V)) := final (map tr os).
Lemma kafter_read sg cap os k : kafter sg hash cap os (KRead k) = Some (RPair (match assoc k (held os) with Some (p, v) => Some (k, p, v) | None => None end)).
Proof. rewrite kafter_tr. cbn [tr]. rewrite (after_read hash Hh). cbn. fold (held os). by destruct (assoc k (held os)) as [[p v]|]. Qed.
Lemma held_snoc os o : held (os ++ [o]) = r_map (rstep (held os) (tr o)).
Proof. unfold held. rewrite map_app, final_app. done. Qed.

Lemma kp_replace sg cap (os : list (kop K P V)) k p vo p0 v0 : kafter sg hash cap os (KRead k) = Some (RPair (Some (k, p0, v0))) ->
  kafter sg hash cap os (KReplace k p vo) = Some (RKey (Some (k, p0))) /\
  kafter sg hash cap (os ++ [KReplace k p vo]) (KRead k) = Some (RPair (Some (k, p, v0))) /\
  forall k', k' <> k -> kafter sg hash cap (os ++ [KReplace k p vo]) (KRead k') = kafter sg hash cap os (KRead k').
Proof.
  rewrite kafter_read. destruct (assoc k (held os)) as [[p1 v1]|] eqn:A; [|done]. intros [= -> ->]. split; [|split].
  - rewrite kafter_tr. destruct (after_spec hash Hh sg cap (map tr os) (tr (KReplace k p vo))) as (x & E & O). rewrite E.
    fold (held os) in O. cbn [tr rstep r_out] in O. rewrite A in O. destruct x; cbn in O; try done. injection O as ->. done.
  - rewrite kafter_read, held_snoc. cbn [tr rstep r_map]. rewrite A. by rewrite assoc_put_eq.
  - intros k' N. rewrite !kafter_read, held_snoc. cbn [tr rstep r_map]. rewrite A. by rewrite assoc_put_ne.
Qed.
Lemma assoc_map_filter (g : K * (P * V) -> (P * V) * bool) m k w : assoc k (map (fun e => (e.1, (g e).1)) (filter (fun e => (g e).2 = true) m)) = Some w ->
  exists w0, (k, w0) ∈ m /\ w = (g (k, w0)).1.
Proof.
  induction m as [|[k' w'] m IH]; [done|]. rewrite filter_cons. destruct (decide _).
  - cbn. case_decide; [intros [= <-]; subst; exists w'; split; [left|done]|]. intros A. destruct (IH A) as (w0 & I & E). exists w0. split; [by right|done].
  - intros A. destruct (IH A) as (w0 & I & E). exists w0. split; [by right|done].
Qed.
Lemma kp_kept sg cap (os : list (kop K P V)) o k p0 v0 p1 v1 : (forall k p vo, o <> KReplace k p vo) ->
  kafter sg hash cap os (KRead k) = Some (RPair (Some (k, p0, v0))) ->
  kafter sg hash cap (os ++ [o]) (KRead k) = Some (RPair (Some (k, p1, v1))) -> p1 = p0.
Proof.
  intros N. rewrite !kafter_read, held_snoc. destruct (assoc k (held os)) as [[pa va]|] eqn:A; [|done]. intros [= -> ->].
  destruct (assoc k (r_map _)) as [[pb vb]|] eqn:B; [|done]. intros [= -> ->].
  assert (D : NoDup (held os).*1) by apply final_nodup.
  assert (Pu : forall k' w, (k' = k -> w.1 = p0) -> assoc k (put k' w (held os)) = Some (p1, v1) -> p1 = p0).
  { intros k' w Hw. destruct (decide (k = k')) as [<-|Nk]; [rewrite assoc_put_eq; intros [= ->]; by apply Hw|rewrite assoc_put_ne by done; rewrite A; congruence]. }
  assert (De : forall k', assoc k (del k' (held os)) = Some (p1, v1) -> p1 = p0).
  { intros k'. destruct (decide (k = k')) as [<-|Nk]; [rewrite assoc_del_eq; done|rewrite assoc_del_ne by done; rewrite A; congruence]. }
  destruct o as [k' p v|k' p v|k' p vo|k' p f|k' f|k' c|k'| | |g| |n]; cbn [tr rstep] in B; try (cbn in B; congruence).
  - destruct (assoc k' (held os)) eqn:A'; cbn [r_map] in B; [congruence|]. eapply Pu; [|exact B]. intros ->. cbn in *. congruence.
  - cbn [r_map] in B. destruct (assoc k' (held os)) as [[p' v']|] eqn:A'; (eapply Pu; [|exact B]; intros ->; rewrite A in A'; cbn; congruence).
  - by destruct (N k' p vo).
  - cbn [r_map] in B. destruct (assoc k' (held os)) as [[p' v']|] eqn:A'; destruct (f _) as [w|];
      try (eapply De; exact B); try congruence; (eapply Pu; [|exact B]; intros ->; rewrite A in A'; cbn; congruence).
  - destruct (assoc k' (held os)) as [[p' v']|] eqn:A'; cbn [r_map] in B; [|congruence]. eapply Pu; [|exact B]. cbn. intros ->. cbn in *. congruence.
  - destruct (assoc k' (held os)) as [[p' v']|] eqn:A'; cbn [r_map fst snd] in B; [|congruence]. destruct ((c v').2); cbn [r_map] in B; [by eapply De|].
    eapply Pu; [|exact B]. cbn. intros ->. cbn in *. congruence.
  - cbn [r_map] in B. apply assoc_map_filter in B as (w0 & I & E). apply (assoc_Some k w0 _ D) in I. rewrite A in I. injection I as <-. cbn in E. congruence.
Qed.
End facts.
