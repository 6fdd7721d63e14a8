(** Lookup and iteration in a tree. *)
From stdpp Require Import prelude list sorting.
From Verif Require Import LeafModel LeafSpec LeafFacts OrdFacts LeafOps LeafSeq TreeLeaf TreeModel TreeHeap TreeLink TreeSplit TreeShape TreeIns.

Lemma scan_start {K V} (l : leaf K V) : scan_from 15 (md l) (slots l) 14 = scan l.
Proof. reflexivity. Qed.
Opaque scan scan_from fill.

Section facts.
Context {K V : Type} (cmp : K -> K -> comparison) (T : total_order cmp).
Implicit Types (t : treeindex K V) (h : heap K V) (l : leaf K V) (L A B : list (option K * nat)) (i : nat) (s u : option K) (sc : scanner).
Notation good := (good cmp). Notation core := (core cmp). Notation leaf_ok := (leaf_ok cmp). Notation prior := (prior cmp).
Notation kle := (kle cmp). Notation klt := (klt cmp). Notation kwf := (kwf cmp). Notation linked := (linked cmp).
Notation below := (TreeHeap.below cmp).

(** ** Lookup *)
Lemma search_ok d k h : forall u A B (n : tree K d), kwf (S d) n -> linked h (A ++ flat d u n ++ B) -> below A k -> kle k u ->
  search cmp d h n k = (fun v : V => (k, v)) <$> oget cmp (fents h (A ++ flat d u n ++ B)) k.
Proof.
  induction d as [|d IH]; intros u A B n W Lk Bl Lu.
  - destruct (route cmp T 0 u A B h n k W Lk Bl Lu) as (p & id & X & s & Y & E & Pl & Bx & Ls & _ & Ef & Et & Bt).
    cbn [search]. rewrite E. cbn [snd]. rewrite Et in *. cbn [kflat app] in *.
    pose proof (core_at _ _ _ _ _ (proj1 Lk)) as O. pose proof (ok_good _ _ _ O) as G. cbn in G.
    rewrite (search_entry_scan cmp T) by exact G. f_equal.
    destruct (core_around cmp T h _ s id _ k (proj1 Lk) Bt Ls) as [Ca Cb].
    rewrite fents_app, fents_cons. by rewrite oget_mid.
  - destruct (route cmp T (S d) u A B h n k W Lk Bl Lu) as (p & c & X & s & Y & E & Pl & Bx & Ls & Wc & Ef & Et & Bt).
    cbn [search]. rewrite E. cbn [snd]. rewrite Et in *. change (kflat (S d) s c) with (flat d s c) in *. by apply IH.
Qed.
Lemma peek_entry_ok t k : tree_ok cmp t -> peek_entry cmp t k = (fun v : V => (k, v)) <$> oget cmp (tents t) k.
Proof.
  destruct t as [h [[d n]|]]; [|done]. intros [W Lk]. unfold peek_entry, tents. cbn [root hp] in *.
  rewrite <-(app_nil_mid (flat d None n)) in Lk |- *. apply search_ok; [done|done|by intros a ?%elem_of_nil|done].
Qed.

(** ** The scanner *)
(** [sc] stands at [cur] and the entries [rem] are still to come. *)
Definition spot h L sc (cur : option (K * V)) (rem : list (K * V)) : Prop :=
  exists L1 sep L2 es1 rest, L = L1 ++ (sep, sc_leaf sc) :: L2 /\ sc_meta sc = md (leaf_at h (sc_leaf sc)) /\
    rem = rest ++ fents h L2 /\
    match sc_pos sc with
    | SStart => cur = None /\ scan (leaf_at h (sc_leaf sc)) = rest
    | SAt i => exists e, cur = Some e /\ at_slot (leaf_at h (sc_leaf sc)) i e /\ scan (leaf_at h (sc_leaf sc)) = es1 ++ e :: rest
    | SDone => cur = None /\ rest = []
    end.
Lemma spot_get h L sc cur rem : spot h L sc cur rem -> sc_get h sc = cur.
Proof.
  intros (L1 & sep & L2 & es1 & rest & _ & _ & _ & H). unfold sc_get. destruct (sc_pos sc).
  - by destruct H as [-> _].
  - destruct H as (e & -> & At & _). by apply at_slot_entry.
  - by destruct H as [-> _].
Qed.
(** What is left of this leaf. *)
Definition left_in h L sc rest L2 : Prop :=
  exists L1 sep, L = L1 ++ (sep, sc_leaf sc) :: L2 /\ sc_meta sc = md (leaf_at h (sc_leaf sc)) /\
    match sc_pos sc with
    | SStart => scan (leaf_at h (sc_leaf sc)) = rest
    | SAt i => exists e es1, at_slot (leaf_at h (sc_leaf sc)) i e /\ scan (leaf_at h (sc_leaf sc)) = es1 ++ e :: rest
    | SDone => rest = []
    end.
Lemma proceed_spec h L sc rest L2 : core h L -> left_in h L sc rest L2 ->
  match rest with
  | [] => sc_get h (proceed sc) = None /\ left_in h L (proceed sc) [] L2 /\ sc_leaf (proceed sc) = sc_leaf sc
  | e :: rest' => sc_get h (proceed sc) = Some e /\ left_in h L (proceed sc) rest' L2 /\ spot h L (proceed sc) (Some e) (rest' ++ fents h L2)
  end.
Proof.
  intros C (L1 & sep & -> & Em & H). destruct sc as [id m p]. cbn [sc_leaf sc_meta sc_pos] in *. subst m.
  pose proof (core_at _ _ _ _ _ C) as O. pose proof (ok_good _ _ _ O) as G. cbn in G. set (l := leaf_at h id) in *.
  assert (forall i, (i = 14 /\ scan l = rest \/ exists e es1, at_slot l i e /\ scan l = es1 ++ e :: rest) ->
    let sc' := Scanner id (md l) (if (next i (md l) =? num_entries)%nat then SDone else SAt (next i (md l))) in
    match rest with
    | [] => sc_get h sc' = None /\ left_in h (L1 ++ (sep, id) :: L2) sc' [] L2 /\ sc_leaf sc' = id
    | e :: rest' => sc_get h sc' = Some e /\ left_in h (L1 ++ (sep, id) :: L2) sc' rest' L2 /\
        spot h (L1 ++ (sep, id) :: L2) sc' (Some e) (rest' ++ fents h L2)
    end) as Go.
  { intros i Hi. destruct rest as [|e rest'].
    - rewrite (next_none cmp T l i G) by (destruct Hi as [[? ?]|(? & ? & ? & ?)]; eauto). cbn zeta. cbn [num_entries Nat.eqb].
      split; [done|]. split; [|done]. exists L1, sep. done.
    - assert (scan_from 15 (md l) (slots l) i = e :: rest') as Es.
      { destruct Hi as [[-> Hs]|(e0 & es1 & At & Sc)]; [by rewrite scan_start|]. by eapply scan_rest. }
      destruct (next_some cmp l i e rest' G Es) as [At Nn].
      { destruct Hi as [[-> _]|(e0 & es1 & At & Sc)]; [by left|right; eauto]. }
      apply Nat.eqb_neq in Nn. change num_entries with 14. rewrite Nn. cbn zeta.
      assert (exists es1, scan l = es1 ++ e :: rest') as [es1 Sc].
      { destruct Hi as [[_ Hs]|(e0 & es1 & _ & Sc)]; [by exists []|exists (es1 ++ [e0]); by rewrite <-app_assoc]. }
      split; [unfold sc_get; cbn; by apply at_slot_entry|]. split.
      + exists L1, sep. cbn [sc_leaf sc_meta sc_pos]. split; [done|]. split; [done|]. by exists e, es1.
      + exists L1, sep, L2, es1, rest'. cbn [sc_leaf sc_meta sc_pos]. split; [done|]. split; [done|]. split; [done|]. by exists e. }
  destruct p as [|i|].
  - apply (Go 14). by left.
  - apply (Go i). right. destruct H as (e & es1 & At & Sc). by exists e, es1.
  - subst rest. unfold proceed. cbn. split; [done|]. split; [|done]. exists L1, sep. done.
Qed.
Lemma spot_left h L sc cur rem : spot h L sc cur rem -> exists rest L2, left_in h L sc rest L2 /\ rem = rest ++ fents h L2.
Proof.
  intros (L1 & sep & L2 & es1 & rest & EL & Em & Er & H). exists rest, L2. split; [|done]. exists L1, sep. split; [done|]. split; [done|].
  destruct (sc_pos sc).
  - apply H.
  - destruct H as (e & _ & At & Sc). by exists e, es1.
  - apply H.
Qed.
Lemma sc_new_left h L1 sep i L2 : left_in h (L1 ++ (sep, i) :: L2) (sc_new h i) (ents h i) L2.
Proof. exists L1, sep. done. Qed.

(** ** Moving to the next leaf *)
Lemma skip_keys_S f h sc k : skip_keys cmp (S f) h sc k =
  match sc_get h (proceed sc) with
  | None => None
  | Some e => match cmp k e.1 with Lt => Some (proceed sc) | _ => skip_keys cmp f h (proceed sc) k end
  end.
Proof. reflexivity. Qed.
Lemma jump_loop_ok h L b : core h L -> seg h L.*2 None ->
  forall L2 L1 fuel, L = L1 ++ L2 -> length L2 < fuel ->
  (forall e k, e ∈ fents h L2 -> b = Some k -> cmp k e.1 = Lt) ->
  match fents h L2 with
  | [] => jump_loop cmp fuel h b (hd_or L2.*2 None) = None
  | e :: rem => exists sc, jump_loop cmp fuel h b (hd_or L2.*2 None) = Some sc /\ spot h L sc (Some e) rem
  end.
Proof.
  intros C Sg. induction L2 as [|[sep i] L2 IH]; intros L1 fuel EL Hf Hb.
  - destruct fuel; done.
  - destruct fuel as [|f]; [cbn in Hf; lia|]. cbn [length] in Hf. rewrite fents_cons in *. cbn [fmap list_fmap snd hd_or].
    assert (next_ptr h i = hd_or L2.*2 None) as En.
    { apply goes_next. rewrite EL, fmap_app, fmap_cons in Sg. apply seg_app in Sg as [_ Sg]. by apply seg_cons in Sg as [Sg _]. }
    pose proof (proceed_spec h L (sc_new h i) (ents h i) L2 C) as Pr.
    assert (left_in h L (sc_new h i) (ents h i) L2) as Hl by (rewrite EL; apply sc_new_left). specialize (Pr Hl).
    assert (match fents h L2 with
      | [] => jump_loop cmp f h b (hd_or L2.*2 None) = None
      | e :: rem => exists sc, jump_loop cmp f h b (hd_or L2.*2 None) = Some sc /\ spot h L sc (Some e) rem end) as IH1.
    { apply (IH (L1 ++ [(sep, i)])); [by rewrite <-app_assoc|lia|]. intros e k He. apply Hb. apply elem_of_app. by right. }
    destruct (ents h i) as [|e rest] eqn:Ee; cbn [app] in *.
    + destruct Pr as (G & _). cbn [jump_loop]. destruct b as [k|].
      * rewrite skip_keys_S, G, En. exact IH1.
      * rewrite G, En. exact IH1.
    + destruct Pr as (G & _ & Sp). cbn [jump_loop]. destruct b as [k|].
      * rewrite skip_keys_S, G, (Hb e k); [|by left|done]. by eexists.
      * rewrite G. by eexists.
Qed.
Lemma core_length h L : core h L -> length L <= length h.
Proof.
  intros C. rewrite <-(fmap_length snd L). apply nodup_bound; [apply C|]. intros i Hi.
  apply elem_of_list_fmap in Hi as (p & -> & Hp). apply (ok_lt cmp h p). by apply C.
Qed.
Lemma jump_ok h L sc L2 b : linked h L -> left_in h L sc [] L2 -> (forall e k, e ∈ fents h L2 -> b = Some k -> cmp k e.1 = Lt) ->
  match fents h L2 with
  | [] => jump cmp h sc b = None
  | e :: rem => exists sc', jump cmp h sc b = Some sc' /\ spot h L sc' (Some e) rem
  end.
Proof.
  intros [C Sg] (L1 & sep & EL & _) Hb. unfold jump.
  assert (next_ptr h (sc_leaf sc) = hd_or L2.*2 None) as ->.
  { apply goes_next. rewrite EL, fmap_app, fmap_cons in Sg. apply seg_app in Sg as [_ Sg]. by apply seg_cons in Sg as [Sg _]. }
  apply (jump_loop_ok h L _ C Sg L2 (L1 ++ [(sep, sc_leaf sc)])).
  - by rewrite EL, <-app_assoc.
  - pose proof (core_length h L C) as Hl. rewrite EL, app_length in Hl. cbn in Hl. lia.
  - intros e k He. destruct (is_clear h (sc_leaf sc)); [done|]. by apply Hb.
Qed.

(** One step of an iterator. *)
Definition sc_step h sc : option scanner :=
  let sc' := proceed sc in
  match sc_get h sc' with Some _ => Some sc' | None => jump cmp h sc' (fst <$> sc_get h sc) end.
Lemma spot_later h L sc e rem : core h L -> spot h L sc (Some e) rem -> forall x, x ∈ rem -> cmp e.1 x.1 = Lt.
Proof.
  intros C (L1 & sep & L2 & es1 & rest & -> & _ & -> & H) x Hx. pose proof (core_asc cmp T h _ C) as As.
  rewrite fents_app, fents_cons in As. unfold ents in As. destruct (sc_pos sc).
  - by destruct H.
  - destruct H as (e' & [= <-] & _ & Sc). rewrite Sc in As. apply asc_app in As as (_ & As & _).
    rewrite <-app_assoc in As. apply asc_app in As as (_ & As & _). cbn [app] in As. apply asc_cons in As as [_ As]. by apply As.
  - by destruct H.
Qed.
Lemma sc_step_ok h L sc cur rem : linked h L -> spot h L sc cur rem ->
  match rem with
  | [] => sc_step h sc = None
  | e :: rem' => exists sc', sc_step h sc = Some sc' /\ spot h L sc' (Some e) rem'
  end.
Proof.
  intros Lk Sp. destruct (spot_left h L sc cur rem Sp) as (rest & L2 & Hl & Er).
  pose proof (proceed_spec h L sc rest L2 (proj1 Lk) Hl) as Pr. unfold sc_step. rewrite (spot_get h L sc cur rem Sp).
  destruct rest as [|e rest].
  - destruct Pr as (G & Hl' & _). rewrite G. cbn [app] in Er. subst rem. apply (jump_ok h L); [done|done|].
    intros x k Hx Ek. destruct cur as [c|]; [|done]. injection Ek as <-. by eapply spot_later; [exact (proj1 Lk)|exact Sp|].
  - destruct Pr as (G & _ & Sp'). rewrite G, Er. cbn [app]. by eexists.
Qed.

(** The first leaf. *)
Lemma first_some {X} (o y : option X) x : o = Some x -> match o with Some s => Some s | None => y end = Some x.
Proof. by intros ->. Qed.
Lemma node_min_ok d h u : forall n : tree K d, kwf (S d) n -> exists sep i L2, flat d u n = (sep, i) :: L2 /\ node_min d h n = Some (sc_new h i).
Proof.
  revert u. induction d as [|d IH]; intros u n W.
  - pose proof W as [_ _ (c & Eu & _) _]. rewrite flat0. unfold ukids, ub_kid. rewrite Eu. cbn [node_min].
    destruct (scan (ch n)) as [|e es].
    + rewrite Eu. exists u, c, []. done.
    + exists (Some e.1), e.2, (map lab es ++ [(u, c)]). done.
  - pose proof W as [_ _ (c & Eu & Wc) Ks]. unfold flat, ukids, ub_kid. rewrite Eu. cbn [node_min].
    destruct (scan (ch n)) as [|e es] eqn:Es.
    + rewrite Eu. cbn [map app]. destruct (IH u c Wc) as (sep & i & L2 & Ef & Em). rewrite gflat_cons, kflat_S, Ef, Em. eauto.
    + assert (e ∈ e :: es) as He by left. destruct (IH (Some e.1) e.2 (Ks e He)) as (sep & i & L2 & Ef & Em).
      cbn [map app]. unfold lab at 1. rewrite gflat_cons, kflat_S, Ef. exists sep, i. eexists. split; [reflexivity|].
      exact (first_some _ _ _ Em).
Qed.
Lemma start_spot d h (n : tree K d) : kwf (S d) n -> linked h (flat d None n) ->
  exists sc, node_min d h n = Some sc /\ spot h (flat d None n) sc None (fents h (flat d None n)) /\ sc_pos sc = SStart.
Proof.
  intros W Lk. destruct (node_min_ok d h None n W) as (sep & i & L2 & Ef & Em). exists (sc_new h i). split; [done|]. split; [|done]. rewrite Ef.
  exists [], sep, L2, [], (ents h i). done.
Qed.

(** ** Iter *)
Lemma iter_next_ok t it L cur rem : linked (hp t) L ->
  match it with Some sc => spot (hp t) L sc cur rem | None => exists d n, root t = Some (existT d n) /\ L = flat d None n /\ kwf (S d) n /\ rem = fents (hp t) L end ->
  match rem with
  | [] => iter_next cmp t it = (None, None)
  | e :: rem' => exists sc, iter_next cmp t it = (Some sc, Some e) /\ spot (hp t) L sc (Some e) rem'
  end.
Proof.
  intros Lk H.
  assert (exists sc cur', match it with Some s => Some s | None => match root t with Some (existT d n) => node_min d (hp t) n | None => None end end = Some sc /\
    spot (hp t) L sc cur' rem) as (sc & cur' & Es & Sp).
  { destruct it as [sc|]; [by exists sc, cur|]. destruct H as (d & n & -> & -> & W & ->).
    destruct (start_spot d (hp t) n W Lk) as (sc & Em & Sp & _). by exists sc, None. }
  unfold iter_next. rewrite Es. pose proof (sc_step_ok _ _ _ _ _ Lk Sp) as St. unfold sc_step in St.
  destruct rem as [|e rem'].
  - destruct (sc_get (hp t) (proceed sc)) as [x|]; [done|]. by rewrite St.
  - destruct St as (sc2 & Ej & Sp2). pose proof (spot_get _ _ _ _ _ Sp2) as G2.
    destruct (sc_get (hp t) (proceed sc)) as [x|] eqn:Gp.
    + injection Ej as <-. exists (proceed sc). split; [congruence|done].
    + rewrite Ej, G2. by exists sc2.
Qed.
Lemma iter_loop_ok t L : linked (hp t) L -> forall rem fuel it cur, length rem < fuel ->
  match it with Some sc => spot (hp t) L sc cur rem | None => exists d n, root t = Some (existT d n) /\ L = flat d None n /\ kwf (S d) n /\ rem = fents (hp t) L end ->
  iter_loop cmp fuel t it = rem.
Proof.
  intros Lk. induction rem as [|e rem IH]; intros [|f] it cur Hf H; cbn in Hf; try lia; cbn [iter_loop];
    pose proof (iter_next_ok t it L cur _ Lk H) as N.
  - by rewrite N.
  - destruct N as (sc & -> & Sp). f_equal. eapply IH; [lia|]. exact Sp.
Qed.
Lemma fents_length h L : core h L -> length (fents h L) <= 14 * length L.
Proof.
  induction L as [|[s i] L IH]; intros C; [done|]. apply core_cons in C as (O & C & _). rewrite fents_cons, app_length.
  pose proof (scan_length cmp T _ (ok_good _ _ _ O)) as H. cbn [snd] in H. specialize (IH C). unfold ents. cbn [length]. lia.
Qed.
Lemma tents_length (t : treeindex K V) : tree_ok cmp t -> length (tents t) <= 14 * length (hp t).
Proof.
  destruct t as [h [[d n]|]]; [|cbn; lia]. intros [W [C Sg]]. unfold tents. cbn [root hp] in *.
  pose proof (fents_length h _ C). pose proof (core_length h _ C). lia.
Qed.
Lemma iter_all_ok t : tree_ok cmp t -> iter_all cmp t = tents t.
Proof.
  intros Ok. pose proof (tents_length t Ok) as Hl. destruct t as [h [[d n]|]].
  - destruct Ok as [W Lk]. unfold iter_all, tents in *. cbn [root hp] in *.
    refine (iter_loop_ok (Tree h (Some (existT d n))) (flat d None n) Lk _ _ None None _ _).
    + change num_entries with 14. lia.
    + by exists d, n.
  - reflexivity.
Qed.
Lemma len_ok t : tree_ok cmp t -> len cmp t = length (tents t).
Proof. intros Ok. unfold len. by rewrite iter_all_ok. Qed.
Lemma tree_cases t : tree_ok cmp t -> root t = None /\ tents t = [] \/
  exists d n, root t = Some (existT d n) /\ kwf (S d) n /\ linked (hp t) (flat d None n) /\ tents t = fents (hp t) (flat d None n).
Proof. destruct t as [h [[d n]|]]; [intros [W Lk]; right; by exists d, n|by left]. Qed.
Lemma is_empty_ok t : tree_ok cmp t -> tree_is_empty cmp t = true <-> tents t = [].
Proof.
  intros Ok. unfold tree_is_empty. destruct (tree_cases t Ok) as [[Er ->]|(d & n & Er & W & Lk & Et)].
  - unfold iter_next. by rewrite Er.
  - pose proof (iter_next_ok t None (flat d None n) None (tents t) Lk) as N. destruct (tents t) as [|e rem].
    + rewrite N; [done|]. by exists d, n.
    + destruct N as (sc & -> & _); [|done]. by exists d, n.
Qed.

(** ** Range *)
Lemma spot_split h L sc e rem : spot h L sc (Some e) rem -> exists pre, fents h L = pre ++ e :: rem.
Proof.
  intros (L1 & sep & L2 & es1 & rest & -> & _ & -> & H). destruct (sc_pos sc); [by destruct H| |by destruct H].
  destruct H as (e' & [= <-] & _ & Sc). exists (fents h L1 ++ es1). rewrite fents_app, fents_cons. unfold ents. rewrite Sc, <-!app_assoc. done.
Qed.
Lemma start_step d h u A B (n : tree K d) : kwf (S d) n -> linked h (A ++ flat d u n ++ B) ->
  exists sc, node_min d h n = Some sc /\ sc_get h sc = None /\
  match fents h (flat d u n ++ B) with
  | [] => sc_step h sc = None
  | e :: rem' => exists sc', sc_step h sc = Some sc' /\ spot h (A ++ flat d u n ++ B) sc' (Some e) rem'
  end.
Proof.
  intros W Lk. destruct (node_min_ok d h u n W) as (sep & i & L2 & Ef & Em). exists (sc_new h i). split; [done|].
  split; [done|]. apply (sc_step_ok h _ _ None); [done|]. exists A, sep, (L2 ++ B), [], (ents h i). rewrite Ef. cbn [app].
  rewrite fents_cons. done.
Qed.
Lemma first_entry_step h sc f L : linked h L -> sc_get h sc = None ->
  (forall sc', sc_step h sc = Some sc' -> sc_get h sc' <> None) ->
  first_entry cmp (S (S f)) h (proceed sc) = sc_step h sc.
Proof.
  intros Lk G Hs. unfold sc_step in *. rewrite G in *. cbn [first_entry fmap option_fmap option_map] in *.
  destruct (sc_get h (proceed sc)); [done|]. destruct (jump cmp h (proceed sc) None) as [s'|]; [|done].
  cbn [mbind option_bind]. specialize (Hs s' eq_refl). by destruct (sc_get h s').
Qed.
Lemma from_min_step h sc f k : sc_get h sc = None ->
  (forall sc', sc_step h sc = Some sc' -> sc_get h sc' <> None) ->
  from_min cmp (S (S f)) h (proceed sc) k =
  match sc_step h sc with
  | Some s => match sc_get h s with Some e => match cmp k e.1 with Lt => None | _ => Some s end | None => None end
  | None => None
  end.
Proof.
  intros G Hs. unfold sc_step in *. rewrite G in *. cbn [from_min fmap option_fmap option_map] in *.
  destruct (sc_get h (proceed sc)) as [e|] eqn:Gp; [by rewrite Gp|]. destruct (jump cmp h (proceed sc) None) as [s'|]; [|done].
  cbn [mbind option_bind]. specialize (Hs s' eq_refl). by destruct (sc_get h s').
Qed.
Definition found_le h L k (o : option scanner) : Prop :=
  forall sc, o = Some sc -> exists e rem, spot h L sc (Some e) rem /\ cmp k e.1 <> Lt.
Lemma min_le d h u A B k (n : tree K d) : kwf (S d) n -> linked h (A ++ flat d u n ++ B) ->
  found_le h (A ++ flat d u n ++ B) k (s ← node_min d h n; from_min cmp (S (S (length h))) h (proceed s) k).
Proof.
  intros W Lk. destruct (start_step d h u A B n W Lk) as (sc & -> & G & St). cbn [mbind option_bind]. rewrite from_min_step; [|done|].
  - intros sc' E. destruct (fents h (flat d u n ++ B)) as [|e rem].
    + by rewrite St in E.
    + destruct St as (s2 & E2 & Sp). rewrite E2, (spot_get _ _ _ _ _ Sp) in E. exists e, rem. destruct (cmp k e.1) eqn:Ek; [|discriminate E|];
      (injection E as <-; split; [exact Sp|discriminate]).
  - intros sc' E. destruct (fents h (flat d u n ++ B)) as [|e rem].
    + by rewrite St in E.
    + destruct St as (s2 & E2 & Sp). rewrite E in E2. injection E2 as <-. by rewrite (spot_get _ _ _ _ _ Sp).
Qed.
Lemma sc_max_less_ok h L1 sep i L2 k : core h (L1 ++ (sep, i) :: L2) -> found_le h (L1 ++ (sep, i) :: L2) k (sc_max_less cmp h i k).
Proof.
  intros C sc E. pose proof (core_at _ _ _ _ _ C) as O. pose proof (ok_good _ _ _ O) as G. cbn in G.
  unfold sc_max_less in E. change num_entries with 14 in E.
  destruct (max_less_spec cmp T (leaf_at h i) k G) as [[Em _]|(e & es1 & es2 & At & Sc & Ek & _)]; [rewrite Em in E; discriminate E|].
  pose proof (at_slot_lt cmp _ _ _ G At) as Hlt. destruct (max_less cmp (leaf_at h i) k =? 14)%nat eqn:E14; [apply Nat.eqb_eq in E14; lia|].
  injection E as <-. exists e, (es2 ++ fents h L2). split.
  - exists L1, sep, L2, es1, es2. cbn [sc_leaf sc_meta sc_pos]. split; [done|]. split; [done|]. split; [done|]. by exists e.
  - intros Hk. apply (cmp_gt cmp T) in Hk. congruence.
Qed.
Lemma before_kid {C} (n : inode K C) k c : good (ch n) -> before cmp n k = To c -> exists b : K, (b, c) ∈ scan (ch n).
Proof.
  intros G E. unfold before in E. destruct (max_less cmp (ch n) k =? num_entries)%nat eqn:E14; [done|].
  destruct (max_less_spec cmp T (ch n) k G) as [[H _]|(e & es1 & es2 & At & Sc & _)].
  - rewrite H in E14. done.
  - rewrite (at_slot_entry _ _ _ At) in E. injection E as <-. exists e.1. rewrite Sc. destruct e. apply elem_of_app. right. by left.
Qed.
Lemma max_le_appr_ok d h k : forall u A B (n : tree K d), kwf (S d) n -> linked h (A ++ flat d u n ++ B) ->
  found_le h (A ++ flat d u n ++ B) k (max_le_appr cmp d h k n).
Proof.
  induction d as [|d IH]; intros u A B n W Lk sc E.
  - cbn [max_le_appr] in E. pose proof (min_le 0 h u A B k n W Lk) as M.
    destruct (match before cmp n k with To id => sc_max_less cmp h id k | _ => None end) as [s|] eqn:Eb; [|by apply M].
    injection E as <-. destruct (before cmp n k) as [| |id] eqn:Ebf; [done|done|].
    pose proof W as [G _ _ _]. destruct (before_kid n k id G Ebf) as [s0 Hs].
    assert ((Some s0, id) ∈ ukids u n) as Hk.
    { unfold ukids. apply elem_of_app. left. apply elem_of_list_In, in_map_iff. exists (s0, id). split; [done|]. by apply elem_of_list_In. }
    apply elem_of_list_split in Hk as (X & Y & Ek). rewrite flat0 in *. rewrite Ek in *.
    rewrite <-app_assoc in *. cbn [app] in *. rewrite app_assoc in *. by eapply sc_max_less_ok; [exact (proj1 Lk)|].
  - cbn [max_le_appr] in E. pose proof (min_le (S d) h u A B k n W Lk) as M.
    destruct (match before cmp n k with To id => max_le_appr cmp d h k id | _ => None end) as [s|] eqn:Eb; [|by apply M].
    injection E as <-. destruct (before cmp n k) as [| |c] eqn:Ebf; [done|done|].
    pose proof W as [G _ _ Ks]. destruct (before_kid n k c G Ebf) as [s0 Hs].
    assert ((Some s0, c) ∈ ukids u n) as Hk.
    { unfold ukids. apply elem_of_app. left. apply elem_of_list_In, in_map_iff. exists (s0, c). split; [done|]. by apply elem_of_list_In. }
    apply elem_of_list_split in Hk as (X & Y & Ek).
    assert (A ++ flat (S d) u n ++ B = (A ++ gflat (kflat (S d)) X) ++ flat d (Some s0) c ++ (gflat (kflat (S d)) Y ++ B)) as EL.
    { unfold flat at 1. rewrite Ek, gflat_app, gflat_cons, kflat_S. by rewrite <-!app_assoc. }
    rewrite EL in *. exact (IH (Some s0) _ _ c (Ks _ Hs) Lk s Eb).
Qed.

Lemma within_range r k : range_contains cmp r k = negb (TreeModel.below cmp r k) && within_upper cmp r k.
Proof.
  unfold range_contains, TreeModel.below, within_upper. destruct r as [a b]; cbn [fst snd].
  destruct a as [x|x|], b as [y|y|]; try destruct (cmp x k) eqn:?; try destruct (cmp y k) eqn:?; try reflexivity.
Qed.
Lemma below_mono r a b : TreeModel.below cmp r a = false -> cmp a b = Lt -> TreeModel.below cmp r b = false.
Proof.
  unfold TreeModel.below. destruct r.1 as [x|x|]; [| |done]; intros H L; destruct (cmp x a) eqn:E; try discriminate H.
  - apply (cmp_eq cmp T) in E as ->. by rewrite L.
  - by rewrite (cmp_trans cmp T x a b).
  - by rewrite (cmp_trans cmp T x a b).
Qed.
Lemma within_mono r a b : within_upper cmp r a = false -> cmp a b = Lt -> within_upper cmp r b = false.
Proof.
  unfold within_upper. destruct r.2 as [x|x|]; [| |done]; intros H L; destruct (cmp x a) eqn:E; try discriminate H.
  - by rewrite (cmp_trans cmp T x a b).
  - apply (cmp_eq cmp T) in E as ->. by rewrite L.
  - by rewrite (cmp_trans cmp T x a b).
Qed.
Lemma upper_proceed h r sc : upper_check cmp h r (proceed sc) = upper_check cmp h r sc.
Proof. destruct sc as [i m [|j|]]; reflexivity. Qed.
Lemma spot_in_leaf h L sc e rem : core h L -> spot h L sc (Some e) rem ->
  good (leaf_at h (sc_leaf sc)) /\ e ∈ scan (leaf_at h (sc_leaf sc)).
Proof.
  intros C (L1 & sep & L2 & es1 & rest & -> & _ & -> & H). pose proof (core_at _ _ _ _ _ C) as O. pose proof (ok_good _ _ _ O) as G.
  split; [exact G|]. destruct (sc_pos sc); [by destruct H| |by destruct H].
  destruct H as (e' & [= <-] & _ & Sc). rewrite Sc. apply elem_of_app. right. by left.
Qed.
Lemma upper_false h L r sc e rem : core h L -> spot h L sc (Some e) rem -> upper_check cmp h r sc = false -> within_upper cmp r e.1 = true.
Proof.
  intros C Sp. destruct (spot_in_leaf h L sc e rem C Sp) as [G He].
  assert (exists m, sc_max_key h sc = Some m /\ cmp e.1 m <> Gt) as (m & Em & Hm).
  { unfold sc_max_key. rewrite (max_entry_spec cmp T) by exact G. destruct (last (scan (leaf_at h (sc_leaf sc)))) as [x|] eqn:El.
    - exists x.1. split; [done|]. apply last_Some in El as [es El]. pose proof (scan_asc cmp _ G) as As. rewrite El in As, He.
      apply asc_app in As as (_ & _ & As). apply elem_of_app in He as [He|He%elem_of_list_singleton].
      + rewrite (As e x); [done|done|by left].
      + subst e. by rewrite (cmp_refl cmp T).
    - apply last_None in El. rewrite El in He. by apply elem_of_nil in He. }
  unfold upper_check, within_upper. rewrite Em. destruct r.2 as [b|b|]; [| |done]; destruct (cmp b m) eqn:E; try discriminate; intros _.
  - apply (cmp_eq cmp T) in E as ->. destruct (cmp m e.1) eqn:E2; try done. apply (cmp_gt cmp T) in E2. by rewrite E2 in Hm.
  - apply (cmp_gt cmp T) in E. rewrite (proj2 (cmp_gt cmp T b e.1)); [done|]. by eapply (cmp_le_lt cmp T).
  - apply (cmp_gt cmp T) in E. rewrite (proj2 (cmp_gt cmp T b e.1)); [done|]. by eapply (cmp_le_lt cmp T).
Qed.

Lemma nu_some t r sc cl L cur rem : linked (hp t) L -> spot (hp t) L sc cur rem ->
  match rem with
  | [] => exists g, next_unbounded cmp t (hp t) r (Range (Some sc) cl (upper_check cmp (hp t) r sc)) = (g, None)
  | e :: rem' => exists sc', next_unbounded cmp t (hp t) r (Range (Some sc) cl (upper_check cmp (hp t) r sc)) =
      (Range (Some sc') cl (upper_check cmp (hp t) r sc'), Some e) /\ spot (hp t) L sc' (Some e) rem'
  end.
Proof.
  intros Lk Sp. pose proof (sc_step_ok _ _ _ _ _ Lk Sp) as St. unfold sc_step in St. unfold next_unbounded. cbn [rg_scanner check_lower check_upper].
  destruct rem as [|e rem'].
  - destruct (sc_get (hp t) (proceed sc)) as [x|]; [done|]. rewrite St. by eexists.
  - destruct St as (sc2 & Ej & Sp2). pose proof (spot_get _ _ _ _ _ Sp2) as G2.
    destruct (sc_get (hp t) (proceed sc)) as [x|] eqn:Gp.
    + injection Ej as <-. exists (proceed sc). rewrite upper_proceed. split; [congruence|exact Sp2].
    + rewrite Ej, G2. exists sc2. split; [reflexivity|exact Sp2].
Qed.
Definition lower_of (r : bound K * bound K) : bool := match r.1 with Unbounded => false | _ => true end.
Lemma nu_none t r : tree_ok cmp t ->
  match tents t with
  | [] => exists g, next_unbounded cmp t (hp t) r new_range = (g, None)
  | _ => exists L pre e rem sc, linked (hp t) L /\ tents t = pre ++ e :: rem /\
      next_unbounded cmp t (hp t) r new_range = (Range (Some sc) (lower_of r) (upper_check cmp (hp t) r sc), Some e) /\
      spot (hp t) L sc (Some e) rem /\ (forall x, x ∈ pre -> TreeModel.below cmp r x.1 = true)
  end.
Proof.
  intros Ok. destruct (tree_cases t Ok) as [[Er Et]|(d & n & Er & W & Lk & Et)].
  { rewrite Et. unfold next_unbounded, new_range. rewrite Er. by eexists. }
  set (L := flat d None n) in *. assert (A0 : [] ++ flat d None n ++ [] = L) by apply app_nil_mid.
  destruct (start_step d (hp t) None [] [] n W) as (s0 & Em & G0 & St); [by rewrite A0|]. rewrite A0 in St.
  change ([] ++ flat d None n ++ []) with (flat d None n ++ []) in A0. rewrite A0 in St.
  assert (match tents t with
    | [] => first_entry cmp (S (S (length (hp t)))) (hp t) (proceed s0) = None
    | e :: rem => exists sc, first_entry cmp (S (S (length (hp t)))) (hp t) (proceed s0) = Some sc /\ spot (hp t) L sc (Some e) rem
    end) as Fe.
  { rewrite (first_entry_step _ _ _ L Lk G0); [by rewrite Et|]. intros sc' E. destruct (fents (hp t) L) as [|e rem].
    - by rewrite St in E.
    - destruct St as (s2 & E2 & Sp). rewrite E in E2. injection E2 as <-. by rewrite (spot_get _ _ _ _ _ Sp). }
  assert (forall k, found_le (hp t) L k (max_le_appr cmp d (hp t) k n)) as Fl.
  { intros k. pose proof (max_le_appr_ok d (hp t) k None [] [] n W) as F. rewrite A0 in F. by apply F. }
  assert (forall o k, found_le (hp t) L k o -> (forall e, TreeModel.below cmp r e = true \/ cmp k e <> Gt ) -> True) as _ by done.
  assert (forall cl o, (o = None \/ exists k, lower_of r = true /\ (r.1 = Included k \/ r.1 = Excluded k) /\ found_le (hp t) L k o) ->
    let z := match (match o with Some s => Some s | None => s ← node_min d (hp t) n; first_entry cmp (S (S (length (hp t)))) (hp t) (proceed s) end) with
             | Some s => match sc_get (hp t) s with
                         | Some e => (Range (Some s) cl (upper_check cmp (hp t) r s), Some e)
                         | None => (Range None cl (check_upper new_range), None)
                         end
             | None => (Range None cl (check_upper new_range), None)
             end in
    match tents t with
    | [] => exists g, z = (g, None)
    | _ => exists L pre e rem sc, linked (hp t) L /\ tents t = pre ++ e :: rem /\
        z = (Range (Some sc) cl (upper_check cmp (hp t) r sc), Some e) /\
        spot (hp t) L sc (Some e) rem /\ (forall x, x ∈ pre -> TreeModel.below cmp r x.1 = true)
    end) as Go.
  { intros cl o Ho z. destruct o as [s|].
    - destruct Ho as [Ho|(k & _ & Hr & F)]; [discriminate Ho|]. destruct (F s eq_refl) as (e & rem & Sp & Hk).
      destruct (spot_split _ _ _ _ _ Sp) as [pre Ef]. unfold z. rewrite (spot_get _ _ _ _ _ Sp).
      pose proof (core_asc cmp T _ _ (proj1 Lk)) as As. rewrite Ef in As.
      rewrite Et, Ef. assert (exists L pre0 e0 rem0 sc, linked (hp t) L /\ pre ++ e :: rem = pre0 ++ e0 :: rem0 /\
        (Range (Some s) cl (upper_check cmp (hp t) r s), Some e) = (Range (Some sc) cl (upper_check cmp (hp t) r sc), Some e0) /\
        spot (hp t) L sc (Some e0) rem0 /\ (forall x, x ∈ pre0 -> TreeModel.below cmp r x.1 = true)) as R.
      { exists L, pre, e, rem, s. split; [exact Lk|]. split; [reflexivity|]. split; [reflexivity|]. split; [exact Sp|].
        intros x Hx. apply asc_app in As as (_ & _ & As). assert (cmp x.1 e.1 = Lt) as Hxe by (apply As; [done|by left]).
        assert (cmp k x.1 = Gt) as Hkx. { apply (cmp_gt cmp T). eapply (cmp_lt_le cmp T); [exact Hxe|]. intros Hg. apply (cmp_gt cmp T) in Hg. done. }
        unfold TreeModel.below. destruct Hr as [-> | ->]; by rewrite Hkx. }
      destruct pre; exact R.
    - unfold z. rewrite Em. cbn [mbind option_bind]. destruct (tents t) as [|e rem] eqn:Ett.
      + rewrite Fe. by eexists.
      + destruct Fe as (sc & Efe & Sp). rewrite Efe, (spot_get _ _ _ _ _ Sp). exists L, [], e, rem, sc. split; [exact Lk|].
        split; [reflexivity|]. split; [reflexivity|]. split; [exact Sp|]. intros x Hx. by apply elem_of_nil in Hx. }
  unfold next_unbounded. cbn [rg_scanner new_range check_lower]. rewrite Er. unfold lower_of. destruct r as [[a|a|] rb]; cbn [fst] in *.
  - apply (Go true). right. exists a. split; [done|]. split; [by left|]. apply Fl.
  - apply (Go true). right. exists a. split; [done|]. split; [by right|]. apply Fl.
  - apply (Go false None). by left.
Qed.

Definition pass (r : bound K * bound K) (cl : bool) (x : K * V) : bool := negb (cl && TreeModel.below cmp r x.1) && within_upper cmp r x.1.
Lemma filter_none {X} (f : X -> bool) es : (forall x, x ∈ es -> f x = false) -> List.filter f es = [].
Proof.
  induction es as [|x es IH]; intros H; [done|]. cbn [List.filter]. rewrite (H x) by left. apply IH. intros y Hy. apply H. by right.
Qed.
Definition next_spec t r L cl (es : list (K * V)) (z : range * option (K * V)) : Prop :=
  match List.filter (pass r cl) es with
  | [] => z.2 = None
  | e :: _ => z.2 = Some e /\ exists sc rem, z.1 = Range (Some sc) false (upper_check cmp (hp t) r sc) /\ spot (hp t) L sc (Some e) rem /\
      List.filter (pass r cl) es = e :: List.filter (pass r false) rem /\ length rem < length es
  end.
Lemma range_next_ok t r L cl : linked (hp t) L -> forall rem e sc g f, length rem < f ->
  next_unbounded cmp t (hp t) r g = (Range (Some sc) cl (upper_check cmp (hp t) r sc), Some e) -> spot (hp t) L sc (Some e) rem ->
  next_spec t r L cl (e :: rem) (range_next cmp f t (hp t) r g).
Proof.
  intros Lk. induction rem as [|e' rem IH]; intros e sc g [|f] Hf E Sp; cbn [length] in Hf; try lia; cbn [range_next]; rewrite E; cbn [check_lower check_upper rg_scanner].
  all: pose proof (spot_later _ _ _ _ _ (proj1 Lk) Sp) as Lt.
  all: destruct (cl && TreeModel.below cmp r e.1) eqn:Eb.
  1: { destruct (nu_some t r sc cl L _ _ Lk Sp) as [g' Eg].
    unfold next_spec. cbn [List.filter]. unfold pass at 1. rewrite Eb. cbn [negb andb]. destruct f as [|f]; [done|]. cbn [range_next]. by rewrite Eg. }
  2: { destruct (nu_some t r sc cl L _ _ Lk Sp) as (sc' & Eg & Sp').
    specialize (IH e' sc' _ f ltac:(lia) Eg Sp'). unfold next_spec in *.
    assert (List.filter (pass r cl) (e :: e' :: rem) = List.filter (pass r cl) (e' :: rem)) as Ef.
    { set (es := e' :: rem). cbn [List.filter]. unfold pass at 1. by rewrite Eb. }
    rewrite Ef. clear Ef. destruct (List.filter (pass r cl) (e' :: rem)) as [|x xs]; [exact IH|].
    destruct IH as (H1 & sc2 & rem2 & H2 & H3 & H4 & H5). split; [exact H1|]. exists sc2, rem2. split; [exact H2|]. split; [exact H3|].
    split; [exact H4|]. cbn [length] in *. lia. }
  1: set (rem := @nil (K * V)) in *. 2: clear IH Hf; set (rem' := e' :: rem) in *; clearbody rem'; clear rem; rename rem' into rem.
  all: assert (List.filter (pass r cl) rem = List.filter (pass r false) rem) as Ef by
    (apply List.filter_ext_in; intros x Hx; apply elem_of_list_In in Hx; unfold pass; f_equal; f_equal;
     destruct cl; [cbn [andb] in *; by rewrite (below_mono r e.1 x.1 Eb (Lt x Hx))|reflexivity]).
  all: assert (within_upper cmp r e.1 = true -> next_spec t r L cl (e :: rem) (Range (Some sc) false (upper_check cmp (hp t) r sc), Some e)) as Yes
    by (intros Hw; unfold next_spec;
        assert (List.filter (pass r cl) (e :: rem) = e :: List.filter (pass r false) rem) as Ee
          by (rewrite <-Ef; clearbody rem || idtac; cbn [List.filter]; unfold pass at 1; by rewrite Eb, Hw);
        rewrite Ee; cbn [fst snd]; split; [reflexivity|];
        exists sc, rem; split; [reflexivity|]; split; [exact Sp|]; split; [reflexivity|cbn [length]; lia]).
  all: destruct (upper_check cmp (hp t) r sc) eqn:Eu; [|apply Yes; by eapply upper_false; [exact (proj1 Lk)|exact Sp|]].
  all: destruct (within_upper cmp r e.1) eqn:Ew; [by apply Yes|].
  all: unfold next_spec; cbn [List.filter]; unfold pass at 1; rewrite Ew, andb_false_r; rewrite filter_none; [reflexivity|];
    intros x Hx; unfold pass; by rewrite (within_mono r e.1 x.1 Ew (Lt x Hx)), andb_false_r.
Qed.
Lemma spot_length h L sc e rem : core h L -> spot h L sc (Some e) rem -> length rem < 14 * length h.
Proof.
  intros C Sp. destruct (spot_split _ _ _ _ _ Sp) as [pre E]. pose proof (fents_length h L C) as H. pose proof (core_length h L C) as H'.
  rewrite E, app_length in H. cbn [length] in H. lia.
Qed.
Lemma range_loop_ok t r L : linked (hp t) L -> forall n rem sc e f, length rem <= n -> length rem < f -> spot (hp t) L sc (Some e) rem ->
  range_loop cmp f t r (Range (Some sc) false (upper_check cmp (hp t) r sc)) = List.filter (pass r false) rem.
Proof.
  intros Lk. induction n as [|n IH]; intros rem sc e [|f] Hn Hf Sp; try lia; pose proof (nu_some t r sc false L _ _ Lk Sp) as Nu;
    cbn [range_loop]; (destruct rem as [|e' rem];
    [destruct Nu as [g' Eg]; change (range_fuel t) with (S (num_entries * length (hp t))); cbn [range_next]; by rewrite Eg|]); cbn [length] in *; try lia.
  destruct Nu as (sc' & Eg & Sp').
  pose proof (range_next_ok t r L false Lk rem e' sc' _ (range_fuel t) ltac:(pose proof (spot_length _ _ _ _ _ (proj1 Lk) Sp'); unfold range_fuel; change num_entries with 14; lia) Eg Sp') as Rn.
  destruct (range_next cmp (range_fuel t) t (hp t) r (Range (Some sc) false (upper_check cmp (hp t) r sc))) as [g' o].
  unfold next_spec in Rn. cbn [fst snd] in Rn. destruct (List.filter (pass r false) (e' :: rem)) as [|x xs].
  - by rewrite Rn.
  - destruct Rn as (-> & sc2 & rem2 & -> & Sp2 & Ef & Hl). cbn [length] in Hl. rewrite Ef. f_equal. eapply IH; [lia|lia|exact Sp2].
Qed.
Lemma range_all_ok t r : tree_ok cmp t -> range_all cmp t r = List.filter (fun e => range_contains cmp r e.1) (tents t).
Proof.
  intros Ok. pose proof (nu_none t r Ok) as Nu. unfold range_all. change (range_fuel t) with (S (num_entries * length (hp t))). cbn [range_loop].
  change (S (num_entries * length (hp t))) with (range_fuel t).
  pose proof (tents_length t Ok) as Hl. destruct (tents t) as [|e0 es0] eqn:Et.
  - destruct Nu as [g Eg]. change (range_fuel t) with (S (num_entries * length (hp t))). cbn [range_next]. by rewrite Eg.
  - destruct Nu as (L & pre & e & rem & sc & Lk & Es & Eg & Sp & Hp).
    assert (length rem < 14 * length (hp t)) as Hr by exact (spot_length _ _ _ _ _ (proj1 Lk) Sp).
    pose proof (range_next_ok t r L (lower_of r) Lk rem e sc _ (range_fuel t) ltac:(unfold range_fuel; change num_entries with 14; lia) Eg Sp) as Rn.
    assert (List.filter (fun e => range_contains cmp r e.1) (e0 :: es0) = List.filter (pass r (lower_of r)) (e :: rem)) as ->.
    { rewrite Es, List.filter_app, filter_none; cycle 1.
      - intros x Hx. by rewrite within_range, (Hp x Hx).
      - apply List.filter_ext. intros x. rewrite within_range. unfold pass. f_equal. f_equal. unfold lower_of, TreeModel.below. by destruct r.1. }
    destruct (range_next cmp (range_fuel t) t (hp t) r new_range) as [g' o].
    unfold next_spec in Rn. cbn [fst snd] in Rn. destruct (List.filter (pass r (lower_of r)) (e :: rem)) as [|x xs].
    + by rewrite Rn.
    + destruct Rn as (-> & sc2 & rem2 & -> & Sp2 & Ef & Hl2). rewrite Ef. f_equal. eapply (range_loop_ok t r L Lk (length rem2)); [lia| |exact Sp2].
      cbn [length] in Hl2. change num_entries with 14. lia.
Qed.
End facts.
